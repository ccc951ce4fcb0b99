(** * PropBuild: C76, builds with and without overflow checks *)
From Verif Require Export RelLinear BuildProps Examples PropRel PropSession.
Open Scope N_scope.

(** C76: with node ids below the greatest value of [usize], both builds make the same graph of the same calls. *)
Theorem C76_same_graphs : forall c ops ig, (forall e, In e (accepted ops) -> e_from e < umax c /\ e_to e < umax c) ->
  frozen_graph (unchecked c) ops ig <-> frozen_graph c ops ig.
Proof. exact C76_graphs_proof. Qed.
Print Assumptions C76_same_graphs.

(** Within bounds on the weights, the same preparation has the same result in both builds: bounds that hold for all
    parameters, or wider ones if the limit of settled nodes is no limit. *)
Theorem C76_same_preparations : forall c ops ig M H hinv Q qinv params,
  frozen_graph c ops ig -> heap_laws H hinv -> pq_laws Q qinv ->
  debug_build c = true -> (forall e, In e (accepted ops) -> e_weight e <= M) ->
  prep_bound c (ig_num_nodes ig) M \/
    ig_num_nodes ig <= p_max_settled_nodes_contraction params /\ prep_bound_unlimited c (ig_num_nodes ig) M ->
  ig_num_nodes ig * ig_num_nodes ig <= 2147483647 ->
  prepare_with_params (unchecked c) H Q ig params = prepare_with_params c H Q ig params.
Proof. exact C76_same_params_proof. Qed.
Print Assumptions C76_same_preparations.

(** The same for a given order. *)
Theorem C76_same_preparations_with_order : forall c ops ig M H hinv order params,
  frozen_graph c ops ig -> heap_laws H hinv -> permutation_of_nodes (ig_num_nodes ig) order ->
  debug_build c = true -> (forall e, In e (accepted ops) -> e_weight e <= M) ->
  prep_bound c (ig_num_nodes ig) M \/
    ig_num_nodes ig <= po_max_settled_nodes_contraction_with_order params /\ prep_bound_unlimited c (ig_num_nodes ig) M ->
  prepare_with_order_with_params (unchecked c) H ig order params = prepare_with_order_with_params c H ig order params.
Proof. exact C76_same_order_proof. Qed.
Print Assumptions C76_same_preparations_with_order.

(** Within bounds on the weights, the same query has the same result and leaves the same calculator in both builds; this
    includes queries that panic because of invalid arguments. *)
Theorem C76_same_queries : forall c ops ig fg X K1 K2 H hinv pc sources targets,
  frozen_graph c ops ig -> prepared c ig fg -> heap_laws H hinv -> calculator c (ig_num_nodes ig) pc ->
  debug_build c = true ->
  (forall v w, In (v, w) sources -> w = WEIGHT_MAX c \/ w <= K1) ->
  (forall v w, In (v, w) targets -> w = WEIGHT_MAX c \/ w <= K2) ->
  (forall e, In e (accepted ops) -> e_weight e <= X) /\ K1 + K2 + X * 2 ^ ig_num_nodes ig <= umax c \/
  (forall e, In e (fg_edges_fwd fg) \/ In e (fg_edges_bwd fg) -> fe_weight e <= X) /\
    K1 + K2 + 2 * (ig_num_nodes ig - 1) * X <= umax c ->
  pc_calc_path_multiple (unchecked c) H pc fg sources targets = pc_calc_path_multiple c H pc fg sources targets.
Proof. exact C76_same_query_proof. Qed.
Print Assumptions C76_same_queries.

(** What the two builds did with their calculators before, perhaps beyond the bounds, makes no difference. *)
Theorem C76_same_results : forall c ops ig fg X K1 K2 H hinv pc pc2 sources targets,
  frozen_graph c ops ig -> prepared c ig fg -> heap_laws H hinv ->
  calculator c (ig_num_nodes ig) pc -> calculator (unchecked c) (ig_num_nodes ig) pc2 ->
  debug_build c = true ->
  (forall v w, In (v, w) sources -> w = WEIGHT_MAX c \/ w <= K1) ->
  (forall v w, In (v, w) targets -> w = WEIGHT_MAX c \/ w <= K2) ->
  (forall e, In e (accepted ops) -> e_weight e <= X) /\ K1 + K2 + X * 2 ^ ig_num_nodes ig <= umax c \/
  (forall e, In e (fg_edges_fwd fg) \/ In e (fg_edges_bwd fg) -> fe_weight e <= X) /\
    K1 + K2 + 2 * (ig_num_nodes ig - 1) * X <= umax c ->
  result_of (pc_calc_path_multiple (unchecked c) H pc2 fg sources targets) = result_of (pc_calc_path_multiple c H pc fg sources targets) /\
  calc_path_multiple (unchecked c) H fg sources targets = calc_path_multiple c H fg sources targets.
Proof. exact C76_same_result_proof. Qed.
Print Assumptions C76_same_results.

(** Files are written alike in both builds, and what can be read with overflow checks is read alike without them. *)
Theorem C76_same_files : forall c fg bytes,
  load_from_disk (unchecked c) bytes = load_from_disk c bytes /\
  save_to_disk32 (unchecked c) fg = save_to_disk32 c fg /\
  (forall r, load_from_disk32 c bytes = Ok r -> load_from_disk32 (unchecked c) bytes = Ok r).
Proof. exact C76_files_proof. Qed.
Print Assumptions C76_same_files.

(** Whatever the weights, a preparation without overflow checks returns a graph, unless a vector gets too long. *)
Theorem C76_release_outcomes : forall c ops ig H hinv Q qinv params,
  debug_build c = false -> 1 <= umax c -> (forall e, In e (accepted ops) -> e_from e < umax c /\ e_to e < umax c) ->
  frozen_graph c ops ig -> heap_laws H hinv -> pq_laws Q qinv ->
  (exists fg, prepare_with_params c H Q ig params = Ok fg) \/ prepare_with_params c H Q ig params = Panic PCapacity.
Proof. exact C76_params_proof. Qed.
Print Assumptions C76_release_outcomes.

(** The same for a given order. *)
Theorem C76_release_outcomes_with_order : forall c ops ig H hinv order params,
  debug_build c = false -> 1 <= umax c -> (forall e, In e (accepted ops) -> e_from e < umax c /\ e_to e < umax c) ->
  frozen_graph c ops ig -> heap_laws H hinv -> permutation_of_nodes (ig_num_nodes ig) order ->
  (exists fg, prepare_with_order_with_params c H ig order params = Ok (inl fg)) \/
  prepare_with_order_with_params c H ig order params = Panic PCapacity.
Proof. exact C76_order_proof. Qed.
Print Assumptions C76_release_outcomes_with_order.

(** An order with an id that is not a node is rejected without overflow checks as well. *)
Theorem C76_release_invalid_order : forall c ops ig H hinv order params,
  debug_build c = false -> 1 <= umax c -> (forall e, In e (accepted ops) -> e_from e < umax c /\ e_to e < umax c) ->
  frozen_graph c ops ig -> heap_laws H hinv -> lenN order = ig_num_nodes ig ->
  (exists x, In x order /\ ig_num_nodes ig <= x) ->
  prepare_with_order_with_params c H ig order params = Panic (PExplicit "Order contains invalid node id") \/
  prepare_with_order_with_params c H ig order params = Panic PCapacity.
Proof. exact C76_invalid_proof. Qed.
Print Assumptions C76_release_invalid_order.

(** Orderings can be reused without overflow checks as well, whatever the weights of both graphs. *)
Theorem C76_release_reuse : forall c ops ig fg l ops' ig' H hinv params,
  debug_build c = false -> 1 <= umax c -> frozen_graph c ops ig -> prepared c ig fg -> get_node_ordering fg = Ok l ->
  (forall e, In e (accepted ops') -> e_from e < umax c /\ e_to e < umax c) ->
  frozen_graph c ops' ig' -> ig_num_nodes ig' = ig_num_nodes ig -> heap_laws H hinv ->
  (exists fg', prepare_with_order_with_params c H ig' l params = Ok (inl fg') /\ get_node_ordering fg' = Ok l) \/
  prepare_with_order_with_params c H ig' l params = Panic PCapacity.
Proof. exact C76_reuse_proof. Qed.
Print Assumptions C76_release_reuse.

(** A graph with an edge at a node it does not count (the count wrapped without overflow checks) cannot be prepared: the
    preparation panics and never gives a wrong graph. *)
Theorem C76_unknown_nodes_panic : forall c ops ig H hinv e, 1 <= umax c -> frozen_graph c ops ig -> heap_laws H hinv ->
  In e (accepted ops) -> ig_num_nodes ig <= e_from e \/ ig_num_nodes ig <= e_to e ->
  (forall Q qinv params, pq_laws Q qinv -> exists r, prepare_with_params c H Q ig params = Panic r) /\
  (forall order params, permutation_of_nodes (ig_num_nodes ig) order -> exists r, prepare_with_order_with_params c H ig order params = Panic r).
Proof. exact C76_ids_proof. Qed.
Print Assumptions C76_unknown_nodes_panic.

(** In every session of a build without overflow checks, every proper query returns, and a returned node list is a path of
    added edges between listed end points. *)
Theorem C76_release_sessions : forall c w ops fg pc H hinv sources targets,
  platform c -> debug_build c = false -> 1 <= umax c -> session c w -> In (ops, fg) (w_prepared w) -> In pc (w_calculators w) ->
  heap_laws H hinv -> pc_num_nodes pc = fg_get_num_nodes fg ->
  sources <> [] -> targets <> [] -> (forall v w, In (v, w) (sources ++ targets) -> v < fg_get_num_nodes fg) ->
  exists pc' r, pc_calc_path_multiple c H pc fg sources targets = Ok (pc', r) /\
    forall p, r = Some p -> (exists w, In (sp_get_source p, w) sources) /\ (exists w, In (sp_get_target p, w) targets) /\
      exists W, walk (accepted ops) (sp_get_source p) (sp_get_target p) (sp_get_nodes p) W.
Proof. exact C76_session_proof. Qed.
Print Assumptions C76_release_sessions.

(** The example graph is within all the bounds. *)
Example C76_case : frozen_graph cfg64 ex_ops ex_ig /\ prepared cfg64 ex_ig ex_fg /\ calculator cfg64 (ig_num_nodes ex_ig) ex_pc2 /\
  (forall e, In e (accepted ex_ops) -> e_from e < umax cfg64 /\ e_to e < umax cfg64 /\ e_weight e <= 9) /\
  prep_bound cfg64 (ig_num_nodes ex_ig) 9 /\ ig_num_nodes ex_ig * ig_num_nodes ex_ig <= 2147483647 /\
  0 + 0 + 9 * 2 ^ ig_num_nodes ex_ig <= umax cfg64 /\
  pc_calc_path_multiple (unchecked cfg64) list_heap ex_pc2 ex_fg [(0, 0)] [(4, 0)] =
    pc_calc_path_multiple cfg64 list_heap ex_pc2 ex_fg [(0, 0)] [(4, 0)].
Proof.
  assert (forall e, In e (accepted ex_ops) -> e_from e < umax cfg64 /\ e_to e < umax cfg64 /\ e_weight e <= 9) as HM.
  { intros e He. vm_compute in He. repeat (destruct He as [<-|He]; [simpl; lia|]). destruct He. }
  split; [exact ex_frozen|]. split; [exact ex_prepared|]. split; [exact ex_calculator|]. split; [exact HM|].
  split; [repeat split; vm_compute; discriminate|]. split; [vm_compute; discriminate|]. split; [vm_compute; discriminate|].
  apply (C76_same_queries cfg64 ex_ops ex_ig ex_fg 9 0 0 list_heap (fun _ => True) ex_pc2 [(0, 0)] [(4, 0)]).
  - exact ex_frozen.
  - exact ex_prepared.
  - exact list_heap_laws.
  - exact ex_calculator.
  - reflexivity.
  - intros v w [[= <- <-]|[]]. right. reflexivity.
  - intros v w [[= <- <-]|[]]. right. reflexivity.
  - left. split; [intros e He; apply HM; exact He|vm_compute; discriminate].
Qed.
(** Beyond the bounds: the graph of C69, whose weights wrap.  It is prepared, an invalid order is rejected, its ordering can be
    reused, and a session of the release build returns a path. *)
Example C76_case_release :
  (exists fg, prepare_with_params (unchecked cfg64) list_heap list_pq ex_wrap_ig params_default = Ok fg) /\
  prepare_with_order (unchecked cfg64) list_heap ex_wrap_ig [1; 3; 0] = Panic (PExplicit "Order contains invalid node id") /\
  get_node_ordering ex_wrap_fg = Ok [1; 0; 2] /\
  session (unchecked cfg64) (World [(ex_wrap_ops, ex_wrap_ig)] [(ex_wrap_ops, ex_wrap_fg)] [create_calculator (unchecked cfg64) ex_wrap_fg] []).
Proof.
  split; [eexists; vm_compute; reflexivity|]. split; [vm_compute; reflexivity|]. split; [vm_compute; reflexivity|].
  pose proof (session_event _ _ _ (session_start (unchecked cfg64)) (ev_new (unchecked cfg64) [] [] [] [])) as S1.
  assert (session (unchecked cfg64) (World [(ex_wrap_ops, ex_wrap_ig)] [] [] [])) as S2
    by (eapply session_calls; [|exact S1|exact (proj1 ex_wrap_frozen)|exact (proj1 (proj2 ex_wrap_frozen))]; reflexivity).
  pose proof (session_event _ _ _ S2 (ev_prepare (unchecked cfg64) [(ex_wrap_ops, ex_wrap_ig)] [] [] [] ex_wrap_ops ex_wrap_ig ex_wrap_fg (or_introl eq_refl) ex_wrap_prepared)) as S3.
  exact (session_event _ _ _ S3 (ev_create_calculator (unchecked cfg64) [(ex_wrap_ops, ex_wrap_ig)] [(ex_wrap_ops, ex_wrap_fg)] [] [] ex_wrap_ops ex_wrap_fg (or_introl eq_refl))).
Qed.
(** An edge to the greatest id: the node count wraps to zero, and the preparation panics. *)
Definition id_ops : list ig_op := [OpAddEdge 0 18446744073709551615 1; OpFreeze].
Example C76_case_ids : exists ig, frozen_graph (unchecked cfg64) id_ops ig /\ ig_num_nodes ig = 0 /\
  In (mkEdge 0 18446744073709551615 1) (accepted id_ops) /\
  exists r, prepare (unchecked cfg64) list_heap list_pq ig = Panic r.
Proof.
  exists (mkInputGraph [mkEdge 0 18446744073709551615 1] 0 true).
  split; [split; [|split; vm_compute; reflexivity]|].
  - intros o Ho. repeat (destruct Ho as [<-|Ho]; [cbn; repeat split; discriminate|]). destruct Ho.
  - split; [reflexivity|]. split; [left; reflexivity|]. eexists. vm_compute. reflexivity.
Qed.
