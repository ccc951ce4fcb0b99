(** * PropPrepare: C07-C10, C13-C17, C34, C35, preparation *)
From Verif Require Export ReleaseProps Examples BinHeapFacts OrderProps RelLinear.
Open Scope N_scope.

(** C07: preparing with any permutation never fails, and gives the same answers as any other
    preparation of the same graph. *)
Theorem C07_permutation_is_accepted : forall c ops ig H hinv order params,
  debug_build c = true -> frozen_graph c ops ig -> heap_laws H hinv ->
  permutation_of_nodes (ig_num_nodes ig) order ->
  (exists fg, prepare_with_order_with_params c H ig order params = Ok (inl fg)) \/
  prepare_with_order_with_params c H ig order params = Panic POverflow \/
  prepare_with_order_with_params c H ig order params = Panic PCapacity.
Proof. exact C07_accepts_proof. Qed.
Print Assumptions C07_permutation_is_accepted.

Theorem C07_order_is_irrelevant : forall c ops ig order params fg params' fg' sources targets r r',
  debug_build c = true -> frozen_graph c ops ig ->
  permutation_of_nodes (ig_num_nodes ig) order ->
  prepared_by_order c ig order params fg -> prepared_by_params c ig params' fg' ->
  answer_multi c fg sources targets r -> answer_multi c fg' sources targets r' ->
  option_map sp_get_weight r = option_map sp_get_weight r'.
Proof. exact C07_proof. Qed.
Print Assumptions C07_order_is_irrelevant.

Theorem C07_orders_agree : forall c ops ig order1 params1 fg1 order2 params2 fg2 sources targets r1 r2,
  debug_build c = true -> frozen_graph c ops ig ->
  permutation_of_nodes (ig_num_nodes ig) order1 -> permutation_of_nodes (ig_num_nodes ig) order2 ->
  prepared_by_order c ig order1 params1 fg1 -> prepared_by_order c ig order2 params2 fg2 ->
  answer_multi c fg1 sources targets r1 -> answer_multi c fg2 sources targets r2 ->
  option_map sp_get_weight r1 = option_map sp_get_weight r2.
Proof. exact C07_orders_proof. Qed.
Print Assumptions C07_orders_agree.
Example C07_case : permutation_of_nodes 6 ex_order /\
  prepared_by_order cfg64 ex_ig ex_order params_with_order_default ex_fg2 /\ ex_fg2 <> ex_fg /\
  answer cfg64 ex_fg2 0 4 (Some ex_path) /\ answer cfg64 ex_fg 0 4 (Some ex_path).
Proof.
  split; [exact ex_perm|]. split; [|split; [discriminate|split; [exact ex_answer2|exact ex_answer]]].
  exists list_heap, (fun _ => True). split; [exact list_heap_laws|]. vm_compute. reflexivity.
Qed.

(** C08: the tuning parameters are irrelevant. *)
Theorem C08_params_are_irrelevant : forall c ops ig params1 fg1 params2 fg2 sources targets r1 r2,
  debug_build c = true -> frozen_graph c ops ig ->
  prepared_by_params c ig params1 fg1 -> prepared_by_params c ig params2 fg2 ->
  answer_multi c fg1 sources targets r1 -> answer_multi c fg2 sources targets r2 ->
  option_map sp_get_weight r1 = option_map sp_get_weight r2.
Proof. exact C08_proof. Qed.
Print Assumptions C08_params_are_irrelevant.
(** NaN as factor and no witness search at all *)
Definition ex_params_odd : Params := mkParams S754_nan (S754_infinity true) 0 0 0.
Definition ex_fg3 : FastGraph :=
  Eval vm_compute in get_ok (prepare_with_params cfg64 list_heap list_pq ex_ig ex_params_odd) fg_dummy.
Example C08_case : prepared_by_params cfg64 ex_ig ex_params_odd ex_fg3 /\ ex_fg3 <> ex_fg /\
  answer cfg64 ex_fg3 0 4 (Some ex_path).
Proof.
  split; [|split; [discriminate|]].
  - exists list_heap, (fun _ => True), list_pq, (fun _ => True).
    split; [exact list_heap_laws|]. split; [exact list_pq_laws|]. vm_compute. reflexivity.
  - exists list_heap, (fun _ => True). split; [exact list_heap_laws|]. left. vm_compute. reflexivity.
Qed.

(** C09: Err exactly for a wrong length; Ok never with an invalid node id. *)
Theorem C09_error_iff_wrong_length : forall c ops ig H order params,
  frozen_graph c ops ig ->
  ((exists msg, prepare_with_order_with_params c H ig order params = Ok (inr msg)) <->
   lenN order <> ig_num_nodes ig).
Proof. exact C09_err_proof. Qed.
Print Assumptions C09_error_iff_wrong_length.

(** Missing from the property: the order could still contain duplicates, see C09_refuted. *)
Theorem C09_ok_has_valid_ids_partial : forall c ops ig H order params fg,
  frozen_graph c ops ig ->
  prepare_with_order_with_params c H ig order params = Ok (inl fg) ->
  lenN order = ig_num_nodes ig /\ forall x, In x order -> x < ig_num_nodes ig.
Proof. exact C09_invalid_proof. Qed.
Print Assumptions C09_ok_has_valid_ids_partial.

(** An order of the right length with an id that is not a node stops with that message, unless the
    entries before it already exceed the integer range or the memory. *)
Theorem C09_invalid_id_panics : forall c ops ig H hinv order params,
  debug_build c = true -> frozen_graph c ops ig -> heap_laws H hinv -> lenN order = ig_num_nodes ig ->
  (exists x, In x order /\ ig_num_nodes ig <= x) ->
  prepare_with_order_with_params c H ig order params = Panic (PExplicit "Order contains invalid node id") \/
  prepare_with_order_with_params c H ig order params = Panic POverflow \/
  prepare_with_order_with_params c H ig order params = Panic PCapacity.
Proof. exact C09_invalid_id_proof. Qed.
Print Assumptions C09_invalid_id_panics.

(** An order of the right length with valid ids, repeated or not, has no outcome but these: in
    particular no index is ever out of bounds and preparation always ends. *)
Theorem C09_valid_ids_outcomes : forall c ops ig H hinv order params,
  debug_build c = true -> frozen_graph c ops ig -> heap_laws H hinv -> lenN order = ig_num_nodes ig ->
  (forall x, In x order -> x < ig_num_nodes ig) ->
  (exists fg, prepare_with_order_with_params c H ig order params = Ok (inl fg)) \/
  prepare_with_order_with_params c H ig order params = Panic (PExplicit "could not find out-edge id") \/
  prepare_with_order_with_params c H ig order params = Panic (PExplicit "could not find in-edge id") \/
  prepare_with_order_with_params c H ig order params = Panic POverflow \/
  prepare_with_order_with_params c H ig order params = Panic PCapacity.
Proof. exact C09_any_order_proof. Qed.
Print Assumptions C09_valid_ids_outcomes.
Example C09_case_outcomes :
  prepare_with_order cfg64 list_heap (mkInputGraph [mkEdge 0 1 4; mkEdge 1 2 4] 3 true) [1; 1; 0] =
    Panic (PExplicit "could not find in-edge id") /\
  prepare_with_order cfg64 list_heap (mkInputGraph [mkEdge 0 1 4; mkEdge 1 2 4] 3 true) [1; 1; 2] =
    Panic (PExplicit "could not find in-edge id").
Proof. split; vm_compute; reflexivity. Qed.
Example C09_case :
  prepare_with_order cfg64 list_heap ex_ig [0; 1; 2; 3; 4; 6] =
    Panic (PExplicit "Order contains invalid node id") /\
  exists msg, prepare_with_order cfg64 list_heap ex_ig [0; 1; 2] = Ok (inr msg).
Proof. split; [vm_compute; reflexivity|]. eexists. vm_compute. reflexivity. Qed.

(** An order with a duplicate is accepted, and the prepared graph then misses a path. *)
Theorem C09_refuted : exists ops ig order fg,
  frozen_graph cfg64 ops ig /\ ~ permutation_of_nodes (ig_num_nodes ig) order /\
  prepare_with_order cfg64 list_heap ig order = Ok (inl fg) /\
  calc_path cfg64 list_heap fg 0 2 = Ok None /\
  walk (accepted ops) 0 2 [0; 1; 2] 8.
Proof.
  exists [OpAddEdge 0 1 4; OpAddEdge 1 2 4; OpFreeze].
  exists (mkInputGraph [mkEdge 0 1 4; mkEdge 1 2 4] 3 true). exists [0; 0; 2].
  eexists. split; [|split; [|split; [|split]]].
  - split; [|split; vm_compute; reflexivity]. intros o [<-|[<-|[<-|[]]]]; cbn; repeat split; discriminate.
  - intros [HN _]. inversion HN as [|x l HI _]. apply HI. simpl. auto.
  - vm_compute. reflexivity.
  - vm_compute. reflexivity.
  - apply (walk_cons _ 0 1 2 4 [1; 2] 4); [vm_compute; auto|].
    apply (walk_cons _ 1 2 2 4 [2] 0); [vm_compute; auto|]. constructor.
Qed.
Print Assumptions C09_refuted.

(** Worse, the prepared graph can answer where there is no path, and with a path that starts at
    another node than the one asked for: no edge leaves node 1. *)
Theorem C09_invented_path_refuted : exists ops ig order fg,
  frozen_graph cfg64 ops ig /\ ~ permutation_of_nodes (ig_num_nodes ig) order /\
  prepare_with_order cfg64 list_heap ig order = Ok (inl fg) /\
  calc_path cfg64 list_heap fg 1 2 = Ok (Some (mkSP 0 2 3 [0; 2])) /\
  forall p w, ~ walk (accepted ops) 1 2 p w.
Proof.
  exists [OpAddEdge 0 1 4; OpAddEdge 0 2 3; OpFreeze].
  exists (mkInputGraph [mkEdge 0 1 4; mkEdge 0 2 3] 3 true). exists [0; 0; 2].
  eexists. split; [|split; [|split; [|split]]].
  - split; [|split; vm_compute; reflexivity]. intros o [<-|[<-|[<-|[]]]]; cbn; repeat split; discriminate.
  - intros [HN _]. inversion HN as [|x l HI _]. apply HI. simpl. auto.
  - vm_compute. reflexivity.
  - vm_compute. reflexivity.
  - intros p w Hw. inversion Hw as [|a b t w1 p' w2 He _]. vm_compute in He. subst. destruct He as [He|[He|[]]]; discriminate.
Qed.
Print Assumptions C09_invented_path_refuted.

(** C10: node ordering. *)
Theorem C10_ordering_is_permutation : forall c ops ig fg,
  1 <= umax c -> frozen_graph c ops ig -> prepared c ig fg ->
  exists l, get_node_ordering fg = Ok l /\ permutation_of_nodes (ig_num_nodes ig) l.
Proof. exact C10_proof. Qed.
Print Assumptions C10_ordering_is_permutation.

Theorem C10_given_order_is_returned : forall c ops ig order params fg,
  1 <= umax c -> frozen_graph c ops ig ->
  permutation_of_nodes (ig_num_nodes ig) order -> prepared_by_order c ig order params fg ->
  get_node_ordering fg = Ok order.
Proof. exact C10_given_proof. Qed.
Print Assumptions C10_given_order_is_returned.

Theorem C10_ordering_can_be_reused : forall c ops ig fg l ops' ig' H hinv params,
  debug_build c = true -> frozen_graph c ops ig -> prepared c ig fg -> get_node_ordering fg = Ok l ->
  frozen_graph c ops' ig' -> ig_num_nodes ig' = ig_num_nodes ig -> heap_laws H hinv ->
  (exists fg', prepare_with_order_with_params c H ig' l params = Ok (inl fg') /\
               get_node_ordering fg' = Ok l) \/
  prepare_with_order_with_params c H ig' l params = Panic POverflow \/
  prepare_with_order_with_params c H ig' l params = Panic PCapacity.
Proof. exact C10_reuse_proof. Qed.
Print Assumptions C10_ordering_can_be_reused.
Example C10_case : get_node_ordering ex_fg = Ok [0; 5; 3; 1; 4; 2] /\ get_node_ordering ex_fg2 = Ok ex_order.
Proof. split; vm_compute; reflexivity. Qed.

(** C13: preparation terminates and can only panic by overflow (of a sum of weights, of the counter
    of shortcuts, of a node count) or by a vector exceeding the maximal capacity. *)
Theorem C13_prepare_is_safe : forall c ops ig H hinv Q qinv params,
  debug_build c = true -> frozen_graph c ops ig -> heap_laws H hinv -> pq_laws Q qinv ->
  (exists fg, prepare_with_params c H Q ig params = Ok fg) \/
  prepare_with_params c H Q ig params = Panic POverflow \/
  prepare_with_params c H Q ig params = Panic PCapacity.
Proof. exact C13_proof. Qed.
Print Assumptions C13_prepare_is_safe.

Theorem C13_prepare_with_order_is_safe : forall c ops ig H hinv order params,
  debug_build c = true -> frozen_graph c ops ig -> heap_laws H hinv ->
  permutation_of_nodes (ig_num_nodes ig) order ->
  (exists fg, prepare_with_order_with_params c H ig order params = Ok (inl fg)) \/
  prepare_with_order_with_params c H ig order params = Panic POverflow \/
  prepare_with_order_with_params c H ig order params = Panic PCapacity.
Proof. exact C07_accepts_proof. Qed.
Print Assumptions C13_prepare_with_order_is_safe.
Example C13_case_ok : prepare cfg64 list_heap list_pq ex_ig = Ok ex_fg.
Proof. vm_compute. reflexivity. Qed.
Example C13_case_overflow :
  prepare_with_order cfg64 list_heap
    (mkInputGraph [mkEdge 0 1 9223372036854775808; mkEdge 1 2 9223372036854775808] 3 true) [1; 0; 2] =
  Panic POverflow.
Proof. vm_compute. reflexivity. Qed.

(** C14: bounds under which nothing can overflow. *)
Theorem C14_prepare_succeeds : forall c ops ig M H hinv Q qinv params,
  debug_build c = true -> frozen_graph c ops ig -> heap_laws H hinv -> pq_laws Q qinv ->
  (forall e, In e (accepted ops) -> e_weight e <= M) ->
  prep_bound c (ig_num_nodes ig) M -> ig_num_nodes ig * ig_num_nodes ig <= 2147483647 ->
  exists fg, prepare_with_params c H Q ig params = Ok fg.
Proof. exact C14_params_proof. Qed.
Print Assumptions C14_prepare_succeeds.

Theorem C14_prepare_with_order_succeeds : forall c ops ig M H hinv order params,
  debug_build c = true -> frozen_graph c ops ig -> heap_laws H hinv ->
  permutation_of_nodes (ig_num_nodes ig) order ->
  (forall e, In e (accepted ops) -> e_weight e <= M) -> prep_bound c (ig_num_nodes ig) M ->
  exists fg, prepare_with_order_with_params c H ig order params = Ok (inl fg).
Proof. exact C14_order_proof. Qed.
Print Assumptions C14_prepare_with_order_succeeds.

Theorem C14_query_succeeds : forall c ops ig fg M K1 K2 H hinv pc sources targets,
  debug_build c = true -> frozen_graph c ops ig -> prepared c ig fg -> heap_laws H hinv ->
  calculator c (ig_num_nodes ig) pc ->
  sources <> [] -> targets <> [] ->
  (forall v w, In (v, w) sources -> v < ig_num_nodes ig /\ (w = WEIGHT_MAX c \/ w <= K1)) ->
  (forall v w, In (v, w) targets -> v < ig_num_nodes ig /\ (w = WEIGHT_MAX c \/ w <= K2)) ->
  (forall e, In e (accepted ops) -> e_weight e <= M) ->
  K1 + K2 + M * 2 ^ ig_num_nodes ig <= umax c ->
  exists pc' r, pc_calc_path_multiple c H pc fg sources targets = Ok (pc', r).
Proof. exact C14_query_proof. Qed.
Print Assumptions C14_query_succeeds.

(** The bound in terms of the largest weight [X] stored in the prepared graph. *)
Theorem C14_query_succeeds_by_stored_weights : forall c ops ig fg X K1 K2 H hinv pc sources targets,
  debug_build c = true -> frozen_graph c ops ig -> prepared c ig fg -> heap_laws H hinv ->
  calculator c (ig_num_nodes ig) pc ->
  sources <> [] -> targets <> [] ->
  (forall v w, In (v, w) sources -> v < ig_num_nodes ig /\ (w = WEIGHT_MAX c \/ w <= K1)) ->
  (forall v w, In (v, w) targets -> v < ig_num_nodes ig /\ (w = WEIGHT_MAX c \/ w <= K2)) ->
  (forall e, In e (fg_edges_fwd fg) \/ In e (fg_edges_bwd fg) -> fe_weight e <= X) ->
  K1 + K2 + 2 * (ig_num_nodes ig - 1) * X <= umax c ->
  exists pc' r, pc_calc_path_multiple c H pc fg sources targets = Ok (pc', r).
Proof. exact C14_query_linear_proof. Qed.
Print Assumptions C14_query_succeeds_by_stored_weights.
Example C14_case : prep_bound cfg64 (ig_num_nodes ex_ig) 9 /\
  (forall e, In e (accepted ex_ops) -> e_weight e <= 9) /\ ig_num_nodes ex_ig * ig_num_nodes ex_ig <= 2147483647 /\
  (forall e, In e (fg_edges_fwd ex_fg) \/ In e (fg_edges_bwd ex_fg) -> fe_weight e <= 7) /\
  3 + 9 + 9 * 2 ^ ig_num_nodes ex_ig <= umax cfg64.
Proof.
  split; [repeat split; vm_compute; discriminate|]. split; [|split; [|split]].
  - intros e He. vm_compute in He. repeat (destruct He as [<-|He]; [vm_compute; discriminate|]). destruct He.
  - vm_compute; discriminate.
  - intros e [He|He]; vm_compute in He; repeat (destruct He as [<-|He]; [vm_compute; discriminate|]); destruct He.
  - vm_compute; discriminate.
Qed.

(** C15: a build without overflow checks returns the same, whenever a build with them returns. *)
Theorem C15_prepare_agrees : forall c H Q ig params fg,
  prepare_with_params c H Q ig params = Ok fg ->
  prepare_with_params (unchecked c) H Q ig params = Ok fg.
Proof. exact C15_params_proof. Qed.
Print Assumptions C15_prepare_agrees.

Theorem C15_prepare_with_order_agrees : forall c H ig order params r,
  prepare_with_order_with_params c H ig order params = Ok r ->
  prepare_with_order_with_params (unchecked c) H ig order params = Ok r.
Proof. exact C15_order_proof. Qed.
Print Assumptions C15_prepare_with_order_agrees.

Theorem C15_query_agrees : forall c H pc fg sources targets a,
  pc_calc_path_multiple c H pc fg sources targets = Ok a ->
  pc_calc_path_multiple (unchecked c) H pc fg sources targets = Ok a.
Proof. exact C15_query_proof. Qed.
Print Assumptions C15_query_agrees.

Theorem C15_calc_path_agrees : forall c H fg s t r,
  calc_path c H fg s t = Ok r -> calc_path (unchecked c) H fg s t = Ok r.
Proof. exact C15_calc_proof. Qed.
Print Assumptions C15_calc_path_agrees.

Theorem C15_input_graph_agrees : forall c ops g g',
  ig_run c g ops = Ok g' -> ig_run (unchecked c) g ops = Ok g'.
Proof. exact C15_graph_proof. Qed.
Print Assumptions C15_input_graph_agrees.
Example C15_case : calc_path (unchecked cfg64) list_heap ex_fg 0 4 = Ok (Some ex_path).
Proof. apply C15_calc_path_agrees. vm_compute. reflexivity. Qed.

(** C16: without overflow checks, answers are right within the bounds of C14.  Missing from the
    property: weights above the bound, for which it is false (C16_refuted). *)
Theorem C16_unchecked_build_partial : forall c ops ig fg M K1 K2 sources targets r,
  debug_build c = true ->
  (forall e, In e (accepted ops) -> e_from e < umax c /\ e_to e < umax c /\ e_weight e <= M) ->
  prep_bound c (ig_num_nodes ig) M -> ig_num_nodes ig * ig_num_nodes ig <= 2147483647 ->
  (forall v w, In (v, w) sources -> w = WEIGHT_MAX c \/ w <= K1) ->
  (forall v w, In (v, w) targets -> w = WEIGHT_MAX c \/ w <= K2) ->
  K1 + K2 + M * 2 ^ ig_num_nodes ig <= umax c ->
  frozen_graph (unchecked c) ops ig -> prepared (unchecked c) ig fg ->
  answer_multi (unchecked c) fg sources targets r ->
  match r with
  | Some p =>
      total (accepted ops) sources targets (sp_get_source p) (sp_get_target p) (sp_get_nodes p) (sp_get_weight p) /\
      (forall s t ns W, total (accepted ops) sources targets s t ns W -> sp_get_weight p <= W)
  | None => forall s t ns W, total (accepted ops) sources targets s t ns W -> WEIGHT_MAX c <= W
  end.
Proof. exact C16_proof. Qed.
Print Assumptions C16_unchecked_build_partial.

(** They are also right, with no bound at all, whenever the same calls return in a checked build. *)
Theorem C16_no_overflow_partial : forall c ops ig H hinv Q qinv params fg sources targets r,
  debug_build c = true -> frozen_graph c ops ig -> heap_laws H hinv -> pq_laws Q qinv ->
  prepare_with_params c H Q ig params = Ok fg -> calc_path_multiple c H fg sources targets = Ok r ->
  prepare_with_params (unchecked c) H Q ig params = Ok fg /\
  calc_path_multiple (unchecked c) H fg sources targets = Ok r /\
  match r with
  | Some p =>
      total (accepted ops) sources targets (sp_get_source p) (sp_get_target p) (sp_get_nodes p) (sp_get_weight p) /\
      (forall s t ns W, total (accepted ops) sources targets s t ns W -> sp_get_weight p <= W)
  | None => forall s t ns W, total (accepted ops) sources targets s t ns W -> WEIGHT_MAX c <= W
  end.
Proof. exact C16_no_overflow_proof. Qed.
Print Assumptions C16_no_overflow_partial.
Example C16_case : frozen_graph (unchecked cfg64) ex_ops ex_ig /\ prepared (unchecked cfg64) ex_ig ex_fg /\
  answer_multi (unchecked cfg64) ex_fg ex_sources ex_targets (Some ex_path_multi).
Proof.
  split; [split; [exact ex_repr|split; vm_compute; reflexivity]|]. split.
  - left. exists params_default, list_heap, (fun _ => True), list_pq, (fun _ => True).
    split; [exact list_heap_laws|]. split; [exact list_pq_laws|]. vm_compute. reflexivity.
  - exists list_heap, (fun _ => True). split; [exact list_heap_laws|]. left. vm_compute. reflexivity.
Qed.

(** A graph prepared by a checked build and queried by an unchecked build, with a bound in terms of the largest stored
    weight [X]. *)
Theorem C16_stored_weights_partial : forall c ops ig fg X K1 K2 sources targets r,
  debug_build c = true -> frozen_graph c ops ig -> prepared c ig fg ->
  (forall e, In e (fg_edges_fwd fg) \/ In e (fg_edges_bwd fg) -> fe_weight e <= X) ->
  (forall v w, In (v, w) sources -> w = WEIGHT_MAX c \/ w <= K1) ->
  (forall v w, In (v, w) targets -> w = WEIGHT_MAX c \/ w <= K2) ->
  K1 + K2 + 2 * (ig_num_nodes ig - 1) * X <= umax c ->
  answer_multi (unchecked c) fg sources targets r ->
  match r with
  | Some p =>
      total (accepted ops) sources targets (sp_get_source p) (sp_get_target p) (sp_get_nodes p) (sp_get_weight p) /\
      (forall s t ns W, total (accepted ops) sources targets s t ns W -> sp_get_weight p <= W)
  | None => forall s t ns W, total (accepted ops) sources targets s t ns W -> WEIGHT_MAX c <= W
  end.
Proof. exact C16_stored_proof. Qed.
Print Assumptions C16_stored_weights_partial.
Example C16_case_stored : forall s t ns W, total (accepted ex_ops) ex_sources ex_targets s t ns W -> 11 <= W.
Proof.
  refine (proj2 (C16_stored_weights_partial cfg64 ex_ops ex_ig ex_fg 7 100 100 ex_sources ex_targets (Some ex_path_multi)
    eq_refl ex_frozen ex_prepared _ _ _ _ _)).
  - intros e [He|He]; vm_compute in He; repeat (destruct He as [<-|He]; [vm_compute; discriminate|]); destruct He.
  - intros v w He. simpl in He.
    repeat (destruct He as [He|He]; [inversion He; first [left; reflexivity|right; vm_compute; discriminate]|]). destruct He.
  - intros v w He. simpl in He.
    repeat (destruct He as [He|He]; [inversion He; first [left; reflexivity|right; vm_compute; discriminate]|]). destruct He.
  - vm_compute. discriminate.
  - exists list_heap, (fun _ => True). split; [exact list_heap_laws|]. left. vm_compute. reflexivity.
Qed.

(** Two edges of weight 2^63: the returned weight is 0, which is not the weight of any walk. *)
Theorem C16_refuted : exists ops ig fg p,
  frozen_graph (unchecked cfg64) ops ig /\ prepare (unchecked cfg64) list_heap list_pq ig = Ok fg /\
  calc_path (unchecked cfg64) list_heap fg 0 2 = Ok (Some p) /\
  ~ exists ns, walk (accepted ops) 0 2 ns (sp_get_weight p).
Proof.
  exists [OpAddEdge 0 1 9223372036854775808; OpAddEdge 1 2 9223372036854775808; OpFreeze].
  exists (mkInputGraph [mkEdge 0 1 9223372036854775808; mkEdge 1 2 9223372036854775808] 3 true).
  eexists. eexists. split; [|split; [|split]].
  - split; [|split; vm_compute; reflexivity]. intros o [<-|[<-|[<-|[]]]]; cbn; repeat split; discriminate.
  - vm_compute. reflexivity.
  - vm_compute. reflexivity.
  - intros [ns HW]. apply walk_pos in HW; [vm_compute in HW; congruence| |discriminate].
    intros e He. apply accepted_pos in He. apply He.
Qed.
Print Assumptions C16_refuted.

(** With an alternative of weight 10 the wrapped weight 0 is still preferred. *)
Theorem C16_refuted_with_order : exists ops ig fg p,
  frozen_graph (unchecked cfg64) ops ig /\
  prepare_with_order (unchecked cfg64) list_heap ig [1; 0; 2] = Ok (inl fg) /\
  calc_path (unchecked cfg64) list_heap fg 0 2 = Ok (Some p) /\
  walk (accepted ops) 0 2 [0; 2] 10 /\ sp_get_weight p = 0 /\ sp_get_nodes p = [0; 1; 2].
Proof.
  exists [OpAddEdge 0 1 9223372036854775808; OpAddEdge 1 2 9223372036854775808; OpAddEdge 0 2 10; OpFreeze].
  exists (mkInputGraph [mkEdge 0 1 9223372036854775808; mkEdge 0 2 10; mkEdge 1 2 9223372036854775808] 3 true).
  eexists. eexists. split; [|split; [|split; [|split; [|split]]]].
  - split; [|split; vm_compute; reflexivity]. intros o [<-|[<-|[<-|[<-|[]]]]]; cbn; repeat split; discriminate.
  - vm_compute. reflexivity.
  - vm_compute. reflexivity.
  - apply (walk_cons _ 0 2 2 10 [2] 0); [vm_compute; auto|]. constructor.
  - reflexivity.
  - reflexivity.
Qed.
Print Assumptions C16_refuted_with_order.

(** C17: whatever the heaps and queues do within their contracts, the answers agree. *)
Theorem C17_tie_breaking_is_irrelevant : forall c ops ig params fg1 fg2 sources targets r1 r2
    H1 I1 H2 I2 H3 I3 H4 I4 Q1 J1 Q2 J2,
  debug_build c = true -> frozen_graph c ops ig ->
  heap_laws H1 I1 -> heap_laws H2 I2 -> heap_laws H3 I3 -> heap_laws H4 I4 ->
  pq_laws Q1 J1 -> pq_laws Q2 J2 ->
  prepare_with_params c H1 Q1 ig params = Ok fg1 -> prepare_with_params c H2 Q2 ig params = Ok fg2 ->
  calc_path_multiple c H3 fg1 sources targets = Ok r1 ->
  calc_path_multiple c H4 fg2 sources targets = Ok r2 ->
  option_map sp_get_weight r1 = option_map sp_get_weight r2.
Proof. exact C17_proof. Qed.
Print Assumptions C17_tie_breaking_is_irrelevant.
(** The binary heap of Rust's std against a list: a graph with two best paths, for which the
    two calculators return different ones. *)
Definition tie_ops : list ig_op :=
  [OpAddEdge 0 1 1; OpAddEdge 1 3 1; OpAddEdge 0 2 1; OpAddEdge 2 3 1; OpAddEdge 3 4 1; OpFreeze].
Definition tie_ig : InputGraph := Eval vm_compute in get_ok (ig_run cfg64 ig_new tie_ops) ig_new.
Example C17_case :
  frozen_graph cfg64 tie_ops tie_ig /\ heap_laws list_heap (fun _ => True) /\ heap_laws bin_heap bh_inv /\
  pq_laws list_pq (fun _ => True) /\
  (exists fg1, prepare_with_params cfg64 list_heap list_pq tie_ig params_default = Ok fg1 /\
     exists fg2, prepare_with_params cfg64 bin_heap list_pq tie_ig params_default = Ok fg2 /\
       exists p1 p2,
         calc_path_multiple cfg64 list_heap fg1 [(0, 0)] [(4, 0)] = Ok (Some p1) /\
         calc_path_multiple cfg64 bin_heap fg2 [(0, 0)] [(4, 0)] = Ok (Some p2) /\
         sp_get_nodes p1 = [0; 1; 3; 4] /\ sp_get_nodes p2 = [0; 2; 3; 4] /\
         sp_get_weight p1 = 3 /\ sp_get_weight p2 = 3).
Proof.
  split; [split; [|split; vm_compute; reflexivity]|].
  { intros o Ho. repeat (destruct Ho as [<-|Ho]; [cbn; repeat split; discriminate|]). destruct Ho. }
  split; [exact list_heap_laws|]. split; [exact bin_heap_laws|]. split; [exact list_pq_laws|].
  eexists. split; [vm_compute; reflexivity|]. eexists. split; [vm_compute; reflexivity|].
  eexists. eexists. split; [vm_compute; reflexivity|]. split; [vm_compute; reflexivity|]. repeat split; reflexivity.
Qed.

(** C34: every stored edge is a walk of the input graph of the same weight and leads to a node that is
    later in the node ordering. *)
Theorem C34_stored_edges : forall c ops ig fg l,
  debug_build c = true -> frozen_graph c ops ig -> prepared c ig fg -> get_node_ordering fg = Ok l ->
  fg_get_num_nodes fg = ig_num_nodes ig /\
  (forall e, In e (fg_edges_fwd fg) ->
     (exists ns, walk (ig_edges ig) (fe_base e) (fe_adj e) ns (fe_weight e)) /\
     exists i j, i < j /\ getN l i = Some (fe_base e) /\ getN l j = Some (fe_adj e)) /\
  (forall e, In e (fg_edges_bwd fg) ->
     (exists ns, walk (ig_edges ig) (fe_adj e) (fe_base e) ns (fe_weight e)) /\
     exists i j, i < j /\ getN l i = Some (fe_base e) /\ getN l j = Some (fe_adj e)).
Proof. exact C34_proof. Qed.
Print Assumptions C34_stored_edges.
Example C34_case : exists ns, walk (ig_edges ex_ig) 2 4 ns 6.
Proof.
  destruct (C34_stored_edges cfg64 ex_ops ex_ig ex_fg [0; 5; 3; 1; 4; 2] eq_refl ex_frozen ex_prepared) as (_ & _ & H);
    [vm_compute; reflexivity|].
  apply (H (mkFGE 4 2 6 0 4)). vm_compute. auto.
Qed.

(** C35: every shortest path weight is attained by going up in the node ordering from both ends. *)
Theorem C35_distances_preserved : forall c ops ig fg l s t W,
  debug_build c = true -> frozen_graph c ops ig -> prepared c ig fg -> get_node_ordering fg = Ok l ->
  is_dist (accepted ops) s t W -> W < WEIGHT_MAX c ->
  exists m ns1 ns2 W1 W2,
    walk (stored (fg_edges_fwd fg)) s m ns1 W1 /\ walk (stored (fg_edges_bwd fg)) t m ns2 W2 /\
    W1 + W2 = W /\
    forall ns k u v, ns = ns1 \/ ns = ns2 -> getN ns k = Some u -> getN ns (k + 1) = Some v ->
      exists i j, i < j /\ getN l i = Some u /\ getN l j = Some v.
Proof. exact C35_order_proof. Qed.
Print Assumptions C35_distances_preserved.
Example C35_case : exists m ns1 ns2 W1 W2,
    walk (stored (fg_edges_fwd ex_fg)) 0 m ns1 W1 /\ walk (stored (fg_edges_bwd ex_fg)) 4 m ns2 W2 /\
    W1 + W2 = 13.
Proof.
  destruct (C35_distances_preserved cfg64 ex_ops ex_ig ex_fg [0; 5; 3; 1; 4; 2] 0 4 13 eq_refl ex_frozen ex_prepared)
    as (m & ns1 & ns2 & W1 & W2 & H1 & H2 & HS & _).
  - vm_compute. reflexivity.
  - exact (answer_is_dist cfg64 ex_ops ex_ig ex_fg 0 4 ex_path eq_refl ex_frozen ex_prepared ex_answer).
  - reflexivity.
  - exists m, ns1, ns2, W1, W2. auto.
Qed.
