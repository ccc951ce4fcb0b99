(** * PropShortcut: C56-C60, what preparation with unlimited searches stores *)
From Verif Require Export ShortcutProps RelLinear Examples BinHeapFacts.
Open Scope N_scope.

(** C56: with limits no search can reach, every stored edge is an added edge or a needed shortcut. *)
Theorem C56_no_needless_shortcuts : forall c ops ig fg order u v w,
  debug_build c = true -> frozen_graph c ops ig -> prepared_unlimited c ig fg ->
  get_node_ordering fg = Ok order -> stored_edge fg u v w ->
  In (mkEdge u v w) (accepted ops) \/ exists m, needed_shortcut (accepted ops) fg order u v w m.
Proof. exact C56_proof. Qed.
Print Assumptions C56_no_needless_shortcuts.
(** The default limits are enough for six nodes; the shortcut from 2 over 3 to 4 is stored. *)
Example C56_case : prepared_unlimited cfg64 ex_ig ex_fg /\
  get_node_ordering ex_fg = Ok [0; 5; 3; 1; 4; 2] /\
  stored_edge ex_fg 2 4 6 /\ ~ In (mkEdge 2 4 6) (accepted ex_ops).
Proof.
  split; [|split; [vm_compute; reflexivity|split]].
  - left. exists params_default. split; [vm_compute; discriminate|].
    exists list_heap, (fun _ => True), list_pq, (fun _ => True).
    split; [exact list_heap_laws|]. split; [exact list_pq_laws|]. vm_compute. reflexivity.
  - vm_compute. tauto.
  - vm_compute. intuition congruence.
Qed.

(** Nodes 3 and 4 are at the same distance from node 0; only 3 is on a way round node 1. *)
Definition two_ops : list ig_op :=
  [OpAddEdge 0 1 2; OpAddEdge 1 2 2; OpAddEdge 0 3 1; OpAddEdge 0 4 1; OpAddEdge 3 2 1; OpAddEdge 4 2 9; OpFreeze].
Definition two_ig : InputGraph := Eval vm_compute in get_ok (ig_run cfg64 ig_new two_ops) ig_new.
Definition two_order : list N := [1; 0; 2; 3; 4].
Definition two_fg (H : heap_ops) (limit : N) : FastGraph :=
  match prepare_with_order_with_params cfg64 H two_ig two_order (mkParamsWithOrder limit) with
  | Ok (inl g) => g | _ => fg_dummy end.
Lemma two_frozen : frozen_graph cfg64 two_ops two_ig.
Proof.
  split; [|split; vm_compute; reflexivity].
  intros o Ho. repeat (destruct Ho as [<-|Ho]; [cbn; repeat split; discriminate|]). destruct Ho.
Qed.
Lemma two_prepared H hinv limit : heap_laws H hinv ->
  prepare_with_order_with_params cfg64 H two_ig two_order (mkParamsWithOrder limit) = Ok (inl (two_fg H limit)) ->
  prepared_by_order cfg64 two_ig two_order (mkParamsWithOrder limit) (two_fg H limit).
Proof. intros HL HE. exists H, hinv. auto. Qed.

(** With a limit of two settled nodes this is not so. *)
Theorem C56_low_limits_break_it : exists c ops ig fg order u v w limit,
  debug_build c = true /\ frozen_graph c ops ig /\ 0 < limit /\
  prepared_by_order c ig order (mkParamsWithOrder limit) fg /\ permutation_of_nodes (ig_num_nodes ig) order /\
  get_node_ordering fg = Ok order /\ stored_edge fg u v w /\
  ~ In (mkEdge u v w) (accepted ops) /\ forall m, ~ needed_shortcut (accepted ops) fg order u v w m.
Proof.
  exists cfg64, two_ops, two_ig, (two_fg list_heap 2), two_order, 0, 2, 4, 2.
  split; [reflexivity|]. split; [exact two_frozen|]. split; [reflexivity|].
  split; [apply (two_prepared _ _ _ list_heap_laws); vm_compute; reflexivity|].
  split.
  { split.
    - unfold two_order. repeat constructor; simpl; intuition discriminate.
    - intros x. change (ig_num_nodes two_ig) with 5. unfold two_order. simpl. split.
      + intros H. repeat (destruct H as [<-|H]; [reflexivity|]). destruct H.
      + intros H. assert (x = 0 \/ x = 1 \/ x = 2 \/ x = 3 \/ x = 4) by lia. intuition subst; auto. }
  split; [vm_compute; reflexivity|]. split; [vm_compute; tauto|]. split; [vm_compute; intuition congruence|].
  intros m (Hm & _ & _ & Hw).
  assert (m = 1) as ->.
  { destruct Hm as (i & j & Hij & Hi & Hj). unfold two_order in *.
    assert (j = 1) as ->.
    { destruct (N.lt_ge_cases j 5) as [Hl|Hl].
      - assert (j = 0 \/ j = 1 \/ j = 2 \/ j = 3 \/ j = 4) as C by lia.
        destruct C as [->|[->|[->|[->| ->]]]]; vm_compute in Hj; congruence.
      - apply getN_Some_lt in Hj. change (lenN [1; 0; 2; 3; 4]) with 5 in Hj. lia. }
    assert (i = 0) as -> by lia. vm_compute in Hi. congruence. }
  assert (4 < 2) as X; [|discriminate X].
  apply (Hw [0; 3; 2] 2).
  - apply (walk_cons _ 0 3 2 1 [3; 2] 1); [vm_compute; tauto|].
    apply (walk_cons _ 3 2 2 1 [2] 0); [vm_compute; tauto|]. constructor.
  - assert (forall j y, 0 < j -> getN two_order j = Some y -> earlier two_order 1 y) as G.
    { intros j y Hj E. exists 0, j. auto. }
    intros y [<-|[<-|[<-|[]]]]; [apply (G 1)|apply (G 3)|apply (G 2)]; reflexivity.
Qed.
Print Assumptions C56_low_limits_break_it.

(** C57: with limits no search can reach, the prepared graph depends neither on how the heap orders
    equal weights nor on the limits. *)
Theorem C57_order_is_exact : forall c ops ig order params1 params2 fg1 fg2,
  debug_build c = true -> frozen_graph c ops ig ->
  ig_num_nodes ig <= po_max_settled_nodes_contraction_with_order params1 ->
  ig_num_nodes ig <= po_max_settled_nodes_contraction_with_order params2 ->
  prepared_by_order c ig order params1 fg1 -> prepared_by_order c ig order params2 fg2 -> fg1 = fg2.
Proof. exact C57_order_proof. Qed.
Print Assumptions C57_order_is_exact.

Theorem C57_params_is_exact : forall c ops ig params1 params2 H1 hinv1 H2 hinv2 Q fg1 fg2,
  debug_build c = true -> frozen_graph c ops ig -> heap_laws H1 hinv1 -> heap_laws H2 hinv2 ->
  p_hierarchy_depth_factor params1 = p_hierarchy_depth_factor params2 ->
  p_edge_quotient_factor params1 = p_edge_quotient_factor params2 ->
  ig_num_nodes ig <= p_max_settled_nodes_initial_relevance params1 ->
  ig_num_nodes ig <= p_max_settled_nodes_neighbor_relevance params1 ->
  ig_num_nodes ig <= p_max_settled_nodes_contraction params1 ->
  ig_num_nodes ig <= p_max_settled_nodes_initial_relevance params2 ->
  ig_num_nodes ig <= p_max_settled_nodes_neighbor_relevance params2 ->
  ig_num_nodes ig <= p_max_settled_nodes_contraction params2 ->
  prepare_with_params c H1 Q ig params1 = Ok fg1 -> prepare_with_params c H2 Q ig params2 = Ok fg2 -> fg1 = fg2.
Proof. exact C57_params_proof. Qed.
Print Assumptions C57_params_is_exact.

Theorem C57_default_for_hundred_nodes : forall c ops ig H1 hinv1 H2 hinv2 Q fg1 fg2,
  debug_build c = true -> frozen_graph c ops ig -> heap_laws H1 hinv1 -> heap_laws H2 hinv2 ->
  ig_num_nodes ig <= 100 ->
  prepare c H1 Q ig = Ok fg1 -> prepare c H2 Q ig = Ok fg2 -> fg1 = fg2.
Proof. exact C57_default_proof. Qed.
Print Assumptions C57_default_for_hundred_nodes.

(** Both heaps prepare this graph; at a limit of two settled nodes they return different graphs. *)
Example C57_case : frozen_graph cfg64 two_ops two_ig /\ ig_num_nodes two_ig <= 5 /\
  heap_laws list_heap (fun _ => True) /\ heap_laws bin_heap bh_inv /\
  prepared_by_order cfg64 two_ig two_order (mkParamsWithOrder 5) (two_fg list_heap 5) /\
  prepared_by_order cfg64 two_ig two_order (mkParamsWithOrder 9) (two_fg bin_heap 9) /\
  two_fg bin_heap 9 = two_fg list_heap 5 /\ fg_get_num_out_edges (two_fg list_heap 5) = 3 /\
  (exists fg, prepare cfg64 list_heap list_pq two_ig = Ok fg /\ prepare cfg64 bin_heap list_pq two_ig = Ok fg /\
     fg_get_num_out_edges fg = 3).
Proof.
  split; [exact two_frozen|]. split; [vm_compute; discriminate|]. split; [exact list_heap_laws|]. split; [exact bin_heap_laws|].
  split; [apply (two_prepared _ _ _ list_heap_laws); vm_compute; reflexivity|].
  split; [apply (two_prepared _ _ _ bin_heap_laws); vm_compute; reflexivity|].
  split; [vm_compute; reflexivity|]. split; [vm_compute; reflexivity|].
  eexists. split; [vm_compute; reflexivity|]. split; vm_compute; reflexivity.
Qed.

Theorem C57_low_limits_break_it : exists c ops ig order limit fg1 fg2,
  debug_build c = true /\ frozen_graph c ops ig /\ 0 < limit /\
  prepared_by_order c ig order (mkParamsWithOrder limit) fg1 /\
  prepared_by_order c ig order (mkParamsWithOrder limit) fg2 /\
  fg_get_num_out_edges fg1 <> fg_get_num_out_edges fg2.
Proof.
  exists cfg64, two_ops, two_ig, two_order, 2, (two_fg list_heap 2), (two_fg bin_heap 2).
  split; [reflexivity|]. split; [exact two_frozen|]. split; [reflexivity|].
  split; [apply (two_prepared _ _ _ list_heap_laws); vm_compute; reflexivity|].
  split; [apply (two_prepared _ _ _ bin_heap_laws); vm_compute; reflexivity|].
  vm_compute. discriminate.
Qed.
Print Assumptions C57_low_limits_break_it.

(** C58: the recursive unpacking of a stored edge is nested less deep than there are nodes. *)
Theorem C58_nesting_depth : forall c ops ig fg d id,
  1 <= umax c -> frozen_graph c ops ig -> prepared c ig fg -> id < lenN (fg_edges fg d) ->
  exists k, nested c fg d id k /\ k + 2 <= ig_num_nodes ig /\ forall k', nested c fg d id k' -> k' = k.
Proof. exact C58_proof. Qed.
Print Assumptions C58_nesting_depth.
(** The bound is attained when a chain is contracted from one end to the other. *)
Definition chain_ops : list ig_op :=
  [OpAddEdge 0 1 1; OpAddEdge 1 2 1; OpAddEdge 2 3 1; OpAddEdge 3 4 1; OpAddEdge 4 5 1; OpFreeze].
Definition chain_ig : InputGraph := Eval vm_compute in get_ok (ig_run cfg64 ig_new chain_ops) ig_new.
Definition chain_order : list N := [1; 2; 3; 4; 0; 5].
Definition chain_fg : FastGraph :=
  Eval vm_compute in
    match prepare_with_order cfg64 list_heap chain_ig chain_order with Ok (inl g) => g | _ => fg_dummy end.
Lemma chain_perm : permutation_of_nodes (ig_num_nodes chain_ig) chain_order.
Proof.
  split.
  - unfold chain_order. repeat constructor; simpl; intuition discriminate.
  - intros x. change (ig_num_nodes chain_ig) with 6. unfold chain_order. simpl. split.
    + intros H. repeat (destruct H as [<-|H]; [reflexivity|]). destruct H.
    + intros H. assert (x = 0 \/ x = 1 \/ x = 2 \/ x = 3 \/ x = 4 \/ x = 5) by lia. intuition subst; auto.
Qed.
Example C58_case : frozen_graph cfg64 chain_ops chain_ig /\ prepared cfg64 chain_ig chain_fg /\
  4 < lenN (fg_edges chain_fg Fwd) /\ nested cfg64 chain_fg Fwd 4 4 /\ ig_num_nodes chain_ig = 4 + 2.
Proof.
  split; [|split; [|split; [vm_compute; reflexivity|split; [|reflexivity]]]].
  - split; [|split; vm_compute; reflexivity].
    intros o Ho. repeat (destruct Ho as [<-|Ho]; [cbn; repeat split; discriminate|]). destruct Ho.
  - right. exists chain_order, params_with_order_default. split; [exact chain_perm|].
    exists list_heap, (fun _ => True). split; [exact list_heap_laws|]. vm_compute. reflexivity.
  - Ltac nest := solve [eapply nested_edge; [vm_compute; reflexivity|reflexivity|reflexivity]].
    assert (forall d id e ki ko k, k = 1 + N.max ki ko -> getN (fg_edges chain_fg d) id = Some e ->
      fe_replaced_in e <> INVALID_EDGE cfg64 -> fe_replaced_out e <> INVALID_EDGE cfg64 ->
      nested cfg64 chain_fg Bwd (fe_replaced_in e) ki -> nested cfg64 chain_fg Fwd (fe_replaced_out e) ko ->
      nested cfg64 chain_fg d id k) as S.
    { intros. subst. eapply nested_shortcut; eauto. }
    Ltac cut_ S j := eapply S with (ki := j) (ko := 0); [vm_compute; reflexivity|vm_compute; reflexivity|discriminate|discriminate|simpl|simpl; nest].
    cut_ S 3. cut_ S 2. cut_ S 1. cut_ S 0. nest.
Qed.

(** C59: with limits no search can reach, a stored edge stands for a walk that visits no node twice, and all
    its nodes are on lightest walks between its ends. *)
Theorem C59_shortcuts_are_simple : forall c ops ig fg d id e,
  debug_build c = true -> frozen_graph c ops ig -> prepared_unlimited c ig fg ->
  getN (fg_edges fg d) id = Some e ->
  exists ns, expansion c fg d id ns /\ (forall ns', expansion c fg d id ns' -> ns' = ns) /\ NoDup ns /\
    walk (accepted ops) (edge_start d e) (edge_end d e) ns (fe_weight e) /\
    (forall y, In y ns -> on_lightest (accepted ops) (edge_start d e) y (edge_end d e)).
Proof. exact C59_proof. Qed.
Print Assumptions C59_shortcuts_are_simple.
Lemma expand_edge c fg d id e ns : getN (fg_edges fg d) id = Some e ->
  fe_replaced_in e = INVALID_EDGE c -> fe_replaced_out e = INVALID_EDGE c ->
  ns = [edge_start d e; edge_end d e] -> expansion c fg d id ns.
Proof. intros. subst. apply expansion_edge; auto. Qed.
Lemma expand_shortcut c fg d id e ns ns1 ns2 : getN (fg_edges fg d) id = Some e ->
  fe_replaced_in e <> INVALID_EDGE c -> fe_replaced_out e <> INVALID_EDGE c ->
  expansion c fg Bwd (fe_replaced_in e) ns1 -> expansion c fg Fwd (fe_replaced_out e) ns2 ->
  ns = ns1 ++ tl ns2 -> expansion c fg d id ns.
Proof. intros. subst. eapply expansion_shortcut; eauto. Qed.
Ltac expand :=
  solve [eapply expand_edge; [vm_compute; reflexivity|reflexivity|reflexivity|reflexivity]] ||
  (eapply expand_shortcut; [vm_compute; reflexivity|discriminate|discriminate|simpl; expand|simpl; expand|reflexivity]).
(** The shortcut from 0 to 5 stands for the whole chain. *)
Example C59_case : frozen_graph cfg64 chain_ops chain_ig /\ prepared_unlimited cfg64 chain_ig chain_fg /\
  getN (fg_edges chain_fg Fwd) 4 = Some (mkFGE 0 5 5 3 3) /\
  expansion cfg64 chain_fg Fwd 4 [0; 1; 2; 3; 4; 5].
Proof.
  split; [exact (proj1 C58_case)|]. split; [|split; [vm_compute; reflexivity|expand]].
  right. exists chain_order, params_with_order_default.
  split; [exact chain_perm|]. split; [vm_compute; discriminate|].
  exists list_heap, (fun _ => True). split; [exact list_heap_laws|]. vm_compute. reflexivity.
Qed.

(** With a limit of two settled nodes this is not so: an edge from 1 to 4 passes 6 and 3 twice. *)
Definition loop_ops : list ig_op :=
  [OpAddEdge 1 2 5; OpAddEdge 6 5 1; OpAddEdge 1 6 3; OpAddEdge 3 4 5; OpAddEdge 5 1 5; OpAddEdge 0 6 5;
   OpAddEdge 2 4 1; OpAddEdge 3 0 5; OpAddEdge 6 3 5; OpFreeze].
Definition loop_ig : InputGraph := Eval vm_compute in get_ok (ig_run cfg64 ig_new loop_ops) ig_new.
Definition loop_order : list N := [3; 6; 0; 1; 2; 4; 5].
Definition loop_fg : FastGraph :=
  Eval vm_compute in
    match prepare_with_order_with_params cfg64 list_heap loop_ig loop_order (mkParamsWithOrder 2) with
    | Ok (inl g) => g | _ => fg_dummy end.
Theorem C59_low_limits_break_it : exists c ops ig fg order limit d id ns,
  debug_build c = true /\ frozen_graph c ops ig /\ 0 < limit /\
  permutation_of_nodes (ig_num_nodes ig) order /\ prepared_by_order c ig order (mkParamsWithOrder limit) fg /\
  expansion c fg d id ns /\ ~ NoDup ns.
Proof.
  exists cfg64, loop_ops, loop_ig, loop_fg, loop_order, 2, Fwd, 9, [1; 6; 3; 0; 6; 3; 4].
  split; [reflexivity|]. split; [|split; [reflexivity|split; [|split; [|split]]]].
  - split; [|split; vm_compute; reflexivity].
    intros o Ho. repeat (destruct Ho as [<-|Ho]; [cbn; repeat split; discriminate|]). destruct Ho.
  - split.
    + unfold loop_order. repeat constructor; simpl; intuition discriminate.
    + intros x. change (ig_num_nodes loop_ig) with 7. unfold loop_order. simpl. split.
      * intros H. repeat (destruct H as [<-|H]; [reflexivity|]). destruct H.
      * intros H. assert (x = 0 \/ x = 1 \/ x = 2 \/ x = 3 \/ x = 4 \/ x = 5 \/ x = 6) by lia. intuition subst; auto.
  - exists list_heap, (fun _ => True). split; [exact list_heap_laws|]. vm_compute. reflexivity.
  - expand.
  - intros H. inversion H as [|? ? _ H2]; subst. inversion H2 as [|? ? H3 _]; subst. apply H3. simpl. auto.
Qed.
Print Assumptions C59_low_limits_break_it.

(** C60: with limits no search can reach, weights stay within the number of nodes times the largest
    weight [M], so that bounds linear in it exclude overflow. *)
Theorem C60_stored_weights : forall c ops ig fg M u v w,
  debug_build c = true -> frozen_graph c ops ig -> prepared_unlimited c ig fg ->
  (forall e, In e (accepted ops) -> e_weight e <= M) ->
  stored_edge fg u v w -> w <= (ig_num_nodes ig - 1) * M.
Proof. exact C60_weight_proof. Qed.
Print Assumptions C60_stored_weights.

Theorem C60_prepare_succeeds : forall c ops ig M H hinv Q qinv params,
  debug_build c = true -> frozen_graph c ops ig -> heap_laws H hinv -> pq_laws Q qinv ->
  ig_num_nodes ig <= p_max_settled_nodes_contraction params ->
  (forall e, In e (accepted ops) -> e_weight e <= M) ->
  prep_bound_unlimited c (ig_num_nodes ig) M -> ig_num_nodes ig * ig_num_nodes ig <= 2147483647 ->
  exists fg, prepare_with_params c H Q ig params = Ok fg.
Proof. exact C60_params_proof. Qed.
Print Assumptions C60_prepare_succeeds.

Theorem C60_prepare_with_order_succeeds : forall c ops ig M H hinv order params,
  debug_build c = true -> frozen_graph c ops ig -> heap_laws H hinv ->
  permutation_of_nodes (ig_num_nodes ig) order ->
  ig_num_nodes ig <= po_max_settled_nodes_contraction_with_order params ->
  (forall e, In e (accepted ops) -> e_weight e <= M) -> prep_bound_unlimited c (ig_num_nodes ig) M ->
  exists fg, prepare_with_order_with_params c H ig order params = Ok (inl fg).
Proof. exact C60_order_proof. Qed.
Print Assumptions C60_prepare_with_order_succeeds.

Theorem C60_query_succeeds : forall c ops ig fg M K1 K2 H hinv pc sources targets,
  debug_build c = true -> frozen_graph c ops ig -> prepared_unlimited c ig fg -> heap_laws H hinv ->
  calculator c (ig_num_nodes ig) pc ->
  sources <> [] -> targets <> [] ->
  (forall v w, In (v, w) sources -> v < ig_num_nodes ig /\ (w = WEIGHT_MAX c \/ w <= K1)) ->
  (forall v w, In (v, w) targets -> v < ig_num_nodes ig /\ (w = WEIGHT_MAX c \/ w <= K2)) ->
  (forall e, In e (accepted ops) -> e_weight e <= M) ->
  K1 + K2 + 2 * (ig_num_nodes ig - 1) * ((ig_num_nodes ig - 1) * M) <= umax c ->
  exists pc' r, pc_calc_path_multiple c H pc fg sources targets = Ok (pc', r).
Proof. exact C60_query_proof. Qed.
Print Assumptions C60_query_succeeds.

(** In particular preparation with default parameters never fails on a graph with up to 100 nodes and
    weights up to a 396th of the largest integer. *)
Theorem C60_default_for_hundred_nodes : forall c ops ig M H hinv Q qinv,
  debug_build c = true -> frozen_graph c ops ig -> heap_laws H hinv -> pq_laws Q qinv ->
  ig_num_nodes ig <= 100 -> (forall e, In e (accepted ops) -> e_weight e <= M) ->
  396 * M <= umax c -> 20000 <= umax c ->
  exists fg, prepare c H Q ig = Ok fg.
Proof. exact C60_default_proof. Qed.
Print Assumptions C60_default_for_hundred_nodes.
(** Within such bounds the answers of a build without overflow checks are right, too. *)
Theorem C60_unchecked_build : forall c ops ig fg M K1 K2 sources targets r,
  debug_build c = true ->
  (forall e, In e (accepted ops) -> e_from e < umax c /\ e_to e < umax c /\ e_weight e <= M) ->
  prep_bound_unlimited c (ig_num_nodes ig) M -> ig_num_nodes ig * ig_num_nodes ig <= 2147483647 ->
  (forall v w, In (v, w) sources -> w = WEIGHT_MAX c \/ w <= K1) ->
  (forall v w, In (v, w) targets -> w = WEIGHT_MAX c \/ w <= K2) ->
  K1 + K2 + 2 * (ig_num_nodes ig - 1) * ((ig_num_nodes ig - 1) * M) <= umax c ->
  frozen_graph (unchecked c) ops ig -> prepared_unlimited (unchecked c) ig fg ->
  answer_multi (unchecked c) fg sources targets r ->
  match r with
  | Some p =>
      total (accepted ops) sources targets (sp_get_source p) (sp_get_target p) (sp_get_nodes p) (sp_get_weight p) /\
      (forall s t ns W, total (accepted ops) sources targets s t ns W -> sp_get_weight p <= W)
  | None => forall s t ns W, total (accepted ops) sources targets s t ns W -> WEIGHT_MAX c <= W
  end.
Proof. exact C60_release_proof. Qed.
Print Assumptions C60_unchecked_build.
(** The bound of stored weights is attained by the chain: five edges of weight 1 between six nodes.
    Weights that the bound of C14 excludes are allowed here. *)
Example C60_case : stored_edge chain_fg 0 5 5 /\ (forall e, In e (accepted chain_ops) -> e_weight e <= 1) /\
  (ig_num_nodes chain_ig - 1) * 1 = 5 /\
  prep_bound_unlimited cfg64 (ig_num_nodes chain_ig) 922337203685477580 /\
  ~ prep_bound cfg64 (ig_num_nodes chain_ig) 922337203685477580.
Proof.
  split; [vm_compute; tauto|]. split; [|split; [reflexivity|split]].
  - intros e He. vm_compute in He. repeat (destruct He as [<-|He]; [vm_compute; discriminate|]). destruct He.
  - repeat split; vm_compute; discriminate.
  - intros (H & _). apply H. vm_compute. reflexivity.
Qed.

Example C60_case_unchecked : frozen_graph (unchecked cfg64) chain_ops chain_ig /\ prepared_unlimited (unchecked cfg64) chain_ig chain_fg /\
  prep_bound_unlimited cfg64 (ig_num_nodes chain_ig) 1 /\
  0 + 0 + 2 * (ig_num_nodes chain_ig - 1) * ((ig_num_nodes chain_ig - 1) * 1) <= umax cfg64 /\
  exists p, answer_multi (unchecked cfg64) chain_fg [(0, 0)] [(5, 0)] (Some p) /\ sp_get_weight p = 5.
Proof.
  split; [|split; [|split; [|split]]].
  - split; [|split; vm_compute; reflexivity]. intros o Ho. vm_compute in Ho.
    repeat (destruct Ho as [<-|Ho]; [cbn; repeat split; discriminate|]). destruct Ho.
  - right. exists chain_order, params_with_order_default. split; [exact chain_perm|]. split; [vm_compute; discriminate|].
    exists list_heap, (fun _ => True). split; [exact list_heap_laws|]. vm_compute. reflexivity.
  - repeat split; vm_compute; discriminate.
  - vm_compute. discriminate.
  - eexists. split; [exists list_heap, (fun _ => True); split; [exact list_heap_laws|]; left; vm_compute; reflexivity|reflexivity].
Qed.
