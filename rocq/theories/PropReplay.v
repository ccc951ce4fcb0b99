(** * PropReplay: C61, the ordering of a prepared graph reproduces it *)
From Verif Require Export ReplayProps Examples BinHeapFacts PropShortcut.
Open Scope N_scope.

(** C61: preparing the same graph again with the node ordering of the result, with the same limit for
    contraction, gives exactly the same result.  Any build mode, any heap. *)
Theorem C61_own_ordering_reproduces : forall c H Q qinv ig params fg order, pq_laws Q qinv ->
  prepare_with_params c H Q ig params = Ok fg -> get_node_ordering fg = Ok order ->
  permutation_of_nodes (ig_num_nodes ig) order /\
  prepare_with_order_with_params c H ig order
    (mkParamsWithOrder (p_max_settled_nodes_contraction params)) = Ok (inl fg).
Proof. exact C61_again_proof. Qed.
Print Assumptions C61_own_ordering_reproduces.

(** There always is such an ordering. *)
Theorem C61_ordering_exists : forall c H Q qinv ig params fg, pq_laws Q qinv ->
  prepare_with_params c H Q ig params = Ok fg -> exists order, get_node_ordering fg = Ok order.
Proof. exact C61_exists_proof. Qed.
Print Assumptions C61_ordering_exists.

(** In terms of [Params::new]: its last argument is the limit that counts. *)
Theorem C61_limit_of_new_params : forall c H Q qinv ig ratio initial neighbor contraction fg order, pq_laws Q qinv ->
  prepare_with_params c H Q ig (params_new ratio initial neighbor contraction) = Ok fg ->
  get_node_ordering fg = Ok order ->
  prepare_with_order_with_params c H ig order (mkParamsWithOrder contraction) = Ok (inl fg).
Proof. exact C61_new_proof. Qed.
Print Assumptions C61_limit_of_new_params.

(** With limits no search can reach, neither the limits nor the heaps need to be the same; then only the
    sums of weights on the way can still be too large. *)
Theorem C61_without_limits : forall c ops ig H hinv Q qinv params fg order H' hinv' params',
  debug_build c = true -> frozen_graph c ops ig -> heap_laws H hinv -> pq_laws Q qinv ->
  prepare_with_params c H Q ig params = Ok fg -> get_node_ordering fg = Ok order ->
  heap_laws H' hinv' ->
  ig_num_nodes ig <= p_max_settled_nodes_contraction params ->
  ig_num_nodes ig <= po_max_settled_nodes_contraction_with_order params' ->
  prepare_with_order_with_params c H' ig order params' = Ok (inl fg) \/
  prepare_with_order_with_params c H' ig order params' = Panic POverflow \/
  prepare_with_order_with_params c H' ig order params' = Panic PCapacity.
Proof. exact C61_other_proof. Qed.
Print Assumptions C61_without_limits.

(** [prepare] and [prepare_with_order] use different default limits, 500 and 100. *)
Theorem C61_default_for_hundred_nodes : forall c ops ig H hinv Q qinv fg order H' hinv',
  debug_build c = true -> frozen_graph c ops ig -> heap_laws H hinv -> pq_laws Q qinv ->
  prepare c H Q ig = Ok fg -> get_node_ordering fg = Ok order -> heap_laws H' hinv' ->
  ig_num_nodes ig <= 100 ->
  prepare_with_order c H' ig order = Ok (inl fg) \/
  prepare_with_order c H' ig order = Panic POverflow \/
  prepare_with_order c H' ig order = Panic PCapacity.
Proof. exact C61_default_proof. Qed.
Print Assumptions C61_default_for_hundred_nodes.

Example C61_case : pq_laws list_pq (fun _ => True) /\ frozen_graph cfg64 ex_ops ex_ig /\
  prepare cfg64 list_heap list_pq ex_ig = Ok ex_fg /\ get_node_ordering ex_fg = Ok [0; 5; 3; 1; 4; 2] /\
  ig_num_nodes ex_ig <= 100 /\ prepare_with_order cfg64 bin_heap ex_ig [0; 5; 3; 1; 4; 2] = Ok (inl ex_fg).
Proof.
  split; [exact list_pq_laws|]. split; [exact ex_frozen|]. split; [vm_compute; reflexivity|].
  split; [vm_compute; reflexivity|]. split; [vm_compute; discriminate|]. vm_compute. reflexivity.
Qed.

(** With low limits that differ the second graph can be another one. *)
Definition ring_ops : list ig_op :=
  [OpAddEdgeBidir 2 1 5; OpAddEdgeBidir 1 4 3; OpAddEdgeBidir 1 3 3; OpAddEdgeBidir 0 2 3; OpAddEdgeBidir 4 0 5; OpFreeze].
Definition ring_ig : InputGraph := Eval vm_compute in get_ok (ig_run cfg64 ig_new ring_ops) ig_new.
Theorem C61_other_limit_breaks_it : exists c ops ig H hinv Q qinv params limit fg order fg',
  debug_build c = true /\ frozen_graph c ops ig /\ heap_laws H hinv /\ pq_laws Q qinv /\
  0 < p_max_settled_nodes_contraction params /\ 0 < limit /\
  prepare_with_params c H Q ig params = Ok fg /\ get_node_ordering fg = Ok order /\
  prepare_with_order_with_params c H ig order (mkParamsWithOrder limit) = Ok (inl fg') /\
  fg_get_num_out_edges fg <> fg_get_num_out_edges fg'.
Proof.
  exists cfg64, ring_ops, ring_ig, list_heap, (fun _ => True), list_pq, (fun _ => True),
    (params_new f32_one_tenth 500 500 1), 100. do 3 eexists.
  split; [reflexivity|]. split.
  { split; [|split; vm_compute; reflexivity].
    intros o Ho. repeat (destruct Ho as [<-|Ho]; [cbn; repeat split; discriminate|]). destruct Ho. }
  split; [exact list_heap_laws|]. split; [exact list_pq_laws|]. split; [reflexivity|]. split; [reflexivity|].
  split; [vm_compute; reflexivity|]. split; [vm_compute; reflexivity|]. split; [vm_compute; reflexivity|].
  vm_compute. discriminate.
Qed.
Print Assumptions C61_other_limit_breaks_it.
