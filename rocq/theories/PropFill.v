(** * PropFill: search limits and the stored edges (C63) *)
From Verif Require Import SpecFill FillProps.
From Verif Require Import Examples.
Open Scope N_scope.

(** C63: whatever the limit, a stored edge is a connection in the graph over nodes that come earlier in the node ordering
    than both of its ends. *)
Theorem C63_stored_edges_are_low_connections : forall c ops ig k fg order, debug_build c = true -> frozen_graph c ops ig ->
  prepared_with_limit c ig k fg -> get_node_ordering fg = Ok order ->
  forall u v w, stored_edge fg u v w -> low_connection (accepted ops) order u v w.
Proof. exact C63_low_proof. Qed.
Print Assumptions C63_stored_edges_are_low_connections.

(** C63: with limit zero the stored edges are exactly the lightest such connections. *)
Theorem C63_limit_zero_stores_lightest_low_connections : forall c ops ig fg order, debug_build c = true ->
  frozen_graph c ops ig -> prepared_with_limit c ig 0 fg -> get_node_ordering fg = Ok order ->
  forall u v w, u <> v -> w < umax c ->
    (stored_edge fg u v w <->
     low_connection (accepted ops) order u v w /\ forall w', low_connection (accepted ops) order u v w' -> w <= w').
Proof. exact C63_zero_proof. Qed.
Print Assumptions C63_limit_zero_stores_lightest_low_connections.

(** C63: no limit stores more edges than limit zero, for the same node ordering. *)
Theorem C63_limit_zero_stores_every_edge : forall c ops ig k fg fg0 order, debug_build c = true -> frozen_graph c ops ig ->
  prepared_with_limit c ig k fg -> prepared_with_limit c ig 0 fg0 ->
  get_node_ordering fg = Ok order -> get_node_ordering fg0 = Ok order ->
  forall u v w, stored_edge fg u v w -> exists w', stored_edge fg0 u v w' /\ w' <= w.
Proof. exact C63_most_edges_proof. Qed.
Print Assumptions C63_limit_zero_stores_every_edge.

Theorem C63_limit_zero_stores_most : forall c ops ig k fg fg0 order, debug_build c = true -> frozen_graph c ops ig ->
  prepared_with_limit c ig k fg -> prepared_with_limit c ig 0 fg0 ->
  get_node_ordering fg = Ok order -> get_node_ordering fg0 = Ok order ->
  fg_get_num_out_edges fg <= fg_get_num_out_edges fg0 /\ fg_get_num_in_edges fg <= fg_get_num_in_edges fg0.
Proof. exact C63_most_proof. Qed.
Print Assumptions C63_limit_zero_stores_most.

(** a search that stops after two nodes finds a witness here that none of the larger limits leaves in the graph *)
Definition fill_ops : list ig_op :=
  [OpAddEdge 0 2 10; OpAddEdge 0 1 3; OpAddEdge 1 2 5; OpAddEdge 2 3 1; OpAddEdge 1 4 3; OpAddEdge 4 3 4; OpAddEdge 1 5 1;
   OpFreeze].
Definition fill_ig : InputGraph := Eval vm_compute in get_ok (ig_run cfg64 ig_new fill_ops) ig_new.
Definition fill_order : list N := [4; 2; 0; 1; 3; 5].
Definition fill_fg (k : N) : FastGraph :=
  match prepare_with_order_with_params cfg64 list_heap fill_ig fill_order (mkParamsWithOrder k) with Ok (inl g) => g | _ => fg_dummy end.
Definition fill_fg0 : FastGraph := Eval vm_compute in fill_fg 0.
Definition fill_fg2 : FastGraph := Eval vm_compute in fill_fg 2.
Definition fill_fg100 : FastGraph := Eval vm_compute in fill_fg 100.

Lemma fill_frozen : frozen_graph cfg64 fill_ops fill_ig.
Proof.
  split; [|split; [vm_compute; reflexivity|reflexivity]].
  intros o Ho. repeat (destruct Ho as [<-|Ho]; [cbn; repeat split; discriminate|]). destruct Ho.
Qed.

(** C63: the documented "higher values mean less shortcuts" does not hold for every graph, not even when the higher value is
    no limit at all and the order of contractions is the same. *)
Theorem C63_higher_limit_can_store_more : exists ops ig order k1 k2 fg1 fg2,
  frozen_graph cfg64 ops ig /\ permutation_of_nodes (ig_num_nodes ig) order /\
  k1 < k2 /\ ig_num_nodes ig <= k2 /\
  prepared_by_order cfg64 ig order (mkParamsWithOrder k1) fg1 /\ prepared_by_order cfg64 ig order (mkParamsWithOrder k2) fg2 /\
  fg_get_num_out_edges fg1 < fg_get_num_out_edges fg2 /\ fg_get_num_in_edges fg1 = fg_get_num_in_edges fg2.
Proof.
  exists fill_ops, fill_ig, fill_order, 2, 100, fill_fg2, fill_fg100.
  split; [exact fill_frozen|]. split.
  { split; [repeat constructor; simpl; intuition discriminate|]. intros x. change (ig_num_nodes fill_ig) with 6. simpl. lia. }
  split; [reflexivity|]. split; [discriminate|].
  split; [exists list_heap, (fun _ => True); split; [exact list_heap_laws|vm_compute; reflexivity]|].
  split; [exists list_heap, (fun _ => True); split; [exact list_heap_laws|vm_compute; reflexivity]|].
  split; reflexivity.
Qed.
Print Assumptions C63_higher_limit_can_store_more.

(** The hypotheses are met, and the comparison is strict somewhere. *)
Example C63_case : frozen_graph cfg64 fill_ops fill_ig /\ permutation_of_nodes (ig_num_nodes fill_ig) fill_order /\
  prepared_with_limit cfg64 fill_ig 0 fill_fg0 /\ prepared_with_limit cfg64 fill_ig 2 fill_fg2 /\
  get_node_ordering fill_fg0 = Ok fill_order /\ get_node_ordering fill_fg2 = Ok fill_order /\
  stored_edge fill_fg0 0 3 11 /\ ~ stored_edge fill_fg2 0 3 11 /\ fg_get_num_out_edges fill_fg2 < fg_get_num_out_edges fill_fg0.
Proof.
  assert (permutation_of_nodes (ig_num_nodes fill_ig) fill_order) as P.
  { split; [repeat constructor; simpl; intuition discriminate|]. intros x. change (ig_num_nodes fill_ig) with 6. simpl. lia. }
  split; [exact fill_frozen|]. split; [exact P|].
  split; [right; exists fill_order, (mkParamsWithOrder 0); split; [exact P|]; split; [reflexivity|];
          exists list_heap, (fun _ => True); split; [exact list_heap_laws|vm_compute; reflexivity]|].
  split; [right; exists fill_order, (mkParamsWithOrder 2); split; [exact P|]; split; [reflexivity|];
          exists list_heap, (fun _ => True); split; [exact list_heap_laws|vm_compute; reflexivity]|].
  split; [vm_compute; reflexivity|]. split; [vm_compute; reflexivity|].
  split; [left; vm_compute; tauto|]. split; [|reflexivity].
  intros [X|X]; vm_compute in X; intuition discriminate.
Qed.
