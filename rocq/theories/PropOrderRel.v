(** * PropOrderRel: C09 in builds with and without overflow checks *)
From Verif Require Export OrderRel PropPrepare.
From Coq Require Import Lia.
Open Scope N_scope.

(** C09: what prepare_with_order can do with an order of the right length, in both builds.  (In a release build a node id
    of usize::MAX makes the node count wrap around; such graphs are excluded there.)  Sums of weights that are too large
    stop it in builds with overflow checks only; the memory for the edges can only be too small if the square of the
    number of nodes is too large. *)
Theorem C09_outcomes_in_both_builds : forall c ops ig H hinv order params, 1 <= umax c ->
  (debug_build c = true \/ forall e, In e (accepted ops) -> e_from e < umax c /\ e_to e < umax c) ->
  frozen_graph c ops ig -> heap_laws H hinv -> lenN order = ig_num_nodes ig ->
  ((forall x, In x order -> x < ig_num_nodes ig) ->
   (exists fg, prepare_with_order_with_params c H ig order params = Ok (inl fg)) \/
   prepare_with_order_with_params c H ig order params = Panic (PExplicit "could not find out-edge id") \/
   prepare_with_order_with_params c H ig order params = Panic (PExplicit "could not find in-edge id") \/
   (prepare_with_order_with_params c H ig order params = Panic POverflow /\ debug_build c = true) \/
   (prepare_with_order_with_params c H ig order params = Panic PCapacity /\
    (umax c / 2 < ig_num_nodes ig * ig_num_nodes ig \/ umax c / 2 < ig_num_nodes ig + 1))) /\
  ((exists x, In x order /\ ig_num_nodes ig <= x) ->
   prepare_with_order_with_params c H ig order params = Panic (PExplicit "Order contains invalid node id") \/
   (prepare_with_order_with_params c H ig order params = Panic POverflow /\ debug_build c = true) \/
   (prepare_with_order_with_params c H ig order params = Panic PCapacity /\
    (umax c / 2 < ig_num_nodes ig * ig_num_nodes ig \/ umax c / 2 < ig_num_nodes ig + 1))).
Proof. exact C09_any_build_proof. Qed.
Print Assumptions C09_outcomes_in_both_builds.

(** Hence a release build with an order of the right length and an invalid id stops with the documented message, whatever
    the weights are, if the square of the number of nodes fits. *)
Theorem C09_invalid_id_in_release : forall c ops ig H hinv order params, debug_build c = false ->
  (forall e, In e (accepted ops) -> e_from e < umax c /\ e_to e < umax c) ->
  ig_num_nodes ig * ig_num_nodes ig <= umax c / 2 -> ig_num_nodes ig + 1 <= umax c / 2 ->
  frozen_graph c ops ig -> heap_laws H hinv -> lenN order = ig_num_nodes ig ->
  (exists x, In x order /\ ig_num_nodes ig <= x) ->
  prepare_with_order_with_params c H ig order params = Panic (PExplicit "Order contains invalid node id").
Proof.
  intros c ops ig H hinv order params Hd Hids B1 B2 Hf HL Hl Hex.
  assert (1 <= umax c) as Hu by (assert (umax c / 2 <= umax c) by (apply N.div_le_upper_bound; lia); lia).
  destruct (proj2 (C09_outcomes_in_both_builds c ops ig H hinv order params Hu (or_intror Hids) Hf HL Hl) Hex)
    as [E|[[_ E]|[_ E]]]; [exact E|congruence|lia].
Qed.
Print Assumptions C09_invalid_id_in_release.

Definition ex09_ops : list ig_op := [OpAddEdge 0 1 (2 ^ 63); OpAddEdge 1 2 (2 ^ 63); OpFreeze].
Definition ex09_ig : InputGraph := mkInputGraph [mkEdge 0 1 (2 ^ 63); mkEdge 1 2 (2 ^ 63)] 3 true.
Example C09_case_release :
  prepare_with_order (unchecked cfg64) list_heap ex09_ig [1; 1; 0] = Panic (PExplicit "could not find in-edge id") /\
  prepare_with_order cfg64 list_heap ex09_ig [1; 0; 3] = Panic POverflow /\
  prepare_with_order (unchecked cfg64) list_heap ex09_ig [1; 0; 3] = Panic (PExplicit "Order contains invalid node id").
Proof.
  split; [vm_compute; reflexivity|]. split; [vm_compute; reflexivity|].
  assert (ig_num_nodes ex09_ig * ig_num_nodes ex09_ig <= umax (unchecked cfg64) / 2) as B1 by (vm_compute; discriminate).
  assert (ig_num_nodes ex09_ig + 1 <= umax (unchecked cfg64) / 2) as B2 by (vm_compute; discriminate).
  assert (frozen_graph (unchecked cfg64) ex09_ops ex09_ig) as Hf.
  { split; [|split; vm_compute; reflexivity].
    intros o Ho. repeat (destruct Ho as [<-|Ho]; [vm_compute; repeat split; discriminate|]). destruct Ho. }
  refine (C09_invalid_id_in_release (unchecked cfg64) ex09_ops ex09_ig list_heap (fun _ => True) [1; 0; 3]
    params_with_order_default eq_refl _ B1 B2 Hf list_heap_laws eq_refl _).
  - intros e He. vm_compute in He. repeat (destruct He as [<-|He]; [vm_compute; split; reflexivity|]). destruct He.
  - exists 3. split; [simpl; auto|vm_compute; discriminate].
Qed.
