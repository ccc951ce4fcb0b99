(** * PropItems: C17, what std::collections::BinaryHeap requires of its items *)
From Verif Require Export Heap.
From Coq Require Import Lia.
Open Scope N_scope.

Lemma items_laws : forall a b d,
  (heap_item_cmp a b = Eq <-> heap_item_eq a b = true) /\
  heap_item_cmp b a = CompOpp (heap_item_cmp a b) /\
  (heap_item_le a b = true \/ heap_item_le b a = true) /\
  (heap_item_le a b = true -> heap_item_le b d = true -> heap_item_le a d = true) /\
  (heap_item_le a b = true <-> heap_item_cmp a b = Lt \/ heap_item_cmp a b = Eq) /\
  (heap_item_cmp a b = Lt <-> hi_weight b < hi_weight a).
Proof.
  intros a b d. unfold heap_item_le, heap_item_cmp, heap_item_eq.
  rewrite (N.compare_antisym (hi_weight a) (hi_weight b)).
  destruct (N.compare_spec (hi_weight a) (hi_weight b)); destruct (N.compare_spec (hi_weight b) (hi_weight d));
    destruct (N.compare_spec (hi_weight a) (hi_weight d)); destruct (N.eqb_spec (hi_weight a) (hi_weight b)); simpl;
    intuition (try discriminate; try lia).
Qed.

(** C17: the comparisons of heap items satisfy what the documentation of Ord, PartialOrd and Eq asks for, and what
    BinaryHeap relies on: a total order up to equality of weights, in which smaller weights are greater.  Items of
    different nodes may be equal. *)
Theorem C17_items_are_ordered : forall a b d,
  (heap_item_cmp a b = Eq <-> heap_item_eq a b = true) /\
  heap_item_cmp b a = CompOpp (heap_item_cmp a b) /\
  (heap_item_le a b = true \/ heap_item_le b a = true) /\
  (heap_item_le a b = true -> heap_item_le b d = true -> heap_item_le a d = true) /\
  (heap_item_le a b = true <-> heap_item_cmp a b = Lt \/ heap_item_cmp a b = Eq) /\
  (heap_item_cmp a b = Lt <-> hi_weight b < hi_weight a).
Proof. exact items_laws. Qed.
Print Assumptions C17_items_are_ordered.
Example C17_items_case : heap_item_eq (mkHeapItem 4 1) (mkHeapItem 4 2) = true /\
  heap_item_cmp (mkHeapItem 4 1) (mkHeapItem 3 2) = Lt /\ heap_item_le (mkHeapItem 3 1) (mkHeapItem 4 2) = false.
Proof. vm_compute. repeat split. Qed.
