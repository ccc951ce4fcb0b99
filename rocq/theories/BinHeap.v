(** * BinHeap: the array algorithm behind std::collections::BinaryHeap<HeapItem>.

    Model of library code (Rust's alloc/src/collections/binary_heap), not of the crate: an
    instance of the contract [heap_laws] the crate is verified against.  A "hole" of the original is a
    position whose content is held aside in [elt]. *)
From Verif Require Export Heap.

(** binary_heap: sift_up(0, pos): move the hole up while the element is greater than the parent.
    Fuel: one more than the position. *)
Fixpoint bh_sift_up (fuel : nat) (d : list HeapItem) (elt : HeapItem) (pos : N) : list HeapItem :=
  match fuel with
  | O => setN d pos elt
  | S fuel' =>
      if pos =? 0 then setN d pos elt
      else
        let parent := (pos - 1) / 2 in
        match getN d parent with
        | None => setN d pos elt
        | Some p =>
            if heap_item_le elt p then setN d pos elt
            else bh_sift_up fuel' (setN d pos p) elt parent
        end
  end.

(** binary_heap: the loop of sift_down_to_bottom: move the hole down along the greater children until
    it is at the bottom.  Fuel: the length. *)
Fixpoint bh_sink (fuel : nat) (d : list HeapItem) (pos : N) : list HeapItem * N :=
  match fuel with
  | O => (d, pos)
  | S fuel' =>
      let end_ := lenN d in
      let child := 2 * pos + 1 in
      if child <=? end_ - 2 then
        match getN d child, getN d (child + 1) with
        | Some a, Some b =>
            if heap_item_le a b then bh_sink fuel' (setN d pos b) (child + 1)
            else bh_sink fuel' (setN d pos a) child
        | _, _ => (d, pos)
        end
      else if child =? end_ - 1 then
        match getN d child with
        | Some a => (setN d pos a, child)
        | None => (d, pos)
        end
      else (d, pos)
  end.

(** BinaryHeap::push *)
Definition bh_push (d : list HeapItem) (x : HeapItem) : list HeapItem :=
  bh_sift_up (S (List.length d)) (d ++ [x]) x (lenN d).

(** BinaryHeap::pop: take the last item; if there are others, exchange it with the first one and
    let it sink to the bottom and rise again. *)
Definition bh_pop (d : list HeapItem) : option (HeapItem * list HeapItem) :=
  match rev d with
  | [] => None
  | last :: front =>
      match rev front with
      | [] => Some (last, [])
      | first :: rest =>
          let '(d', pos) := bh_sink (S (List.length rest)) (last :: rest) 0 in
          Some (first, bh_sift_up (S (N.to_nat pos)) d' last pos)
      end
  end.

(** BinaryHeap::peek *)
Definition bh_peek (d : list HeapItem) : option HeapItem := getN d 0.

Definition bin_heap : heap_ops := mkHeapOps bh_push bh_peek bh_pop.

(** The heap order: no item is lighter than its parent. *)
Definition bh_inv (d : list HeapItem) : Prop :=
  forall i a p, 0 < i -> getN d i = Some a -> getN d ((i - 1) / 2) = Some p ->
    hi_weight p <= hi_weight a.
