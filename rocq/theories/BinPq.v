(** * BinPq: the array algorithm behind priority_queue::PriorityQueue<NodeId, Reverse<Weight>>.

    Model of library code (the crate priority-queue, version 2, of Cargo.toml:22), not of the crate
    itself: an instance of the contract [pq_laws] the crate is verified against.  The library keeps
    an index map of the items and their priorities, an array of indices into it in heap order, and
    its inverse.  Here the array holds the items themselves: an entry is the node [hi_node] with the
    priority [hi_weight], and the position of an item is found by looking for it.  Reverse(a) <
    Reverse(b) is [b < a], which is how heap items are compared. *)
From Verif Require Export BinHeap.

(** PriorityQueue::bubble_up: move the hole up while the priority of the parent is less; also gives
    the position reached. *)
Fixpoint bp_bubble_up (fuel : nat) (d : list HeapItem) (elt : HeapItem) (pos : N)
  : list HeapItem * N :=
  match fuel with
  | O => (setN d pos elt, pos)
  | S fuel' =>
      if pos =? 0 then (setN d pos elt, pos)
      else
        let parent := (pos - 1) / 2 in
        match getN d parent with
        | None => (setN d pos elt, pos)
        | Some p =>
            if heap_item_le elt p then (setN d pos elt, pos)
            else bp_bubble_up fuel' (setN d pos p) elt parent
        end
  end.

(** PriorityQueue::heapify, the choice of the greatest of an entry and its children *)
Definition bp_largest (d : list HeapItem) (i : N) (cur : HeapItem) : N * HeapItem :=
  let '(l, lv) :=
    match getN d (2 * i + 1) with
    | Some a => if heap_item_le a cur then (i, cur) else (2 * i + 1, a)
    | None => (i, cur)
    end in
  match getN d (2 * i + 2) with
  | Some b => if heap_item_le b lv then (l, lv) else (2 * i + 2, b)
  | None => (l, lv)
  end.

(** PriorityQueue::heapify: exchange the entry with its greatest child until it is the greatest. *)
Fixpoint bp_heapify (fuel : nat) (d : list HeapItem) (i : N) : list HeapItem :=
  match fuel with
  | O => d
  | S fuel' =>
      match getN d i with
      | None => d
      | Some cur =>
          let '(l, lv) := bp_largest d i cur in
          if l =? i then d else bp_heapify fuel' (setN (setN d i lv) l cur) l
      end
  end.

(** PriorityQueue::up_heapify *)
Definition bp_up_heapify (d : list HeapItem) (i : N) : list HeapItem :=
  match getN d i with
  | None => d
  | Some elt =>
      let '(d', pos) := bp_bubble_up (S (N.to_nat i)) d elt i in
      bp_heapify (List.length d') d' pos
  end.

(** The position of an item (Store::qp and the index map) *)
Fixpoint bp_position (d : list HeapItem) (k : N) : option N :=
  match d with
  | [] => None
  | x :: t => if hi_node x =? k then Some 0 else option_map N.succ (bp_position t k)
  end.

(** PriorityQueue::change_priority *)
Definition bp_change (d : list HeapItem) (k p : N) : list HeapItem :=
  match bp_position d k with
  | None => d
  | Some i => bp_up_heapify (setN d i (mkHeapItem p k)) i
  end.

(** PriorityQueue::push: an item that is present gets the new priority, another one is appended and
    rises. *)
Definition bp_push (d : list HeapItem) (k p : N) : list HeapItem :=
  match bp_position d k with
  | Some i => bp_up_heapify (setN d i (mkHeapItem p k)) i
  | None => fst (bp_bubble_up (S (List.length d)) (d ++ [mkHeapItem p k]) (mkHeapItem p k) (lenN d))
  end.

(** PriorityQueue::pop (Store::swap_remove of position 0): the last entry takes the first place and
    sinks. *)
Definition bp_pop (d : list HeapItem) : option (HeapItem * list HeapItem) :=
  match rev d with
  | [] => None
  | last :: front =>
      match rev front with
      | [] => Some (last, [])
      | first :: rest => Some (first, bp_heapify (S (List.length rest)) (last :: rest) 0)
      end
  end.

(** Entries as pairs of an item and its priority *)
Definition entry (q : N * N) : HeapItem := mkHeapItem (snd q) (fst q).
Definition unentry (x : HeapItem) : N * N := (hi_node x, hi_weight x).

Definition bin_pq : pq_ops :=
  mkPqOps (fun q k p => map unentry (bp_push (map entry q) k p))
          (fun q => match bp_pop (map entry q) with
                    | None => None
                    | Some (x, d) => Some (unentry x, map unentry d)
                    end)
          (fun q k p => map unentry (bp_change (map entry q) k p)).

(** The heap order, and every item occurs once. *)
Definition bp_inv (q : list (N * N)) : Prop := bh_inv (map entry q) /\ NoDup (map fst q).
