(** * Heap: heap items and the contracts of the two external priority queues. *)
From Verif Require Export Base.
From Coq Require Import Permutation.

(** heap_item.rs:26-35, struct HeapItem and HeapItem::new *)
Record HeapItem := mkHeapItem { hi_weight : N; hi_node : N }.

(** heap_item.rs:43-47, Ord::cmp for HeapItem: the reverse of the order of the
    weights, so that the maximum of a max-heap is an item of least weight. *)
Definition heap_item_cmp (a b : HeapItem) : comparison :=
  CompOpp (N.compare (hi_weight a) (hi_weight b)).

(** heap_item.rs:37-41 (PartialOrd), used by BinaryHeap as [a <= b] *)
Definition heap_item_le (a b : HeapItem) : bool :=
  match heap_item_cmp a b with Gt => false | _ => true end.

(** heap_item.rs:49-53, PartialEq *)
Definition heap_item_eq (a b : HeapItem) : bool := hi_weight a =? hi_weight b.

(** Operations of std::collections::BinaryHeap<HeapItem> used by the crate
    (new/clear give the empty list).  The carrier is the backing Vec.  External code: an
    implementation is any record of operations satisfying [heap_laws]. *)
Record heap_ops := mkHeapOps {
  hp_push : list HeapItem -> HeapItem -> list HeapItem;
  hp_peek : list HeapItem -> option HeapItem;
  hp_pop : list HeapItem -> option (HeapItem * list HeapItem)
}.

(** Contract of BinaryHeap: [inv] holds for the empty heap and is kept by push and
    pop; push adds one item; pop fails exactly on the empty heap and otherwise removes a
    greatest item (w.r.t. [heap_item_cmp]), which is also what peek returns. *)
Definition heap_laws (H : heap_ops) (inv : list HeapItem -> Prop) : Prop :=
  inv [] /\
  (forall h x, inv h -> inv (hp_push H h x) /\ Permutation (hp_push H h x) (x :: h)) /\
  (forall h, inv h -> (hp_pop H h = None <-> h = [])) /\
  (forall h x h', inv h -> hp_pop H h = Some (x, h') ->
     inv h' /\ Permutation h (x :: h') /\
     (forall y, In y h -> heap_item_le y x = true)) /\
  (forall h, inv h -> hp_peek H h = option_map fst (hp_pop H h)).

(** Operations of priority_queue::PriorityQueue<NodeId, Reverse<Weight>> used by
    fast_graph_builder.rs.  Items are (node, priority); the carrier is a list. *)
Record pq_ops := mkPqOps {
  pq_push : list (N * N) -> N -> N -> list (N * N);
  pq_pop : list (N * N) -> option ((N * N) * list (N * N));
  pq_change_priority : list (N * N) -> N -> N -> list (N * N)
}.

(** Replace the priority of item [k] (if present) by [p]. *)
Definition set_priority (l : list (N * N)) (k p : N) : list (N * N) :=
  map (fun q => if fst q =? k then (k, p) else q) l.

(** Contract of PriorityQueue: pushing a new item adds it, changing the priority of
    an item changes nothing else, pop removes an item whose Reverse(priority)
    is greatest, i.e. whose priority is least. *)
Definition pq_laws (Q : pq_ops) (inv : list (N * N) -> Prop) : Prop :=
  inv [] /\
  (forall q k p, inv q -> ~ In k (map fst q) ->
     inv (pq_push Q q k p) /\ Permutation (pq_push Q q k p) ((k, p) :: q)) /\
  (forall q, inv q -> (pq_pop Q q = None <-> q = [])) /\
  (forall q k p q', inv q -> pq_pop Q q = Some ((k, p), q') ->
     inv q' /\ Permutation q ((k, p) :: q') /\
     (forall k' p', In (k', p') q -> p <= p')) /\
  (forall q k p, inv q ->
     inv (pq_change_priority Q q k p) /\
     Permutation (pq_change_priority Q q k p) (set_priority q k p)).
