(** * HeapImpl: concrete implementations of the two priority queue interfaces. *)
From Verif Require Export Heap.

(** ** A list-based heap: pop removes the first item of least weight. *)
Fixpoint extract_min (x : HeapItem) (l : list HeapItem) : HeapItem * list HeapItem :=
  match l with
  | [] => (x, [])
  | y :: t =>
      if hi_weight y <? hi_weight x
      then let '(m, r) := extract_min y t in (m, x :: r)
      else let '(m, r) := extract_min x t in (m, y :: r)
  end.
Definition list_pop (l : list HeapItem) : option (HeapItem * list HeapItem) :=
  match l with
  | [] => None
  | x :: t => Some (extract_min x t)
  end.
Definition list_heap : heap_ops :=
  mkHeapOps (fun l x => x :: l) (fun l => option_map fst (list_pop l)) list_pop.

(** ** A list-based priority queue *)
Fixpoint pq_extract_min (x : N * N) (l : list (N * N)) : (N * N) * list (N * N) :=
  match l with
  | [] => (x, [])
  | y :: t =>
      if snd y <? snd x
      then let '(m, r) := pq_extract_min y t in (m, x :: r)
      else let '(m, r) := pq_extract_min x t in (m, y :: r)
  end.
Definition list_pq : pq_ops :=
  mkPqOps (fun q k p => q ++ [(k, p)])
          (fun q => match q with [] => None | x :: t => Some (pq_extract_min x t) end)
          set_priority.
