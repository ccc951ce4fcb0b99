(** * Dijkstra: model of dijkstra.rs, the first reference implementation of the tests *)
From Verif Require Export Base Heap ValidFlags PrepGraph ShortestPath.

(** dijkstra.rs:143-158, struct Data, Data::new *)
Record DData := mkDData { dd_settled : bool; dd_weight : N; dd_parent : N }.
Definition dd_new (c : cfg) : DData := mkDData false (WEIGHT_MAX c) (INVALID_NODE c).

(** dijkstra.rs:29-34, struct Dijkstra *)
Record Dijkstra := mkDijkstra {
  dj_num_nodes : N;
  dj_data : list DData;
  dj_flags : ValidFlags;
  dj_heap : list HeapItem
}.

(** dijkstra.rs:41-49, Dijkstra::new *)
Definition dj_new (c : cfg) (num_nodes : N) : Dijkstra :=
  mkDijkstra num_nodes (vec_repeat (dd_new c) num_nodes) (vf_new num_nodes) [].

Definition dj_set_heap (d : Dijkstra) (h : list HeapItem) : Dijkstra :=
  mkDijkstra (dj_num_nodes d) (dj_data d) (dj_flags d) h.

(** dijkstra.rs:123-128, update_node *)
Definition dj_update_node (d : Dijkstra) (node weight parent : N) : res Dijkstra :=
  fl <- vf_set_valid (dj_flags d) node ;;
  data' <- upd (dj_data d) node (mkDData false weight parent) ;;
  Ok (mkDijkstra (dj_num_nodes d) data' fl (dj_heap d)).

(** dijkstra.rs:130-132, is_settled *)
Definition dj_is_settled (d : Dijkstra) (node : N) : res bool :=
  v <- vf_is_valid (dj_flags d) node ;;
  if (v : bool) then x <- idx (dj_data d) node ;; Ok (dd_settled x) else Ok false.

(** dijkstra.rs:134-140, get_weight *)
Definition dj_get_weight (c : cfg) (d : Dijkstra) (node : N) : res N :=
  v <- vf_is_valid (dj_flags d) node ;;
  if (v : bool) then x <- idx (dj_data d) node ;; Ok (dd_weight x) else Ok (WEIGHT_MAX c).

(** dijkstra.rs:63-68, init *)
Definition dj_init (c : cfg) (H : heap_ops) (d : Dijkstra) (start : N) : res Dijkstra :=
  let d1 := mkDijkstra (dj_num_nodes d) (dj_data d) (vf_invalidate_all (dj_flags d)) [] in
  d2 <- dj_update_node d1 start 0 (INVALID_NODE c) ;;
  Ok (dj_set_heap d2 (hp_push H (dj_heap d2) (mkHeapItem 0 start))).

(** dijkstra.rs:89-97, relaxation of one arc.  The graph is not modified here, so the loop
    runs over the list of arcs. *)
Definition dj_relax (c : cfg) (H : heap_ops) (curr : HeapItem) (d : Dijkstra) (a : Arc)
  : res Dijkstra :=
  weight <- uadd c (hi_weight curr) (a_weight a) ;;
  w <- dj_get_weight c d (a_adj a) ;;
  if weight <? w then
    d1 <- dj_update_node d (a_adj a) weight (hi_node curr) ;;
    Ok (dj_set_heap d1 (hp_push H (dj_heap d1) (mkHeapItem weight (a_adj a))))
  else Ok d.

(** dijkstra.rs:98, data[curr].settled = true *)
Definition dj_settle (d : Dijkstra) (node : N) : res Dijkstra :=
  x <- idx (dj_data d) node ;;
  data' <- upd (dj_data d) node (mkDData true (dd_weight x) (dd_parent x)) ;;
  Ok (mkDijkstra (dj_num_nodes d) data' (dj_flags d) (dj_heap d)).

(** dijkstra.rs:82-102, the while loop of do_calc_path *)
Fixpoint dj_loop (f : fuel) (c : cfg) (H : heap_ops) (d : Dijkstra) (g : PrepGraph) (end_ : N)
  : res Dijkstra :=
  match f with
  | FO => Diverge
  | FS f' =>
      match hp_pop H (dj_heap d) with
      | None => Ok d
      | Some (curr, h') =>
          let d1 := dj_set_heap d h' in
          settled <- dj_is_settled d1 (hi_node curr) ;;
          if (settled : bool) then dj_loop (f' tt) c H d1 g end_
          else
            arcs <- idx (pg_out g) (hi_node curr) ;;
            d2 <- foldM (dj_relax c H curr) arcs d1 ;;
            d3 <- dj_settle d2 (hi_node curr) ;;
            if hi_node curr =? end_ then Ok d3 else dj_loop (f' tt) c H d3 g end_
      end
  end.

(** Fuel for [dj_loop]: one more than the number of items that can ever be popped, as for [ws_loop]. *)
Definition dj_fuel (c : cfg) (d : Dijkstra) (g : PrepGraph) : fuel :=
  fuel_of (1 + lenN (dj_heap d) + lenN (concat (pg_out g)) + dj_num_nodes d * umax c).

(** dijkstra.rs:70-103, do_calc_path *)
Definition dj_do_calc_path (c : cfg) (H : heap_ops) (d : Dijkstra) (g : PrepGraph) (start end_ : N)
  : res Dijkstra :=
  _ <- assert (pg_num_nodes g =? dj_num_nodes d) "given graph has invalid node count" ;;
  if start =? end_ then Ok d
  else
    settled <- dj_is_settled d end_ ;;
    if (settled : bool) then Ok d
    else dj_loop (dj_fuel c d g) c H d g end_.

(** dijkstra.rs:113-117, following the parents *)
Fixpoint dj_parents (fuel : nat) (c : cfg) (d : Dijkstra) (path : list N) (node : N)
  : res (list N) :=
  match fuel with
  | O => Diverge
  | S fuel' =>
      x <- idx (dj_data d) node ;;
      if dd_parent x =? INVALID_NODE c then Ok path
      else dj_parents fuel' c d (path ++ [node]) (dd_parent x)
  end.

(** dijkstra.rs:105-121, build_path (the condition of line 109 is the negation of is_settled).  Fuel: one more than the number of nodes. *)
Definition dj_build_path (c : cfg) (d : Dijkstra) (start end_ : N) : res (option ShortestPath) :=
  if start =? end_ then Ok (Some (sp_singular start))
  else
    settled <- dj_is_settled d end_ ;;
    if negb settled then Ok None
    else
      path <- dj_parents (S (N.to_nat (dj_num_nodes d))) c d [] end_ ;;
      x <- idx (dj_data d) end_ ;;
      Ok (Some (mkSP start end_ (dd_weight x) (rev (path ++ [start])))).

(** dijkstra.rs:51-61, calc_path *)
Definition dj_calc_path (c : cfg) (H : heap_ops) (d : Dijkstra) (g : PrepGraph) (start end_ : N)
  : res (Dijkstra * option ShortestPath) :=
  d1 <- dj_init c H d start ;;
  d2 <- dj_do_calc_path c H d1 g start end_ ;;
  r <- dj_build_path c d2 start end_ ;;
  Ok (d2, r).
