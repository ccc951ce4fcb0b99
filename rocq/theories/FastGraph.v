(** * FastGraph: model of fast_graph.rs *)
From Verif Require Export Base.

(** fast_graph.rs:87-97, struct FastGraphEdge (and FastGraphEdge::new:100-114) *)
Record FastGraphEdge := mkFGE {
  fe_base : N;
  fe_adj : N;
  fe_weight : N;
  fe_replaced_in : N;
  fe_replaced_out : N
}.

(** fast_graph.rs:27-35 *)
Record FastGraph := mkFG {
  fg_num_nodes : N;
  fg_ranks : list N;
  fg_edges_fwd : list FastGraphEdge;
  fg_first_edge_ids_fwd : list N;
  fg_edges_bwd : list FastGraphEdge;
  fg_first_edge_ids_bwd : list N
}.

(** fast_graph.rs:38-47, FastGraph::new.  The sizes of the vectors are checked
    for arithmetic and capacity overflow.  No vector of the model that is allocated
    later for the same graph (preparation graph, witness search, levels, path calculator) is
    longer than [num_nodes + 1], so this check stands for all of them; it also implies that
    [rank + 1], [level + 1] and the like cannot overflow, for which plain addition is used.
    Running out of memory is not modelled. *)
Definition fg_new (c : cfg) (num_nodes : N) : res FastGraph :=
  if num_nodes <=? umax c / 2 then
    m <- uadd c num_nodes 1 ;;
    if m <=? umax c / 2 then
      Ok (mkFG num_nodes (vec_repeat 0 num_nodes) [] (vec_repeat 0 m) [] (vec_repeat 0 m))
    else Panic PCapacity
  else Panic PCapacity.

(** fast_graph.rs:49-55, get_node_ordering *)
Definition fg_get_node_ordering (fg : FastGraph) : res (list N) :=
  foldM (fun ordering i =>
           r <- idx (fg_ranks fg) i ;;
           upd ordering r i)
        (rangeN 0 (lenN (fg_ranks fg))) (vec_repeat 0 (lenN (fg_ranks fg))).

(** fast_graph.rs:57-67, get_num_nodes, get_num_out_edges, get_num_in_edges *)
Definition fg_get_num_nodes (fg : FastGraph) : N := fg_num_nodes fg.
Definition fg_get_num_out_edges (fg : FastGraph) : N := lenN (fg_edges_fwd fg).
Definition fg_get_num_in_edges (fg : FastGraph) : N := lenN (fg_edges_bwd fg).

(** The direction of a search.  [Fwd] stands for the *_fwd / out-edge members,
    [Bwd] for the *_bwd / in-edge members. *)
Inductive dir := Fwd | Bwd.
Definition opp (d : dir) : dir := match d with Fwd => Bwd | Bwd => Fwd end.

Definition fg_edges (fg : FastGraph) (d : dir) : list FastGraphEdge :=
  match d with Fwd => fg_edges_fwd fg | Bwd => fg_edges_bwd fg end.
Definition fg_first_edge_ids (fg : FastGraph) (d : dir) : list N :=
  match d with Fwd => fg_first_edge_ids_fwd fg | Bwd => fg_first_edge_ids_bwd fg end.

(** fast_graph.rs:77-79 (begin_out_edges, Fwd) and 69-71 (begin_in_edges, Bwd) *)
Definition fg_begin_edges (fg : FastGraph) (d : dir) (node : N) : res N :=
  r <- idx (fg_ranks fg) node ;;
  idx (fg_first_edge_ids fg d) r.

(** fast_graph.rs:81-83 (end_out_edges, Fwd) and 73-75 (end_in_edges, Bwd) *)
Definition fg_end_edges (fg : FastGraph) (d : dir) (node : N) : res N :=
  r <- idx (fg_ranks fg) node ;;
  idx (fg_first_edge_ids fg d) (r + 1).

(** fast_graph.rs:116-123, FastGraphEdge::is_shortcut *)
Definition fe_is_shortcut (c : cfg) (e : FastGraphEdge) : res bool :=
  let i := fe_replaced_in e =? INVALID_EDGE c in
  let o := fe_replaced_out e =? INVALID_EDGE c in
  _ <- assert ((i && o) || (negb i && negb o)) "is_shortcut" ;;
  Ok (negb i).
