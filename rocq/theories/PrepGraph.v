(** * PrepGraph: model of preparation_graph.rs *)
From Verif Require Export Base InputGraph.

(** preparation_graph.rs:158-172, struct Arc, Arc::new *)
Record Arc := mkArc { a_adj : N; a_weight : N; a_center : N }.

(** preparation_graph.rs:24-28 *)
Record PrepGraph := mkPrepGraph {
  pg_out : list (list Arc);
  pg_in : list (list Arc);
  pg_num_nodes : N
}.

(** preparation_graph.rs:31-39, PreparationGraph::new *)
Definition pg_new (num_nodes : N) : PrepGraph :=
  mkPrepGraph (vec_repeat [] num_nodes) (vec_repeat [] num_nodes) num_nodes.

(** preparation_graph.rs:147-154, assert_valid_node_id *)
Definition pg_assert_valid_node_id (g : PrepGraph) (node : N) : res unit :=
  if pg_num_nodes g <=? node then Panic (PExplicit "invalid node id") else Ok tt.

(** preparation_graph.rs:53-63, add_edge_or_shortcut.  The capacity limit of these
    small vectors is not modelled. *)
Definition pg_add_edge_or_shortcut (g : PrepGraph) (from to weight center : N)
  : res PrepGraph :=
  _ <- pg_assert_valid_node_id g to ;;
  outs <- idx (pg_out g) from ;;
  out' <- upd (pg_out g) from (outs ++ [mkArc to weight center]) ;;
  ins <- idx (pg_in g) to ;;
  in' <- upd (pg_in g) to (ins ++ [mkArc from weight center]) ;;
  Ok (mkPrepGraph out' in' (pg_num_nodes g)).

(** preparation_graph.rs:49-51, add_edge *)
Definition pg_add_edge (c : cfg) (g : PrepGraph) (from to weight : N) : res PrepGraph :=
  pg_add_edge_or_shortcut g from to weight (INVALID_NODE c).

(** preparation_graph.rs:41-47, from_input_graph *)
Definition pg_from_input_graph (c : cfg) (ig : InputGraph) : res PrepGraph :=
  n <- ig_get_num_nodes ig ;;
  es <- ig_get_edges ig ;;
  foldM (fun g e => pg_add_edge c g (e_from e) (e_to e) (e_weight e)) es (pg_new n).

(** position and value of the first arc with the given adjacent node
    (the [for]/[if] of preparation_graph.rs:85-86) *)
Fixpoint find_arc (adj : N) (l : list Arc) (i : N) : option (N * Arc) :=
  match l with
  | [] => None
  | a :: t => if a_adj a =? adj then Some (i, a) else find_arc adj t (i + 1)
  end.

(** preparation_graph.rs:78-102, reduce_edge.  The inner loop over in_edges[to]
    assigns weight and center of the out-arc and of every matching in-arc; the out-arc
    is therefore changed iff at least one in-arc matches. *)
Definition pg_reduce_edge (g : PrepGraph) (from to weight center : N)
  : res (PrepGraph * bool) :=
  outs <- idx (pg_out g) from ;;
  match find_arc to outs 0 with
  | None => Ok (g, false)
  | Some (k, a) =>
      if a_weight a <=? weight then Ok (g, true)
      else
        ins <- idx (pg_in g) to ;;
        let ins' := map (fun e => if a_adj e =? from
                                  then mkArc (a_adj e) weight center else e) ins in
        let outs' := if existsb (fun e => a_adj e =? from) ins
                     then setN outs k (mkArc (a_adj a) weight center) else outs in
        Ok (mkPrepGraph (setN (pg_out g) from outs') (setN (pg_in g) to ins')
                        (pg_num_nodes g), true)
  end.

(** preparation_graph.rs:65-76, add_or_reduce_edge *)
Definition pg_add_or_reduce_edge (g : PrepGraph) (from to weight center : N)
  : res PrepGraph :=
  '(g', done) <- pg_reduce_edge g from to weight center ;;
  if (done : bool) then Ok g' else pg_add_edge_or_shortcut g' from to weight center.

(** preparation_graph.rs:129-137, remove_edge_with_adj_node.  [len_before - 1]
    underflows for an empty list: that panics as well (by overflow check or by the
    assertion), here with the assertion's reason. *)
Definition remove_edge_with_adj_node (l : list Arc) (adj : N) : res (list Arc) :=
  let l' := filter (fun e => negb (a_adj e =? adj)) l in
  _ <- assert (lenN l' + 1 =? lenN l) "should have removed exactly one edge" ;;
  Ok l'.

(** preparation_graph.rs:121-123, remove_out_edge *)
Definition pg_remove_out_edge (g : PrepGraph) (node adj : N) : res PrepGraph :=
  l <- idx (pg_out g) node ;;
  l' <- remove_edge_with_adj_node l adj ;;
  Ok (mkPrepGraph (setN (pg_out g) node l') (pg_in g) (pg_num_nodes g)).

(** preparation_graph.rs:125-127, remove_in_edge *)
Definition pg_remove_in_edge (g : PrepGraph) (node adj : N) : res PrepGraph :=
  l <- idx (pg_in g) node ;;
  l' <- remove_edge_with_adj_node l adj ;;
  Ok (mkPrepGraph (pg_out g) (setN (pg_in g) node l') (pg_num_nodes g)).

(** preparation_graph.rs:108-119, disconnect *)
Definition pg_disconnect (g : PrepGraph) (node : N) : res PrepGraph :=
  outs0 <- idx (pg_out g) node ;;
  g1 <- foldM (fun g i =>
          outs <- idx (pg_out g) node ;;
          a <- idx outs i ;;
          pg_remove_in_edge g (a_adj a) node) (rangeN 0 (lenN outs0)) g ;;
  ins0 <- idx (pg_in g1) node ;;
  g2 <- foldM (fun g i =>
          ins <- idx (pg_in g) node ;;
          a <- idx ins i ;;
          pg_remove_out_edge g (a_adj a) node) (rangeN 0 (lenN ins0)) g1 ;;
  in' <- upd (pg_in g2) node [] ;;
  out' <- upd (pg_out g2) node [] ;;
  Ok (mkPrepGraph out' in' (pg_num_nodes g2)).
