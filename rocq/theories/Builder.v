(** * Builder: model of fast_graph_builder.rs *)
From Verif Require Export Base Heap InputGraph PrepGraph Witness Contractor FastGraph.
From Coq Require Import ZArith.
Open Scope N_scope.

(** fast_graph_builder.rs:321-340, struct ParamsWithOrder *)
Record ParamsWithOrder := mkParamsWithOrder {
  po_max_settled_nodes_contraction_with_order : N
}.

(** fast_graph_builder.rs:301-314, Params::new *)
Definition params_new (ratio : f32) (initial neighbor contraction : N) : Params :=
  mkParams ratio (f32_of_Z 1) initial neighbor contraction.

(** the f32 literal 0.1: 13421773 * 2^-27 *)
Definition f32_one_tenth : f32 := S754_finite false 13421773 (-27).

(** fast_graph_builder.rs:316-318, Params::default *)
Definition params_default : Params := params_new f32_one_tenth 500 100 500.

(** fast_graph_builder.rs:337-339, ParamsWithOrder::default *)
Definition params_with_order_default : ParamsWithOrder := mkParamsWithOrder 100.

(** fast_graph_builder.rs:106-116 and 173-182: store the out-arcs of [node];
    fast_graph_builder.rs:118-128 and 184-193: store its in-arcs;
    fast_graph_builder.rs:130 and 195: store its rank.  The two blocks are textually the same apart
    from the collection of neighbors, see [neighbors_of]. The center node is temporarily
    kept in replaced_in_edge. *)
Definition store_arcs (c : cfg) (node : N) (es : list FastGraphEdge) (arcs : list Arc)
  : res (list FastGraphEdge) :=
  foldM (fun es a =>
           vpush c es (mkFGE node (a_adj a) (a_weight a) (a_center a) (INVALID_EDGE c)))
        arcs es.

Definition store_node (c : cfg) (fg : FastGraph) (g : PrepGraph) (rank node : N)
  : res FastGraph :=
  outs <- idx (pg_out g) node ;;
  ef <- store_arcs c node (fg_edges_fwd fg) outs ;;
  ff <- upd (fg_first_edge_ids_fwd fg) (rank + 1) (lenN ef) ;;
  ins <- idx (pg_in g) node ;;
  eb <- store_arcs c node (fg_edges_bwd fg) ins ;;
  fb <- upd (fg_first_edge_ids_bwd fg) (rank + 1) (lenN eb) ;;
  rk <- upd (fg_ranks fg) node rank ;;
  Ok (mkFG (fg_num_nodes fg) rk ef ff eb fb).

(** BTreeSet<NodeId>: strictly ascending list *)
Fixpoint btree_insert (x : N) (l : list N) : list N :=
  match l with
  | [] => [x]
  | y :: t => match N.compare x y with
              | Lt => x :: l
              | Eq => l
              | Gt => y :: btree_insert x t
              end
  end.

(** fast_graph_builder.rs:105, 107, 119: the set of neighbors of [node] *)
Definition neighbors_of (g : PrepGraph) (node : N) : res (list N) :=
  outs <- idx (pg_out g) node ;;
  ins <- idx (pg_in g) node ;;
  Ok (fold_left (fun s a => btree_insert (a_adj a) s) (outs ++ ins) []).

(** fast_graph_builder.rs:252-259 (get_out_edge_id, Fwd) and 261-268 (get_in_edge_id, Bwd) *)
Fixpoint find_edge_id (fg : FastGraph) (d : dir) (ids : list N) (adj : N) : res N :=
  match ids with
  | [] => Panic (PExplicit (match d with Fwd => "could not find out-edge id" | Bwd => "could not find in-edge id" end))
  | i :: r =>
      e <- idx (fg_edges fg d) i ;;
      if fe_adj e =? adj then Ok i else find_edge_id fg d r adj
  end.
Definition get_edge_id (fg : FastGraph) (d : dir) (node adj : N) : res N :=
  b <- fg_begin_edges fg d node ;;
  e <- fg_end_edges fg d node ;;
  find_edge_id fg d (rangeN b e) adj.

Definition fg_set_edge (fg : FastGraph) (d : dir) (i : N) (e : FastGraphEdge) : FastGraph :=
  match d with
  | Fwd => mkFG (fg_num_nodes fg) (fg_ranks fg) (setN (fg_edges_fwd fg) i e)
                (fg_first_edge_ids_fwd fg) (fg_edges_bwd fg) (fg_first_edge_ids_bwd fg)
  | Bwd => mkFG (fg_num_nodes fg) (fg_ranks fg) (fg_edges_fwd fg)
                (fg_first_edge_ids_fwd fg) (setN (fg_edges_bwd fg) i e)
                (fg_first_edge_ids_bwd fg)
  end.

(** fast_graph_builder.rs:215-230 (d = Fwd): replaced_in_edge = get_in_edge_id(c, i),
      replaced_out_edge = get_out_edge_id(c, adj);
    fast_graph_builder.rs:234-248 (d = Bwd): replaced_in_edge = get_in_edge_id(c, adj),
      replaced_out_edge = get_out_edge_id(c, i). *)
Definition finish_edge (c : cfg) (d : dir) (i : N) (fg : FastGraph) (edge_id : N)
  : res FastGraph :=
  e <- idx (fg_edges fg d) edge_id ;;
  let ctr := fe_replaced_in e in
  if ctr =? INVALID_NODE c then
    let fg1 := fg_set_edge fg d edge_id
                 (mkFGE (fe_base e) (fe_adj e) (fe_weight e) (INVALID_EDGE c)
                        (fe_replaced_out e)) in
    _ <- (if debug_build c
          then assert (fe_replaced_out e =? INVALID_EDGE c) "debug_assert_eq" else Ok tt) ;;
    Ok fg1
  else
    rin <- get_edge_id fg Bwd ctr (match d with Fwd => i | Bwd => fe_adj e end) ;;
    let fg1 := fg_set_edge fg d edge_id
                 (mkFGE (fe_base e) (fe_adj e) (fe_weight e) rin (fe_replaced_out e)) in
    rout <- get_edge_id fg1 Fwd ctr (match d with Fwd => fe_adj e | Bwd => i end) ;;
    Ok (fg_set_edge fg1 d edge_id
          (mkFGE (fe_base e) (fe_adj e) (fe_weight e) rin rout)).

(** fast_graph_builder.rs:214-231 (d = Fwd) and 233-249 (d = Bwd) *)
Definition finish_dir (c : cfg) (d : dir) (n : N) (fg : FastGraph) : res FastGraph :=
  foldM (fun fg i =>
           b <- fg_begin_edges fg d i ;;
           e <- fg_end_edges fg d i ;;
           foldM (finish_edge c d i) (rangeN b e) fg) (rangeN 0 n) fg.

(** fast_graph_builder.rs:213-250, finish_contraction *)
Definition finish_contraction (c : cfg) (n : N) (fg : FastGraph) : res FastGraph :=
  fg1 <- finish_dir c Fwd n fg ;;
  finish_dir c Bwd n fg1.

(** fast_graph_builder.rs:161-211, run_contraction_with_order *)
Definition run_contraction_with_order (c : cfg) (H : heap_ops) (n : N) (fg0 : FastGraph)
  (ig : InputGraph) (order : list N) (params : ParamsWithOrder) : res FastGraph :=
  g0 <- pg_from_input_graph c ig ;;
  '(fg, _, _, _) <-
    foldM (fun '(fg, g, ws, rank) node =>
             if n <=? node then Panic (PExplicit "Order contains invalid node id")
             else
               fg' <- store_node c fg g rank node ;;
               '(g', ws') <- contract_node c H g ws node
                               (po_max_settled_nodes_contraction_with_order params) ;;
               Ok (fg', g', ws', rank + 1))
          order (fg0, g0, ws_new c n, 0) ;;
  finish_contraction c n fg.

(** State of the contraction loop of run_contraction. *)
Record BState := mkBState {
  bs_fg : FastGraph;
  bs_pg : PrepGraph;
  bs_ws : WitnessSearch;
  bs_levels : list N;
  bs_queue : list (N * N);
  bs_rank : N
}.

(** fast_graph_builder.rs:89-99, the initial priorities *)
Definition init_queue_step (c : cfg) (H : heap_ops) (Q : pq_ops) (params : Params)
  (st : BState) (node : N) : res BState :=
  '(rel, g, ws) <- calc_relevance c H (bs_pg st) params (bs_ws st) node 0
                     (p_max_settled_nodes_initial_relevance params) ;;
  Ok (mkBState (bs_fg st) g ws (bs_levels st)
               (pq_push Q (bs_queue st) node (f32_as_usize c rel)) (bs_rank st)).

(** fast_graph_builder.rs:137-148, update of one neighbor.  [levels[node] + 1] cannot
    overflow: levels are bounded by the number of contracted nodes. *)
Definition update_neighbor (c : cfg) (H : heap_ops) (Q : pq_ops) (params : Params) (node : N)
  (st : BState) (neighbor : N) : res BState :=
  ln <- idx (bs_levels st) neighbor ;;
  lx <- idx (bs_levels st) node ;;
  let level := N.max ln (lx + 1) in
  levels' <- upd (bs_levels st) neighbor level ;;
  '(rel, g, ws) <- calc_relevance c H (bs_pg st) params (bs_ws st) neighbor level
                     (p_max_settled_nodes_neighbor_relevance params) ;;
  Ok (mkBState (bs_fg st) g ws levels'
               (pq_change_priority Q (bs_queue st) neighbor (f32_as_usize c rel))
               (bs_rank st)).

(** fast_graph_builder.rs:101-157, the while loop *)
Fixpoint contraction_loop (fuel : nat) (c : cfg) (H : heap_ops) (Q : pq_ops) (params : Params)
  (st : BState) : res BState :=
  match fuel with
  | O => Diverge
  | S fuel' =>
      match pq_pop Q (bs_queue st) with
      | None => Ok st
      | Some ((node, _), queue') =>
          nbs <- neighbors_of (bs_pg st) node ;;
          fg' <- store_node c (bs_fg st) (bs_pg st) (bs_rank st) node ;;
          '(g', ws') <- contract_node c H (bs_pg st) (bs_ws st) node
                          (p_max_settled_nodes_contraction params) ;;
          st' <- foldM (update_neighbor c H Q params node) nbs
                   (mkBState fg' g' ws' (bs_levels st) queue' (bs_rank st)) ;;
          contraction_loop fuel' c H Q params
            (mkBState (bs_fg st') (bs_pg st') (bs_ws st') (bs_levels st') (bs_queue st')
                      (bs_rank st' + 1))
      end
  end.

(** fast_graph_builder.rs:84-159, run_contraction.  Fuel: one more than the number of nodes. *)
Definition run_contraction (c : cfg) (H : heap_ops) (Q : pq_ops) (n : N) (fg0 : FastGraph)
  (ig : InputGraph) (params : Params) : res FastGraph :=
  g0 <- pg_from_input_graph c ig ;;
  st0 <- foldM (init_queue_step c H Q params) (rangeN 0 n)
           (mkBState fg0 g0 (ws_new c n) (vec_repeat 0 n) [] 0) ;;
  st <- contraction_loop (S (N.to_nat n)) c H Q params st0 ;;
  finish_contraction c n (bs_fg st).

(** fast_graph_builder.rs:52-56 (build_with_params) with FastGraphBuilder::new:41-46 *)
Definition build_with_params (c : cfg) (H : heap_ops) (Q : pq_ops) (ig : InputGraph)
  (params : Params) : res FastGraph :=
  n <- ig_get_num_nodes ig ;;
  fg0 <- fg_new c n ;;
  run_contraction c H Q n fg0 ig params.

(** fast_graph_builder.rs:48-50, build *)
Definition build (c : cfg) (H : heap_ops) (Q : pq_ops) (ig : InputGraph) : res FastGraph :=
  build_with_params c H Q ig params_default.

(** fast_graph_builder.rs:69-82, build_with_order_with_params.  Result: [inl fg] is
    Ok(fg), [inr msg] is Err(msg). *)
Definition build_with_order_with_params (c : cfg) (H : heap_ops) (ig : InputGraph)
  (order : list N) (params : ParamsWithOrder) : res (FastGraph + string) :=
  n <- ig_get_num_nodes ig ;;
  if negb (n =? lenN order) then
    Ok (inr "The given order must have as many nodes as the input graph"%string)
  else
    fg0 <- fg_new c n ;;
    fg <- run_contraction_with_order c H n fg0 ig order params ;;
    Ok (inl fg).

(** fast_graph_builder.rs:58-67, build_with_order *)
Definition build_with_order (c : cfg) (H : heap_ops) (ig : InputGraph) (order : list N)
  : res (FastGraph + string) :=
  build_with_order_with_params c H ig order params_with_order_default.
