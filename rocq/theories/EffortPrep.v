(** * EffortPrep: the preparation of Builder.v, with a record of its witness searches

    The functions below are those of Witness.v, Contractor.v and Builder.v with the same names, written with the
    monad of Effort.v; C73_same_preparation (PropEffortPrep.v) proves that apart from the record they are the same. *)
From Verif Require Export Effort Builder.
From Coq Require Import ZArith.
Open Scope N_scope.

(** Why a witness search is made *)
Inductive purpose :=
| Initial      (* fast_graph_builder.rs:89-99, the initial priority of a node *)
| Neighbor     (* fast_graph_builder.rs:137-148, the new priority of a neighbor of a contracted node *)
| Contraction. (* fast_graph_builder.rs:132-136 / 197-202, the contraction of a node *)

(** One step of the witness searches *)
Inductive search_step :=
| Searched (why : purpose) (start avoid limit : N) (* node_contractor.rs:70, init; limit: max_settled_nodes *)
| Settled (node : N).                              (* witness_search.rs:143-144, the node is settled *)
Notation traced := (recorded search_step).

(** witness_search.rs:113-148 *)
Fixpoint l_ws_loop (f : fuel) (c : cfg) (H : heap_ops) (ws : WitnessSearch) (g : PrepGraph)
  (target weight_limit settled_nodes_limit : N) : traced WitnessSearch :=
  match f with
  | FO => Diverge
  | FS f' =>
      match ws_heap ws with
      | [] => lret ws
      | _ :: _ =>
          if settled_nodes_limit <=? ws_settled ws then lret ws
          else
            match hp_peek H (ws_heap ws) with
            | None => Panic PUnwrap
            | Some curr =>
                if weight_limit <? hi_weight curr then lret ws
                else
                  let ws1 := ws_set_heap ws (match hp_pop H (ws_heap ws) with
                                             | Some (_, h') => h'
                                             | None => ws_heap ws
                                             end) in
                  s <~~ lift (ws_is_settled ws1 (hi_node curr)) ;;
                  if (s : bool) then
                    l_ws_loop (f' tt) c H ws1 g target weight_limit settled_nodes_limit
                  else
                    arcs <~~ lift (idx (pg_out g) (hi_node curr)) ;;
                    '(ws2, found_target) <~~
                       lift (foldM (ws_relax c H curr target weight_limit) arcs (ws1, false)) ;;
                    ws3 <~~ lift (ws_settle ws2 (hi_node curr)) ;;
                    _ <~~ log (Settled (hi_node curr)) ;;
                    if (found_target : bool) || (hi_node curr =? target) then lret ws3
                    else l_ws_loop (f' tt) c H ws3 g target weight_limit settled_nodes_limit
            end
      end
  end.

(** witness_search.rs:85-150 *)
Definition l_ws_find_max_weight (c : cfg) (H : heap_ops) (ws : WitnessSearch) (g : PrepGraph)
  (target weight_limit settled_nodes_limit : N) : traced (WitnessSearch * N) :=
  _ <~~ lift (assert (pg_num_nodes g =? ws_num_nodes ws) "given graph has invalid node count") ;;
  _ <~~ lift (assert (negb (ws_start ws =? INVALID_NODE c))
         "the start node must be valid, call init() before find_max_weight()") ;;
  _ <~~ lift (assert (negb (ws_start ws =? ws_avoid ws) && negb (target =? ws_avoid ws))
         "path calculation must not start or end with avoided node") ;;
  if target =? ws_start ws then lret (ws, WEIGHT_ZERO)
  else
    v <~~ lift (vf_is_valid (ws_flags ws) target) ;;
    d <~~ lift (idx (ws_data ws) target) ;;
    if (v : bool) && (wd_settled d || (wd_weight d <=? weight_limit))
    then lret (ws, wd_weight d)
    else
      ws' <~~ l_ws_loop (ws_fuel c ws g) c H ws g target weight_limit settled_nodes_limit ;;
      w <~~ lift (ws_get_current_weight c ws' target) ;;
      lret (ws', w).

(** node_contractor.rs:62-88 *)
Definition l_handle_shortcuts {S : Type} (c : cfg) (H : heap_ops) (why : purpose)
  (handler : S -> PrepGraph -> Shortcut -> res (S * PrepGraph))
  (s0 : S) (g0 : PrepGraph) (ws0 : WitnessSearch) (node max_settled_nodes : N)
  : traced (S * PrepGraph * WitnessSearch) :=
  ins0 <~~ lift (idx (pg_in g0) node) ;;
  lfold (fun '(s, g, ws) i =>
    ins <~~ lift (idx (pg_in g) node) ;;
    ie <~~ lift (idx ins i) ;;
    let in_node := a_adj ie in
    _ <~~ log (Searched why in_node node max_settled_nodes) ;;
    ws1 <~~ lift (ws_init c H ws in_node node) ;;
    outs0 <~~ lift (idx (pg_out g) node) ;;
    lfold (fun '(s, g, ws) j =>
      ins <~~ lift (idx (pg_in g) node) ;;
      ie <~~ lift (idx ins i) ;;
      outs <~~ lift (idx (pg_out g) node) ;;
      oe <~~ lift (idx outs j) ;;
      weight <~~ lift (uadd c (a_weight ie) (a_weight oe)) ;;
      let out_node := a_adj oe in
      '(ws', max_witness_weight) <~~
        l_ws_find_max_weight c H ws g out_node weight max_settled_nodes ;;
      if max_witness_weight <=? weight then lret (s, g, ws')
      else
        '(s', g') <~~ lift (handler s g (mkShortcut in_node out_node node weight)) ;;
        lret (s', g', ws'))
      (rangeN 0 (lenN outs0)) (s, g, ws1))
    (rangeN 0 (lenN ins0)) (s0, g0, ws0).

(** node_contractor.rs:28-36 *)
Definition l_contract_node (c : cfg) (H : heap_ops) (g : PrepGraph) (ws : WitnessSearch)
  (node max_settled_nodes : N) : traced (PrepGraph * WitnessSearch) :=
  '(_, g1, ws1) <~~ l_handle_shortcuts c H Contraction add_shortcut tt g ws node max_settled_nodes ;;
  g2 <~~ lift (pg_disconnect g1 node) ;;
  lret (g2, ws1).

(** node_contractor.rs:38-60 *)
Definition l_calc_relevance (c : cfg) (H : heap_ops) (why : purpose) (g : PrepGraph) (params : Params)
  (ws : WitnessSearch) (node level max_settled_nodes : N)
  : traced (f32 * PrepGraph * WitnessSearch) :=
  '(num_shortcuts, g1, ws1) <~~
    l_handle_shortcuts c H why (count_shortcut c) 0%Z g ws node max_settled_nodes ;;
  outs <~~ lift (idx (pg_out g1) node) ;;
  ins <~~ lift (idx (pg_in g1) node) ;;
  let num_edges := lenN outs + lenN ins in
  let relevance :=
    f32_add (f32_mul (p_hierarchy_depth_factor params) (f32_of_Z (Z.of_N level)))
            (f32_div (f32_add (f32_mul (p_edge_quotient_factor params)
                                       (f32_of_Z num_shortcuts))
                              (f32_of_Z 1))
                     (f32_add (f32_of_Z (Z.of_N num_edges)) (f32_of_Z 1))) in
  lret (f32_mul relevance (f32_of_Z 1000), g1, ws1).

(** fast_graph_builder.rs:161-211 *)
Definition l_run_contraction_with_order (c : cfg) (H : heap_ops) (n : N) (fg0 : FastGraph)
  (ig : InputGraph) (order : list N) (params : ParamsWithOrder) : traced FastGraph :=
  g0 <~~ lift (pg_from_input_graph c ig) ;;
  '(fg, _, _, _) <~~
    lfold (fun '(fg, g, ws, rank) node =>
             if n <=? node then Panic (PExplicit "Order contains invalid node id")
             else
               fg' <~~ lift (store_node c fg g rank node) ;;
               '(g', ws') <~~ l_contract_node c H g ws node
                               (po_max_settled_nodes_contraction_with_order params) ;;
               lret (fg', g', ws', rank + 1))
          order (fg0, g0, ws_new c n, 0) ;;
  lift (finish_contraction c n fg).

(** fast_graph_builder.rs:89-99 *)
Definition l_init_queue_step (c : cfg) (H : heap_ops) (Q : pq_ops) (params : Params)
  (st : BState) (node : N) : traced BState :=
  '(rel, g, ws) <~~ l_calc_relevance c H Initial (bs_pg st) params (bs_ws st) node 0
                     (p_max_settled_nodes_initial_relevance params) ;;
  lret (mkBState (bs_fg st) g ws (bs_levels st)
               (pq_push Q (bs_queue st) node (f32_as_usize c rel)) (bs_rank st)).

(** fast_graph_builder.rs:137-148 *)
Definition l_update_neighbor (c : cfg) (H : heap_ops) (Q : pq_ops) (params : Params) (node : N)
  (st : BState) (neighbor : N) : traced BState :=
  ln <~~ lift (idx (bs_levels st) neighbor) ;;
  lx <~~ lift (idx (bs_levels st) node) ;;
  let level := N.max ln (lx + 1) in
  levels' <~~ lift (upd (bs_levels st) neighbor level) ;;
  '(rel, g, ws) <~~ l_calc_relevance c H Neighbor (bs_pg st) params (bs_ws st) neighbor level
                     (p_max_settled_nodes_neighbor_relevance params) ;;
  lret (mkBState (bs_fg st) g ws levels'
               (pq_change_priority Q (bs_queue st) neighbor (f32_as_usize c rel))
               (bs_rank st)).

(** fast_graph_builder.rs:101-157 *)
Fixpoint l_contraction_loop (fuel : nat) (c : cfg) (H : heap_ops) (Q : pq_ops) (params : Params)
  (st : BState) : traced BState :=
  match fuel with
  | O => Diverge
  | S fuel' =>
      match pq_pop Q (bs_queue st) with
      | None => lret st
      | Some ((node, _), queue') =>
          nbs <~~ lift (neighbors_of (bs_pg st) node) ;;
          fg' <~~ lift (store_node c (bs_fg st) (bs_pg st) (bs_rank st) node) ;;
          '(g', ws') <~~ l_contract_node c H (bs_pg st) (bs_ws st) node
                          (p_max_settled_nodes_contraction params) ;;
          st' <~~ lfold (l_update_neighbor c H Q params node) nbs
                   (mkBState fg' g' ws' (bs_levels st) queue' (bs_rank st)) ;;
          l_contraction_loop fuel' c H Q params
            (mkBState (bs_fg st') (bs_pg st') (bs_ws st') (bs_levels st') (bs_queue st')
                      (bs_rank st' + 1))
      end
  end.

(** fast_graph_builder.rs:84-159 *)
Definition l_run_contraction (c : cfg) (H : heap_ops) (Q : pq_ops) (n : N) (fg0 : FastGraph)
  (ig : InputGraph) (params : Params) : traced FastGraph :=
  g0 <~~ lift (pg_from_input_graph c ig) ;;
  st0 <~~ lfold (l_init_queue_step c H Q params) (rangeN 0 n)
           (mkBState fg0 g0 (ws_new c n) (vec_repeat 0 n) [] 0) ;;
  st <~~ l_contraction_loop (S (N.to_nat n)) c H Q params st0 ;;
  lift (finish_contraction c n (bs_fg st)).

(** fast_graph_builder.rs:52-56 *)
Definition l_build_with_params (c : cfg) (H : heap_ops) (Q : pq_ops) (ig : InputGraph)
  (params : Params) : traced FastGraph :=
  n <~~ lift (ig_get_num_nodes ig) ;;
  fg0 <~~ lift (fg_new c n) ;;
  l_run_contraction c H Q n fg0 ig params.

(** fast_graph_builder.rs:69-82 *)
Definition l_build_with_order_with_params (c : cfg) (H : heap_ops) (ig : InputGraph)
  (order : list N) (params : ParamsWithOrder) : traced (FastGraph + string) :=
  n <~~ lift (ig_get_num_nodes ig) ;;
  if negb (n =? lenN order) then
    lret (inr "The given order must have as many nodes as the input graph"%string)
  else
    fg0 <~~ lift (fg_new c n) ;;
    fg <~~ l_run_contraction_with_order c H n fg0 ig order params ;;
    lret (inl fg).
