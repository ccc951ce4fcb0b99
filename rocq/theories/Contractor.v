(** * Contractor: model of node_contractor.rs *)
From Verif Require Export Base Heap PrepGraph Witness.
From Coq Require Import ZArith.
From Coq Require Export Floats.SpecFloat.
Open Scope N_scope.

(** node_contractor.rs:100-116, struct Shortcut, Shortcut::new *)
Record Shortcut := mkShortcut { sc_from : N; sc_to : N; sc_center : N; sc_weight : N }.

(** node_contractor.rs:62-88, handle_shortcuts.  The closure [handle_shortcut] (FnMut) becomes a
    function on a state [S] it owns and the graph it is given.  The arcs of [node] are
    re-indexed in every iteration, as in the code, because the handler may change the graph. *)
Definition handle_shortcuts {S : Type} (c : cfg) (H : heap_ops)
  (handler : S -> PrepGraph -> Shortcut -> res (S * PrepGraph))
  (s0 : S) (g0 : PrepGraph) (ws0 : WitnessSearch) (node max_settled_nodes : N)
  : res (S * PrepGraph * WitnessSearch) :=
  ins0 <- idx (pg_in g0) node ;;
  foldM (fun '(s, g, ws) i =>
    ins <- idx (pg_in g) node ;;
    ie <- idx ins i ;;
    let in_node := a_adj ie in
    ws1 <- ws_init c H ws in_node node ;;
    outs0 <- idx (pg_out g) node ;;
    foldM (fun '(s, g, ws) j =>
      ins <- idx (pg_in g) node ;;
      ie <- idx ins i ;;
      outs <- idx (pg_out g) node ;;
      oe <- idx outs j ;;
      weight <- uadd c (a_weight ie) (a_weight oe) ;;
      let out_node := a_adj oe in
      '(ws', max_witness_weight) <-
        ws_find_max_weight c H ws g out_node weight max_settled_nodes ;;
      if max_witness_weight <=? weight then Ok (s, g, ws')
      else
        '(s', g') <- handler s g (mkShortcut in_node out_node node weight) ;;
        Ok (s', g', ws'))
      (rangeN 0 (lenN outs0)) (s, g, ws1))
    (rangeN 0 (lenN ins0)) (s0, g0, ws0).

(** node_contractor.rs:90-97, add_shortcut *)
Definition add_shortcut (s : unit) (g : PrepGraph) (sc : Shortcut) : res (unit * PrepGraph) :=
  g' <- pg_add_or_reduce_edge g (sc_from sc) (sc_to sc) (sc_weight sc) (sc_center sc) ;;
  Ok (s, g').

(** node_contractor.rs:28-36, contract_node *)
Definition contract_node (c : cfg) (H : heap_ops) (g : PrepGraph) (ws : WitnessSearch)
  (node max_settled_nodes : N) : res (PrepGraph * WitnessSearch) :=
  '(_, g1, ws1) <- handle_shortcuts c H add_shortcut tt g ws node max_settled_nodes ;;
  g2 <- pg_disconnect g1 node ;;
  Ok (g2, ws1).

(** ** f32 arithmetic (IEEE 754 binary32, round to nearest even) *)
Definition f32 := spec_float.
Definition f32_prec : Z := 24.
Definition f32_emax : Z := 128.
Definition f32_of_Z (z : Z) : f32 := binary_normalize f32_prec f32_emax z 0 false.
Definition f32_add : f32 -> f32 -> f32 := SFadd f32_prec f32_emax.
Definition f32_mul : f32 -> f32 -> f32 := SFmul f32_prec f32_emax.
Definition f32_div : f32 -> f32 -> f32 := SFdiv f32_prec f32_emax.

(** [x as usize] for an f32: truncation, saturating, NaN becomes 0 *)
Definition f32_as_usize (c : cfg) (x : f32) : N :=
  match x with
  | S754_zero _ => 0
  | S754_nan => 0
  | S754_infinity s => if s then 0 else umax c
  | S754_finite s m e =>
      if s then 0
      else N.min (umax c) (Z.to_N (if (0 <=? e)%Z then (Zpos m * 2 ^ e)%Z
                                   else (Zpos m / 2 ^ (- e))%Z))
  end.

(** fast_graph_builder.rs:271-298, struct Params *)
Record Params := mkParams {
  p_hierarchy_depth_factor : f32;
  p_edge_quotient_factor : f32;
  p_max_settled_nodes_initial_relevance : N;
  p_max_settled_nodes_neighbor_relevance : N;
  p_max_settled_nodes_contraction : N
}.

(** node_contractor.rs:46-53, [num_shortcuts += 1] on an i32 (default integer type) *)
Definition count_shortcut (c : cfg) (s : Z) (g : PrepGraph) (sc : Shortcut)
  : res (Z * PrepGraph) :=
  if (s <? 2147483647)%Z then Ok ((s + 1)%Z, g)
  else if debug_build c then Panic POverflow
  else Ok ((-2147483648)%Z, g).

(** node_contractor.rs:38-60, calc_relevance.  Returns the relevance and the modified
    graph and witness search. *)
Definition calc_relevance (c : cfg) (H : heap_ops) (g : PrepGraph) (params : Params)
  (ws : WitnessSearch) (node level max_settled_nodes : N)
  : res (f32 * PrepGraph * WitnessSearch) :=
  '(num_shortcuts, g1, ws1) <-
    handle_shortcuts c H (count_shortcut c) 0%Z g ws node max_settled_nodes ;;
  outs <- idx (pg_out g1) node ;;
  ins <- idx (pg_in g1) node ;;
  let num_edges := lenN outs + lenN ins in
  let relevance :=
    f32_add (f32_mul (p_hierarchy_depth_factor params) (f32_of_Z (Z.of_N level)))
            (f32_div (f32_add (f32_mul (p_edge_quotient_factor params)
                                       (f32_of_Z num_shortcuts))
                              (f32_of_Z 1))
                     (f32_add (f32_of_Z (Z.of_N num_edges)) (f32_of_Z 1))) in
  Ok (f32_mul relevance (f32_of_Z 1000), g1, ws1).
