(** * PathCalc: model of path_calculator.rs

    Every *_fwd/*_bwd pair of methods, and the two inner loops of
    calc_path_multiple_sources_and_targets, are mirror images of each other; they are
    modelled once, with a direction argument. *)
From Verif Require Export Base Heap ValidFlags FastGraph ShortestPath.

(** path_calculator.rs:378-394, struct Data, Data::new *)
Record Data := mkData {
  d_settled : bool;
  d_weight : N;
  d_parent : N;
  d_inc_edge : N
}.
Definition data_new (c : cfg) : Data :=
  mkData false (WEIGHT_MAX c) (INVALID_NODE c) (INVALID_EDGE c).

(** The three members of one direction: data_*, valid_flags_*, heap_* *)
Record Side := mkSide {
  s_data : list Data;
  s_flags : ValidFlags;
  s_heap : list HeapItem
}.

(** path_calculator.rs:32-40, struct PathCalculator *)
Record PathCalculator := mkPC {
  pc_num_nodes : N;
  pc_fwd : Side;
  pc_bwd : Side
}.

(** path_calculator.rs:43-53, PathCalculator::new *)
Definition side_new (c : cfg) (num_nodes : N) : Side :=
  mkSide (vec_repeat (data_new c) num_nodes) (vf_new num_nodes) [].
Definition pc_new (c : cfg) (num_nodes : N) : PathCalculator :=
  mkPC num_nodes (side_new c num_nodes) (side_new c num_nodes).

Definition s_set_heap (s : Side) (h : list HeapItem) : Side :=
  mkSide (s_data s) (s_flags s) h.

(** path_calculator.rs:337-351, update_node_fwd / update_node_bwd *)
Definition s_update_node (s : Side) (node weight parent inc_edge : N) : res Side :=
  fl <- vf_set_valid (s_flags s) node ;;
  d <- upd (s_data s) node (mkData false weight parent inc_edge) ;;
  Ok (mkSide d fl (s_heap s)).

(** path_calculator.rs:353-359, is_settled_fwd / is_settled_bwd *)
Definition s_is_settled (s : Side) (node : N) : res bool :=
  v <- vf_is_valid (s_flags s) node ;;
  if (v : bool) then d <- idx (s_data s) node ;; Ok (d_settled d) else Ok false.

(** path_calculator.rs:361-375, get_weight_fwd / get_weight_bwd *)
Definition s_get_weight (c : cfg) (s : Side) (node : N) : res N :=
  v <- vf_is_valid (s_flags s) node ;;
  if (v : bool) then d <- idx (s_data s) node ;; Ok (d_weight d) else Ok (WEIGHT_MAX c).

(** path_calculator.rs:151 / 187, data[node].settled = true *)
Definition s_settle (s : Side) (node : N) : res Side :=
  d <- idx (s_data s) node ;;
  data' <- upd (s_data s) node (mkData true (d_weight d) (d_parent d) (d_inc_edge d)) ;;
  Ok (mkSide data' (s_flags s) (s_heap s)).

(** path_calculator.rs:213-228 (is_stallable_fwd: d = Fwd, looks at in-edges) and
    230-245 (is_stallable_bwd: d = Bwd, looks at out-edges) *)
Fixpoint stall_loop (c : cfg) (fg : FastGraph) (d : dir) (own : Side) (curr : HeapItem)
  (ids : list N) : res bool :=
  match ids with
  | [] => Ok false
  | i :: r =>
      e <- idx (fg_edges fg (opp d)) i ;;
      adj_weight <- s_get_weight c own (fe_adj e) ;;
      if adj_weight =? WEIGHT_MAX c then stall_loop c fg d own curr r
      else
        w <- uadd c adj_weight (fe_weight e) ;;
        if w <? hi_weight curr then Ok true else stall_loop c fg d own curr r
  end.
Definition is_stallable (c : cfg) (fg : FastGraph) (d : dir) (own : Side) (curr : HeapItem)
  : res bool :=
  b <- fg_begin_edges fg (opp d) (hi_node curr) ;;
  e <- fg_end_edges fg (opp d) (hi_node curr) ;;
  stall_loop c fg d own curr (rangeN b e).

(** path_calculator.rs:142-150 / 178-186, relaxation of one edge *)
Definition relax_edge (c : cfg) (H : heap_ops) (fg : FastGraph) (d : dir) (curr : HeapItem)
  (own : Side) (edge_id : N) : res Side :=
  e <- idx (fg_edges fg d) edge_id ;;
  let adj := fe_adj e in
  weight <- uadd c (hi_weight curr) (fe_weight e) ;;
  w <- s_get_weight c own adj ;;
  if weight <? w then
    own1 <- s_update_node own adj weight (hi_node curr) edge_id ;;
    Ok (s_set_heap own1 (hp_push H (s_heap own1) (mkHeapItem weight adj)))
  else Ok own.

(** path_calculator.rs:125-159 (d = Fwd) and 161-195 (d = Bwd), the inner loops.
    Returns the searched side, best_weight and meeting_node.  [own] is the side being
    searched, [other] the opposite one. *)
Fixpoint search_dir (fuel : nat) (c : cfg) (H : heap_ops) (fg : FastGraph) (d : dir)
  (own other : Side) (best_weight meeting_node : N) : res (Side * N * N) :=
  match fuel with
  | O => Diverge
  | S fuel' =>
      match hp_pop H (s_heap own) with
      | None => Ok (own, best_weight, meeting_node)
      | Some (curr, h') =>
          let own1 := s_set_heap own h' in
          settled <- s_is_settled own1 (hi_node curr) ;;
          if (settled : bool) then
            search_dir fuel' c H fg d own1 other best_weight meeting_node
          else if best_weight <? hi_weight curr then
            Ok (own1, best_weight, meeting_node)
          else
            st <- is_stallable c fg d own1 curr ;;
            if (st : bool) then
              search_dir fuel' c H fg d own1 other best_weight meeting_node
            else
              b <- fg_begin_edges fg d (hi_node curr) ;;
              e <- fg_end_edges fg d (hi_node curr) ;;
              own2 <- foldM (relax_edge c H fg d curr) (rangeN b e) own1 ;;
              own3 <- s_settle own2 (hi_node curr) ;;
              v <- vf_is_valid (s_flags other) (hi_node curr) ;;
              if (v : bool) then
                ow <- s_get_weight c other (hi_node curr) ;;
                w <- uadd c (hi_weight curr) ow ;;
                if w <? best_weight then Ok (own3, w, hi_node curr)
                else Ok (own3, best_weight, meeting_node)
              else Ok (own3, best_weight, meeting_node)
      end
  end.

(** path_calculator.rs:121-196, the outer loop.  Fuel of the inner loops: they pop one
    item per iteration and push only right before leaving. *)
Fixpoint main_loop (f : fuel) (c : cfg) (H : heap_ops) (fg : FastGraph)
  (fwd bwd : Side) (best_weight meeting_node : N) : res (Side * Side * N * N) :=
  match f with
  | FO => Diverge
  | FS f' =>
      match s_heap fwd, s_heap bwd with
      | [], [] => Ok (fwd, bwd, best_weight, meeting_node)
      | _, _ =>
          '(fwd', bw1, mn1) <- search_dir (S (List.length (s_heap fwd))) c H fg Fwd
                                 fwd bwd best_weight meeting_node ;;
          '(bwd', bw2, mn2) <- search_dir (S (List.length (s_heap bwd))) c H fg Bwd
                                 bwd fwd' bw1 mn1 ;;
          main_loop (f' tt) c H fg fwd' bwd' bw2 mn2
      end
  end.

(** path_calculator.rs:269-301 (unpack_fwd, d = Fwd) and 303-335 (unpack_bwd, d = Bwd).
    The recursion depth of the real code is not limited by fuel but by the call
    stack, see Stack.v. *)
Fixpoint unpack (fuel : nat) (c : cfg) (fg : FastGraph) (d : dir) (nodes : list N)
  (edge_id : N) (reverse : bool) : res (list N) :=
  match fuel with
  | O => Diverge
  | S fuel' =>
      e <- idx (fg_edges fg d) edge_id ;;
      sc <- fe_is_shortcut c e ;;
      if negb sc then
        Ok (nodes ++ [match d with Fwd => fe_base e | Bwd => fe_adj e end])
      else if reverse then
        nodes1 <- unpack fuel' c fg Fwd nodes (fe_replaced_out e) reverse ;;
        unpack fuel' c fg Bwd nodes1 (fe_replaced_in e) reverse
      else
        nodes1 <- unpack fuel' c fg Bwd nodes (fe_replaced_in e) reverse ;;
        unpack fuel' c fg Fwd nodes1 (fe_replaced_out e) reverse
  end.

(** Fuel of [unpack]: more than the number of edges that can be nested into each other. *)
Definition unpack_fuel (fg : FastGraph) : nat :=
  S (N.to_nat (fg_num_nodes fg) + List.length (fg_edges_fwd fg) + List.length (fg_edges_bwd fg)).

(** path_calculator.rs:252-256 (d = Fwd, reverse) and 258-262 (d = Bwd, not reverse): follow the
    parents from [node] to the root.  Returns the extended node list and the root. *)
Fixpoint unpack_tree (fuel : nat) (c : cfg) (fg : FastGraph) (d : dir) (s : Side)
  (result : list N) (node : N) : res (list N * N) :=
  match fuel with
  | O => Diverge
  | S fuel' =>
      dt <- idx (s_data s) node ;;
      if d_inc_edge dt =? INVALID_EDGE c then Ok (result, node)
      else
        result' <- unpack (unpack_fuel fg) c fg d result (d_inc_edge dt)
                     (match d with Fwd => true | Bwd => false end) ;;
        unpack_tree fuel' c fg d s result' (d_parent dt)
  end.

(** path_calculator.rs:247-267, extract_nodes.  Fuel: one more than the number of nodes. *)
Definition extract_nodes (c : cfg) (fg : FastGraph) (fwd bwd : Side) (meeting_node : N)
  : res (list N) :=
  _ <- assert (negb (meeting_node =? INVALID_NODE c)) "meeting_node is INVALID_NODE" ;;
  vf <- vf_is_valid (s_flags fwd) meeting_node ;;
  _ <- assert vf "meeting node not valid fwd" ;;
  vb <- vf_is_valid (s_flags bwd) meeting_node ;;
  _ <- assert vb "meeting node not valid bwd" ;;
  let fuel := S (N.to_nat (fg_num_nodes fg)) in
  '(r1, _) <- unpack_tree fuel c fg Fwd fwd [] meeting_node ;;
  '(r2, node) <- unpack_tree fuel c fg Bwd bwd (rev r1) meeting_node ;;
  Ok (r2 ++ [node]).

(** path_calculator.rs:91-102, start and end nodes that coincide *)
Definition init_best (c : cfg) (starts ends : list (N * N)) : res (N * N) :=
  foldM (fun '(bw, mn) '(sn, sw) =>
    foldM (fun '(bw, mn) '(en, ew) =>
      if (sn =? en) && (sw <? WEIGHT_MAX c) && (ew <? WEIGHT_MAX c) then
        w <- uadd c sw ew ;;
        if w <? bw then Ok (w, en) else Ok (bw, mn)
      else Ok (bw, mn)) ends (bw, mn)) starts (WEIGHT_MAX c, INVALID_NODE c).

(** path_calculator.rs:104-112 (starts) and 113-119 (ends) *)
Definition init_side (c : cfg) (H : heap_ops) (s : Side) (items : list (N * N)) : res Side :=
  foldM (fun s '(node, weight) =>
    w <- s_get_weight c s node ;;
    if weight <? w then
      s1 <- s_update_node s node weight node (INVALID_EDGE c) ;;
      Ok (s_set_heap s1 (hp_push H (s_heap s1) (mkHeapItem weight node)))
    else Ok s) items s.

(** path_calculator.rs:83-86, clear the heap and invalidate all labels of a side *)
Definition reset_side (s : Side) : Side :=
  mkSide (s_data s) (vf_invalidate_all (s_flags s)) [].

(** Fuel of the outer loop: one more than the number of items that can be pushed.  With overflow checks,
    this is one item per given node and per edge.  Without, a node can be labelled again after it was
    settled, but every label is smaller than the one before. *)
Definition query_fuel (c : cfg) (fg : FastGraph) (starts ends : list (N * N)) : fuel :=
  fuel_of (1 + lenN starts + lenN ends + lenN (fg_edges_fwd fg) + lenN (fg_edges_bwd fg) +
           2 * fg_num_nodes fg * umax c).

Definition is_nil {A} (l : list A) : bool := match l with [] => true | _ => false end.

(** path_calculator.rs:64-211, calc_path_multiple_sources_and_targets.  Returns the calculator's
    new state and the result. *)
Definition pc_calc_path_multiple (c : cfg) (H : heap_ops) (pc : PathCalculator) (fg : FastGraph)
  (starts ends : list (N * N)) : res (PathCalculator * option ShortestPath) :=
  _ <- assert (fg_num_nodes fg =? pc_num_nodes pc) "given graph has invalid node count" ;;
  _ <- assert (negb (is_nil starts)) "there has to be at least one start" ;;
  _ <- assert (negb (is_nil ends)) "there has to be at least one end" ;;
  _ <- assert (forallb (fun '(n, _) => n <? pc_num_nodes pc) starts) "invalid start node" ;;
  _ <- assert (forallb (fun '(n, _) => n <? pc_num_nodes pc) ends) "invalid end node" ;;
  let fwd0 := reset_side (pc_fwd pc) in
  let bwd0 := reset_side (pc_bwd pc) in
  '(bw0, mn0) <- init_best c starts ends ;;
  fwd1 <- init_side c H fwd0 starts ;;
  bwd1 <- init_side c H bwd0 ends ;;
  '(fwd2, bwd2, best_weight, meeting_node) <-
     main_loop (query_fuel c fg starts ends) c H fg fwd1 bwd1 bw0 mn0 ;;
  let pc' := mkPC (pc_num_nodes pc) fwd2 bwd2 in
  if meeting_node =? INVALID_NODE c then Ok (pc', None)
  else
    _ <- assert (best_weight <? WEIGHT_MAX c) "best_weight < WEIGHT_MAX" ;;
    nodes <- extract_nodes c fg fwd2 bwd2 meeting_node ;;
    _ <- assert (negb (is_nil nodes)) "nodes is empty" ;;
    first <- idx nodes 0 ;;
    last <- idx nodes (lenN nodes - 1) ;;
    Ok (pc', Some (mkSP first last best_weight nodes)).

(** path_calculator.rs:55-62, calc_path *)
Definition pc_calc_path (c : cfg) (H : heap_ops) (pc : PathCalculator) (fg : FastGraph)
  (start end_ : N) : res (PathCalculator * option ShortestPath) :=
  pc_calc_path_multiple c H pc fg [(start, 0)] [(end_, 0)].
