(** * Stack: queries with a limited call stack

    The only recursion of the crate is the unpacking of shortcuts (path_calculator.rs:269-335).  Here the query of
    PathCalc.v is modelled once more with room for a given number of nested calls of unpack_fwd and unpack_bwd.
    What a call needs in bytes depends on the compiler; the number of nested calls does not. *)
From Verif Require Export PathCalc Lib.
Open Scope N_scope.

(** The thread has no stack left: Rust prints "has overflowed its stack" and aborts the process.  Unlike a panic it
    cannot be caught; it is a reason of its own here, as no panic of the crate has this message. *)
Definition stack_overflow : panic_reason := PExplicit "has overflowed its stack".

(** path_calculator.rs:269-301 (unpack_fwd, d = Fwd) and 303-335 (unpack_bwd, d = Bwd) *)
Fixpoint k_unpack (room : nat) (c : cfg) (fg : FastGraph) (d : dir) (nodes : list N)
  (edge_id : N) (reverse : bool) : res (list N) :=
  match room with
  | O => Panic stack_overflow
  | S room' =>
      e <- idx (fg_edges fg d) edge_id ;;
      sc <- fe_is_shortcut c e ;;
      if negb sc then
        Ok (nodes ++ [match d with Fwd => fe_base e | Bwd => fe_adj e end])
      else if reverse then
        nodes1 <- k_unpack room' c fg Fwd nodes (fe_replaced_out e) reverse ;;
        k_unpack room' c fg Bwd nodes1 (fe_replaced_in e) reverse
      else
        nodes1 <- k_unpack room' c fg Bwd nodes (fe_replaced_in e) reverse ;;
        k_unpack room' c fg Fwd nodes1 (fe_replaced_out e) reverse
  end.

(** path_calculator.rs:252-262, a loop *)
Fixpoint k_unpack_tree (fuel room : nat) (c : cfg) (fg : FastGraph) (d : dir) (s : Side)
  (result : list N) (node : N) : res (list N * N) :=
  match fuel with
  | O => Diverge
  | S fuel' =>
      dt <- idx (s_data s) node ;;
      if d_inc_edge dt =? INVALID_EDGE c then Ok (result, node)
      else
        result' <- k_unpack room c fg d result (d_inc_edge dt)
                     (match d with Fwd => true | Bwd => false end) ;;
        k_unpack_tree fuel' room c fg d s result' (d_parent dt)
  end.

(** path_calculator.rs:247-267, extract_nodes *)
Definition k_extract_nodes (room : nat) (c : cfg) (fg : FastGraph) (fwd bwd : Side) (meeting_node : N)
  : res (list N) :=
  _ <- assert (negb (meeting_node =? INVALID_NODE c)) "meeting_node is INVALID_NODE" ;;
  vf <- vf_is_valid (s_flags fwd) meeting_node ;;
  _ <- assert vf "meeting node not valid fwd" ;;
  vb <- vf_is_valid (s_flags bwd) meeting_node ;;
  _ <- assert vb "meeting node not valid bwd" ;;
  let fuel := S (N.to_nat (fg_num_nodes fg)) in
  '(r1, _) <- k_unpack_tree fuel room c fg Fwd fwd [] meeting_node ;;
  '(r2, node) <- k_unpack_tree fuel room c fg Bwd bwd (rev r1) meeting_node ;;
  Ok (r2 ++ [node]).

(** path_calculator.rs:64-211, calc_path_multiple_sources_and_targets *)
Definition k_calc_path_multiple (room : nat) (c : cfg) (H : heap_ops) (pc : PathCalculator) (fg : FastGraph)
  (starts ends : list (N * N)) : res (PathCalculator * option ShortestPath) :=
  _ <- assert (fg_num_nodes fg =? pc_num_nodes pc) "given graph has invalid node count" ;;
  _ <- assert (negb (is_nil starts)) "there has to be at least one start" ;;
  _ <- assert (negb (is_nil ends)) "there has to be at least one end" ;;
  _ <- assert (forallb (fun '(n, _) => n <? pc_num_nodes pc) starts) "invalid start node" ;;
  _ <- assert (forallb (fun '(n, _) => n <? pc_num_nodes pc) ends) "invalid end node" ;;
  let fwd0 := reset_side (pc_fwd pc) in
  let bwd0 := reset_side (pc_bwd pc) in
  '(bw0, mn0) <- init_best c starts ends ;;
  fwd1 <- init_side c H fwd0 starts ;;
  bwd1 <- init_side c H bwd0 ends ;;
  '(fwd2, bwd2, best_weight, meeting_node) <-
     main_loop (query_fuel c fg starts ends) c H fg fwd1 bwd1 bw0 mn0 ;;
  let pc' := mkPC (pc_num_nodes pc) fwd2 bwd2 in
  if meeting_node =? INVALID_NODE c then Ok (pc', None)
  else
    _ <- assert (best_weight <? WEIGHT_MAX c) "best_weight < WEIGHT_MAX" ;;
    nodes <- k_extract_nodes room c fg fwd2 bwd2 meeting_node ;;
    _ <- assert (negb (is_nil nodes)) "nodes is empty" ;;
    first <- idx nodes 0 ;;
    last <- idx nodes (lenN nodes - 1) ;;
    Ok (pc', Some (mkSP first last best_weight nodes)).

(** path_calculator.rs:55-62, calc_path *)
Definition k_pc_calc_path (room : nat) (c : cfg) (H : heap_ops) (pc : PathCalculator) (fg : FastGraph)
  (start end_ : N) : res (PathCalculator * option ShortestPath) :=
  k_calc_path_multiple room c H pc fg [(start, 0)] [(end_, 0)].

(** lib.rs:81-84, calc_path *)
Definition k_calc_path (room : nat) (c : cfg) (H : heap_ops) (fg : FastGraph) (source target : N)
  : res (option ShortestPath) :=
  '(_, r) <- k_pc_calc_path room c H (create_calculator c fg) fg source target ;; Ok r.
