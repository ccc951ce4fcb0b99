(** * FastGraph32: model of fast_graph32.rs *)
From Verif Require Export Base ValidFlags FastGraph.

(** fast_graph32.rs:72-78, struct FastGraphEdge32 *)
Record FastGraphEdge32 := mkFGE32 {
  fe32_base : N; fe32_adj : N; fe32_weight : N; fe32_replaced_in : N; fe32_replaced_out : N
}.

(** fast_graph32.rs:32-40, struct FastGraph32 *)
Record FastGraph32 := mkFG32 {
  fg32_num_nodes : N;
  fg32_ranks : list N;
  fg32_edges_fwd : list FastGraphEdge32;
  fg32_first_edge_ids_fwd : list N;
  fg32_edges_bwd : list FastGraphEdge32;
  fg32_first_edge_ids_bwd : list N
}.

(** fast_graph32.rs:80-88, usize_to_u32.  The recursive call on usize::MAX is kept; [fuel]
    bounds the recursion depth. *)
Fixpoint usize_to_u32 (fuel : nat) (c : cfg) (int : N) : res N :=
  match fuel with
  | O => Diverge
  | S fuel' =>
      if int =? umax c then usize_to_u32 fuel' c u32_max
      else if int <=? u32_max then Ok int
      else Panic (PExplicit "Could not convert to a 32-bit integer")
  end.

(** [iter().map(f).collect()] for a function that may panic *)
Fixpoint mapM {A B} (f : A -> res B) (l : list A) : res (list B) :=
  match l with
  | [] => Ok []
  | a :: r => b <- f a ;; bs <- mapM f r ;; Ok (b :: bs)
  end.

(** fast_graph32.rs:90-92, usize_to_u32_vec *)
Definition usize_to_u32_vec (fuel : nat) (c : cfg) (v : list N) : res (list N) :=
  mapM (usize_to_u32 fuel c) v.

(** fast_graph32.rs:98-106, usize_to_u32_edge *)
Definition usize_to_u32_edge (fuel : nat) (c : cfg) (e : FastGraphEdge) : res FastGraphEdge32 :=
  b <- usize_to_u32 fuel c (fe_base e) ;;
  a <- usize_to_u32 fuel c (fe_adj e) ;;
  w <- usize_to_u32 fuel c (fe_weight e) ;;
  i <- usize_to_u32 fuel c (fe_replaced_in e) ;;
  o <- usize_to_u32 fuel c (fe_replaced_out e) ;;
  Ok (mkFGE32 b a w i o).

(** fast_graph32.rs:94-96, usize_to_u32_edges *)
Definition usize_to_u32_edges (fuel : nat) (c : cfg) (v : list FastGraphEdge)
  : res (list FastGraphEdge32) := mapM (usize_to_u32_edge fuel c) v.

(** fast_graph32.rs:46-55, FastGraph32::new *)
Definition fg32_new (fuel : nat) (c : cfg) (fg : FastGraph) : res FastGraph32 :=
  n <- usize_to_u32 fuel c (fg_num_nodes fg) ;;
  rk <- usize_to_u32_vec fuel c (fg_ranks fg) ;;
  ef <- usize_to_u32_edges fuel c (fg_edges_fwd fg) ;;
  ff <- usize_to_u32_vec fuel c (fg_first_edge_ids_fwd fg) ;;
  eb <- usize_to_u32_edges fuel c (fg_edges_bwd fg) ;;
  fb <- usize_to_u32_vec fuel c (fg_first_edge_ids_bwd fg) ;;
  Ok (mkFG32 n rk ef ff eb fb).

(** fast_graph32.rs:108-114, u32_to_usize *)
Definition u32_to_usize (c : cfg) (int : N) : N :=
  if int =? u32_max then umax c else int.

(** fast_graph32.rs:124-132, u32_to_usize_edge *)
Definition u32_to_usize_edge (c : cfg) (e : FastGraphEdge32) : FastGraphEdge :=
  mkFGE (u32_to_usize c (fe32_base e)) (u32_to_usize c (fe32_adj e))
        (u32_to_usize c (fe32_weight e)) (u32_to_usize c (fe32_replaced_in e))
        (u32_to_usize c (fe32_replaced_out e)).

(** fast_graph32.rs:59-67, convert_to_usize (with u32_to_usize_vec:116-118 and
    u32_to_usize_edges:120-122).  The node count is converted by a plain cast.  The vectors
    allocated by FastGraph::new are replaced at once. *)
Definition fg32_convert_to_usize (c : cfg) (g : FastGraph32) : res FastGraph :=
  fg <- fg_new c (fg32_num_nodes g) ;;
  Ok (mkFG (fg_num_nodes fg)
       (map (u32_to_usize c) (fg32_ranks g))
       (map (u32_to_usize_edge c) (fg32_edges_fwd g))
       (map (u32_to_usize c) (fg32_first_edge_ids_fwd g))
       (map (u32_to_usize_edge c) (fg32_edges_bwd g))
       (map (u32_to_usize c) (fg32_first_edge_ids_bwd g))).
