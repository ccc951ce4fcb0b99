(** * InputGraph: model of input_graph.rs (in-memory part; files are in FileIO.v) *)
From Verif Require Export Base.

(** input_graph.rs:350-360, struct Edge and Edge::new *)
Record Edge := mkEdge { e_from : N; e_to : N; e_weight : N }.

(** input_graph.rs:36-40 *)
Record InputGraph := mkInputGraph {
  ig_edges : list Edge;
  ig_num_nodes : N;
  ig_frozen : bool
}.

(** input_graph.rs:43-49, InputGraph::new; also input_graph.rs:343-347, Default *)
Definition ig_new : InputGraph := mkInputGraph [] 0 false.

(** input_graph.rs:180-184, check_frozen *)
Definition ig_check_frozen (g : InputGraph) : res unit :=
  if ig_frozen g then Ok tt
  else Panic (PExplicit "You need to call freeze() before using the input graph").

(** input_graph.rs:186-214, do_add_edge.  Returns the new graph and the number of
    added edges.  Logging is not modelled. *)
Definition ig_do_add_edge (c : cfg) (g : InputGraph) (from to weight : N) (bidir : bool)
  : res (InputGraph * N) :=
  if ig_frozen g then
    Panic (PExplicit "Graph is frozen already, for further changes first use thaw()")
  else if from =? to then Ok (g, 0)
  else if weight <? 1 then Ok (g, 0)
  else
    m <- uadd c (N.max from to) 1 ;;
    es <- vpush c (ig_edges g) (mkEdge from to weight) ;;
    es' <- (if bidir then vpush c es (mkEdge to from weight) else Ok es) ;;
    Ok (mkInputGraph es' (N.max (ig_num_nodes g) m) (ig_frozen g),
        if bidir then 2 else 1).

(** input_graph.rs:113-115, add_edge *)
Definition ig_add_edge (c : cfg) (g : InputGraph) (from to weight : N) :=
  ig_do_add_edge c g from to weight false.

(** input_graph.rs:117-119, add_edge_bidir *)
Definition ig_add_edge_bidir (c : cfg) (g : InputGraph) (from to weight : N) :=
  ig_do_add_edge c g from to weight true.

(** input_graph.rs:121-124, get_edges *)
Definition ig_get_edges (g : InputGraph) : res (list Edge) :=
  _ <- ig_check_frozen g ;; Ok (ig_edges g).

(** input_graph.rs:126-129, get_num_nodes *)
Definition ig_get_num_nodes (g : InputGraph) : res N :=
  _ <- ig_check_frozen g ;; Ok (ig_num_nodes g).

(** input_graph.rs:131-134, get_num_edges *)
Definition ig_get_num_edges (g : InputGraph) : res N :=
  _ <- ig_check_frozen g ;; Ok (lenN (ig_edges g)).

(** input_graph.rs:150-155, the comparator of sort: lexicographic on
    (from, to, weight), as [a <= b] *)
Definition edge_leb (a b : Edge) : bool :=
  match N.compare (e_from a) (e_from b) with
  | Lt => true
  | Gt => false
  | Eq => match N.compare (e_to a) (e_to b) with
          | Lt => true
          | Gt => false
          | Eq => e_weight a <=? e_weight b
          end
  end.

Fixpoint insert_edge (e : Edge) (l : list Edge) : list Edge :=
  match l with
  | [] => [e]
  | x :: t => if edge_leb e x then e :: l else x :: insert_edge e t
  end.

(** input_graph.rs:149-156, sort.  Simplification: [slice::sort_unstable_by] is an
    insertion sort; edges that compare equal are equal, so every sorting
    algorithm returns the same list (proved in InputGraphFacts.sort_unique). *)
Fixpoint sort_edges (l : list Edge) : list Edge :=
  match l with
  | [] => []
  | x :: t => insert_edge x (sort_edges t)
  end.

(** input_graph.rs:161, [Vec::dedup_by]: an element is dropped if it has the same end nodes as
    the last retained element. *)
Fixpoint dedup_from (prev : Edge) (l : list Edge) : list Edge :=
  match l with
  | [] => []
  | x :: t =>
      if (e_from x =? e_from prev) && (e_to x =? e_to prev)
      then dedup_from prev t
      else x :: dedup_from x t
  end.
Definition dedup_edges (l : list Edge) : list Edge :=
  match l with
  | [] => []
  | x :: t => x :: dedup_from x t
  end.

(** input_graph.rs:136-143, freeze (with sort and remove_duplicate_edges:158-168) *)
Definition ig_freeze (g : InputGraph) : res InputGraph :=
  if ig_frozen g then Panic (PExplicit "Input graph is already frozen")
  else Ok (mkInputGraph (dedup_edges (sort_edges (ig_edges g))) (ig_num_nodes g) true).

(** input_graph.rs:145-147, thaw *)
Definition ig_thaw (g : InputGraph) : InputGraph :=
  mkInputGraph (ig_edges g) (ig_num_nodes g) false.

(** ** Call histories *)

(** A call of a public method of InputGraph. *)
Inductive ig_op :=
| OpAddEdge (from to weight : N)
| OpAddEdgeBidir (from to weight : N)
| OpFreeze
| OpThaw
| OpGetEdges
| OpGetNumNodes
| OpGetNumEdges.

(** What the call returns to the caller. *)
Inductive ig_out :=
| OutUnit
| OutCount (n : N)
| OutEdges (l : list Edge).

(** One call: dispatches to the methods above. *)
Definition ig_step (c : cfg) (g : InputGraph) (o : ig_op) : res (InputGraph * ig_out) :=
  match o with
  | OpAddEdge f t w => '(g', n) <- ig_add_edge c g f t w ;; Ok (g', OutCount n)
  | OpAddEdgeBidir f t w => '(g', n) <- ig_add_edge_bidir c g f t w ;; Ok (g', OutCount n)
  | OpFreeze => g' <- ig_freeze g ;; Ok (g', OutUnit)
  | OpThaw => Ok (ig_thaw g, OutUnit)
  | OpGetEdges => l <- ig_get_edges g ;; Ok (g, OutEdges l)
  | OpGetNumNodes => n <- ig_get_num_nodes g ;; Ok (g, OutCount n)
  | OpGetNumEdges => n <- ig_get_num_edges g ;; Ok (g, OutCount n)
  end.

(** A history of calls; stops at the first panic. *)
Fixpoint ig_run (c : cfg) (g : InputGraph) (ops : list ig_op) : res InputGraph :=
  match ops with
  | [] => Ok g
  | o :: r => '(g', _) <- ig_step c g o ;; ig_run c g' r
  end.
