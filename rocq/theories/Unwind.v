(** * Unwind: what is left of a calculator or an input graph when a call panics

    In Base.v a panic has no state.  In Rust the panic unwinds the stack, and a caller that catches it
    (std::panic::catch_unwind, or a thread that borrowed the object and is joined) keeps an object that
    contains all writes made before the panic.  This file models the two mutable types of the API once more,
    statement by statement, with the state next to every result.  That the results agree with those of
    PathCalc.v and InputGraph.v is proved in UnwindFacts.v. *)
From Verif Require Export PathCalc InputGraph.
Open Scope N_scope.

(** A computation on a mutable object: the object afterwards, also after a panic, and the result. *)
Definition st (S A : Type) : Type := S -> S * res A.
Definition st_ret {S A} (a : A) : st S A := fun s => (s, Ok a).
Definition st_bind {S A B} (m : st S A) (k : A -> st S B) : st S B := fun s =>
  match m s with
  | (s', Ok a) => k a s'
  | (s', Panic r) => (s', Panic r)
  | (s', Diverge) => (s', Diverge)
  end.
Notation "x <~ m ;; k" := (st_bind m (fun x => k)) (at level 61, m at next level, right associativity).
Notation "' p <~ m ;; k" := (st_bind m (fun p => k)) (at level 61, p pattern, m at next level, right associativity).
(** an expression that reads the object *)
Definition st_read {S A} (f : S -> res A) : st S A := fun s => (s, f s).
(** a statement that panics before it writes, or writes *)
Definition st_write {S} (f : S -> res S) : st S unit := fun s =>
  match f s with
  | Ok s' => (s', Ok tt)
  | Panic r => (s, Panic r)
  | Diverge => (s, Diverge)
  end.
(** [for a in l { ... }] with a local variable *)
Fixpoint st_fold {S L A} (f : L -> A -> st S L) (l : list A) (x : L) : st S L :=
  match l with
  | [] => st_ret x
  | a :: r => x' <~ f x a ;; st_fold f r x'
  end.

(** ** path_calculator.rs *)

(** The members of one direction, and their replacement. *)
Definition side_of (d : dir) (pc : PathCalculator) : Side := match d with Fwd => pc_fwd pc | Bwd => pc_bwd pc end.
Definition with_side (d : dir) (pc : PathCalculator) (s : Side) : PathCalculator :=
  match d with Fwd => mkPC (pc_num_nodes pc) s (pc_bwd pc) | Bwd => mkPC (pc_num_nodes pc) (pc_fwd pc) s end.
Definition st_side (d : dir) (f : Side -> res Side) : st PathCalculator unit :=
  st_write (fun pc => s <- f (side_of d pc) ;; Ok (with_side d pc s)).

(** [self.valid_flags[node] = self.valid_flag], called in path_calculator.rs:338 / 346 *)
Definition w_set_valid (node : N) (s : Side) : res Side :=
  fl <- vf_set_valid (s_flags s) node ;; Ok (mkSide (s_data s) fl (s_heap s)).
(** one assignment to a member of [self.data[node]] *)
Definition w_data (f : Data -> Data) (node : N) (s : Side) : res Side :=
  d <- idx (s_data s) node ;; data <- upd (s_data s) node (f d) ;; Ok (mkSide data (s_flags s) (s_heap s)).
(** [self.heap.push(item)] *)
Definition w_push (H : heap_ops) (item : HeapItem) (s : Side) : res Side := Ok (s_set_heap s (hp_push H (s_heap s) item)).
(** [self.heap.clear()] *)
Definition w_clear (s : Side) : res Side := Ok (s_set_heap s []).
(** [self.valid_flags.invalidate_all()] *)
Definition w_invalidate (s : Side) : res Side := Ok (mkSide (s_data s) (vf_invalidate_all (s_flags s)) (s_heap s)).

(** path_calculator.rs:337-351, update_node_fwd / update_node_bwd *)
Definition st_update_node (d : dir) (node weight parent inc_edge : N) : st PathCalculator unit :=
  _ <~ st_side d (w_set_valid node) ;;
  _ <~ st_side d (w_data (fun x => mkData false (d_weight x) (d_parent x) (d_inc_edge x)) node) ;;
  _ <~ st_side d (w_data (fun x => mkData (d_settled x) weight (d_parent x) (d_inc_edge x)) node) ;;
  _ <~ st_side d (w_data (fun x => mkData (d_settled x) (d_weight x) parent (d_inc_edge x)) node) ;;
  st_side d (w_data (fun x => mkData (d_settled x) (d_weight x) (d_parent x) inc_edge) node).

(** path_calculator.rs:142-150 / 178-186, relaxation of one edge *)
Definition st_relax_edge (c : cfg) (H : heap_ops) (fg : FastGraph) (d : dir) (curr : HeapItem)
  (_ : unit) (edge_id : N) : st PathCalculator unit :=
  e <~ st_read (fun _ => idx (fg_edges fg d) edge_id) ;;
  weight <~ st_read (fun _ => uadd c (hi_weight curr) (fe_weight e)) ;;
  w <~ st_read (fun pc => s_get_weight c (side_of d pc) (fe_adj e)) ;;
  if weight <? w then
    _ <~ st_update_node d (fe_adj e) weight (hi_node curr) edge_id ;;
    st_side d (w_push H (mkHeapItem weight (fe_adj e)))
  else st_ret tt.

(** path_calculator.rs:125-159 (d = Fwd) and 161-195 (d = Bwd), the inner loops.  Returns the local variables best_weight
    and meeting_node. *)
Fixpoint st_search_dir (fuel : nat) (c : cfg) (H : heap_ops) (fg : FastGraph) (d : dir)
  (best_weight meeting_node : N) : st PathCalculator (N * N) :=
  match fuel with
  | O => st_read (fun _ => Diverge)
  | S fuel' => fun pc =>
      match hp_pop H (s_heap (side_of d pc)) with
      | None => st_ret (best_weight, meeting_node) pc
      | Some (curr, h') =>
         (_ <~ st_side d (fun s => Ok (s_set_heap s h')) ;;
          settled <~ st_read (fun pc => s_is_settled (side_of d pc) (hi_node curr)) ;;
          if (settled : bool) then st_search_dir fuel' c H fg d best_weight meeting_node
          else if best_weight <? hi_weight curr then st_ret (best_weight, meeting_node)
          else
            stall <~ st_read (fun pc => is_stallable c fg d (side_of d pc) curr) ;;
            if (stall : bool) then st_search_dir fuel' c H fg d best_weight meeting_node
            else
              b <~ st_read (fun _ => fg_begin_edges fg d (hi_node curr)) ;;
              e <~ st_read (fun _ => fg_end_edges fg d (hi_node curr)) ;;
              _ <~ st_fold (st_relax_edge c H fg d curr) (rangeN b e) tt ;;
              _ <~ st_side d (w_data (fun x => mkData true (d_weight x) (d_parent x) (d_inc_edge x)) (hi_node curr)) ;;
              v <~ st_read (fun pc => vf_is_valid (s_flags (side_of (opp d) pc)) (hi_node curr)) ;;
              if (v : bool) then
                ow <~ st_read (fun pc => s_get_weight c (side_of (opp d) pc) (hi_node curr)) ;;
                w <~ st_read (fun _ => uadd c (hi_weight curr) ow) ;;
                if w <? best_weight then st_ret (w, hi_node curr) else st_ret (best_weight, meeting_node)
              else st_ret (best_weight, meeting_node)) pc
      end
  end.

(** path_calculator.rs:121-196, the outer loop *)
Fixpoint st_main_loop (f : fuel) (c : cfg) (H : heap_ops) (fg : FastGraph) (best_weight meeting_node : N)
  : st PathCalculator (N * N) :=
  match f with
  | FO => st_read (fun _ => Diverge)
  | FS f' => fun pc =>
      match s_heap (pc_fwd pc), s_heap (pc_bwd pc) with
      | [], [] => st_ret (best_weight, meeting_node) pc
      | _, _ =>
         ('(bw1, mn1) <~ (fun pc => st_search_dir (S (List.length (s_heap (pc_fwd pc)))) c H fg Fwd best_weight meeting_node pc) ;;
          '(bw2, mn2) <~ (fun pc => st_search_dir (S (List.length (s_heap (pc_bwd pc)))) c H fg Bwd bw1 mn1 pc) ;;
          st_main_loop (f' tt) c H fg bw2 mn2) pc
      end
  end.

(** path_calculator.rs:104-112 (starts) and 113-119 (ends) *)
Definition st_init_side (c : cfg) (H : heap_ops) (d : dir) (items : list (N * N)) : st PathCalculator unit :=
  st_fold (fun _ '(node, weight) =>
    w <~ st_read (fun pc => s_get_weight c (side_of d pc) node) ;;
    if weight <? w then
      _ <~ st_update_node d node weight node (INVALID_EDGE c) ;;
      st_side d (w_push H (mkHeapItem weight node))
    else st_ret tt) items tt.

(** path_calculator.rs:64-211, calc_path_multiple_sources_and_targets *)
Definition st_calc_path_multiple (c : cfg) (H : heap_ops) (fg : FastGraph) (starts ends : list (N * N))
  : st PathCalculator (option ShortestPath) :=
  _ <~ st_read (fun pc => assert (fg_num_nodes fg =? pc_num_nodes pc) "given graph has invalid node count") ;;
  _ <~ st_read (fun _ => assert (negb (is_nil starts)) "there has to be at least one start") ;;
  _ <~ st_read (fun _ => assert (negb (is_nil ends)) "there has to be at least one end") ;;
  _ <~ st_read (fun pc => assert (forallb (fun '(n, _) => n <? pc_num_nodes pc) starts) "invalid start node") ;;
  _ <~ st_read (fun pc => assert (forallb (fun '(n, _) => n <? pc_num_nodes pc) ends) "invalid end node") ;;
  _ <~ st_side Fwd w_clear ;;
  _ <~ st_side Bwd w_clear ;;
  _ <~ st_side Fwd w_invalidate ;;
  _ <~ st_side Bwd w_invalidate ;;
  '(bw0, mn0) <~ st_read (fun _ => init_best c starts ends) ;;
  _ <~ st_init_side c H Fwd starts ;;
  _ <~ st_init_side c H Bwd ends ;;
  '(best_weight, meeting_node) <~ st_main_loop (query_fuel c fg starts ends) c H fg bw0 mn0 ;;
  if meeting_node =? INVALID_NODE c then st_ret None
  else
    _ <~ st_read (fun _ => assert (best_weight <? WEIGHT_MAX c) "best_weight < WEIGHT_MAX") ;;
    nodes <~ st_read (fun pc => extract_nodes c fg (pc_fwd pc) (pc_bwd pc) meeting_node) ;;
    _ <~ st_read (fun _ => assert (negb (is_nil nodes)) "nodes is empty") ;;
    first <~ st_read (fun _ => idx nodes 0) ;;
    last <~ st_read (fun _ => idx nodes (lenN nodes - 1)) ;;
    st_ret (Some (mkSP first last best_weight nodes)).

(** path_calculator.rs:55-62, calc_path *)
Definition st_calc_path (c : cfg) (H : heap_ops) (fg : FastGraph) (start end_ : N)
  : st PathCalculator (option ShortestPath) :=
  st_calc_path_multiple c H fg [(start, 0)] [(end_, 0)].

(** ** input_graph.rs *)

(** [self.edges.push(edge)] *)
Definition w_push_edge (c : cfg) (e : Edge) (g : InputGraph) : res InputGraph :=
  es <- vpush c (ig_edges g) e ;; Ok (mkInputGraph es (ig_num_nodes g) (ig_frozen g)).

(** input_graph.rs:186-214, do_add_edge *)
Definition st_do_add_edge (c : cfg) (from to weight : N) (bidir : bool) : st InputGraph N :=
  _ <~ st_read (fun g => if ig_frozen g
         then Panic (PExplicit "Graph is frozen already, for further changes first use thaw()") else Ok tt) ;;
  if from =? to then st_ret 0
  else if weight <? 1 then st_ret 0
  else
    _ <~ st_write (fun g => m <- uadd c (N.max from to) 1 ;;
           Ok (mkInputGraph (ig_edges g) (N.max (ig_num_nodes g) m) (ig_frozen g))) ;;
    _ <~ st_write (w_push_edge c (mkEdge from to weight)) ;;
    _ <~ (if bidir then st_write (w_push_edge c (mkEdge to from weight)) else st_ret tt) ;;
    st_ret (if bidir then 2 else 1).

(** input_graph.rs:136-168, freeze with sort and remove_duplicate_edges *)
Definition st_freeze : st InputGraph unit :=
  _ <~ st_read (fun g => if ig_frozen g then Panic (PExplicit "Input graph is already frozen") else Ok tt) ;;
  _ <~ st_write (fun g => Ok (mkInputGraph (sort_edges (ig_edges g)) (ig_num_nodes g) (ig_frozen g))) ;;
  _ <~ st_write (fun g => Ok (mkInputGraph (dedup_edges (ig_edges g)) (ig_num_nodes g) (ig_frozen g))) ;;
  st_write (fun g => Ok (mkInputGraph (ig_edges g) (ig_num_nodes g) true)).

(** input_graph.rs:145-147, thaw *)
Definition st_thaw : st InputGraph unit :=
  st_write (fun g => Ok (mkInputGraph (ig_edges g) (ig_num_nodes g) false)).

(** One call: dispatches to the methods above; add_edge and add_edge_bidir are input_graph.rs:113-119, the getters
    (input_graph.rs:121-134) take &self. *)
Definition st_ig_step (c : cfg) (o : ig_op) : st InputGraph ig_out :=
  match o with
  | OpAddEdge f t w => n <~ st_do_add_edge c f t w false ;; st_ret (OutCount n)
  | OpAddEdgeBidir f t w => n <~ st_do_add_edge c f t w true ;; st_ret (OutCount n)
  | OpFreeze => _ <~ st_freeze ;; st_ret OutUnit
  | OpThaw => _ <~ st_thaw ;; st_ret OutUnit
  | OpGetEdges => l <~ st_read ig_get_edges ;; st_ret (OutEdges l)
  | OpGetNumNodes => n <~ st_read ig_get_num_nodes ;; st_ret (OutCount n)
  | OpGetNumEdges => n <~ st_read ig_get_num_edges ;; st_ret (OutCount n)
  end.

(** A history of calls where every panic is caught by the caller: the graph in the end and all results. *)
Fixpoint st_session (c : cfg) (ops : list ig_op) (g : InputGraph) : InputGraph * list (res ig_out) :=
  match ops with
  | [] => (g, [])
  | o :: r => let '(g1, out) := st_ig_step c o g in let '(g2, outs) := st_session c r g1 in (g2, out :: outs)
  end.
