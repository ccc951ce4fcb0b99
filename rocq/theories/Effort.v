(** * Effort: the query of PathCalc.v, with a record of the steps it takes

    The functions below are those of PathCalc.v with the same names, written with a monad that also
    collects steps; C72_same_query (PropEffort.v) proves that apart from the record they are the same. *)
From Verif Require Export PathCalc.

(** One step of a query.  Edges are named by their direction and position. *)
Inductive step :=
| Popped (d : dir) (node : N)     (* path_calculator.rs:129 / 165, heap.pop() *)
| Compared (d : dir) (edge : N)   (* path_calculator.rs:216-226 / 233-243, one round of a stall check; d: direction of the search *)
| Expanded (d : dir) (node : N)   (* path_calculator.rs:151 / 187, the node is settled *)
| Relaxed (d : dir) (edge : N)    (* path_calculator.rs:142-150 / 178-186, one round of the relaxation *)
| Unpacked (d : dir) (edge : N).  (* path_calculator.rs:269 / 303, one call of unpack_fwd / unpack_bwd *)

(** Results with steps *)
Definition recorded (T A : Type) : Type := res (A * list T).
Definition lret {T A} (a : A) : recorded T A := Ok (a, []).
Definition lift {T A} (m : res A) : recorded T A := a <- m ;; Ok (a, []).
Definition log {T} (s : T) : recorded T unit := Ok (tt, [s]).
Definition lbind {T A B} (m : recorded T A) (k : A -> recorded T B) : recorded T B :=
  '(a, l) <- m ;; '(b, l') <- k a ;; Ok (b, l ++ l').
Notation "x <~~ m ;; k" := (lbind m (fun x => k)) (at level 61, m at next level, right associativity).
Notation "' p <~~ m ;; k" := (lbind m (fun p => k)) (at level 61, p pattern, m at next level, right associativity).

(** Forget the steps. *)
Definition forget {T A} (m : recorded T A) : res A := '(a, _) <- m ;; Ok a.

Fixpoint lfold {T S A} (f : S -> A -> recorded T S) (l : list A) (s : S) : recorded T S :=
  match l with
  | [] => lret s
  | a :: r => s' <~~ f s a ;; lfold f r s'
  end.

Notation logged := (recorded step).

(** path_calculator.rs:213-245 *)
Fixpoint l_stall_loop (c : cfg) (fg : FastGraph) (d : dir) (own : Side) (curr : HeapItem)
  (ids : list N) : logged bool :=
  match ids with
  | [] => lret false
  | i :: r =>
      _ <~~ log (Compared d i) ;;
      e <~~ lift (idx (fg_edges fg (opp d)) i) ;;
      adj_weight <~~ lift (s_get_weight c own (fe_adj e)) ;;
      if adj_weight =? WEIGHT_MAX c then l_stall_loop c fg d own curr r
      else
        w <~~ lift (uadd c adj_weight (fe_weight e)) ;;
        if w <? hi_weight curr then lret true else l_stall_loop c fg d own curr r
  end.
Definition l_is_stallable (c : cfg) (fg : FastGraph) (d : dir) (own : Side) (curr : HeapItem)
  : logged bool :=
  b <~~ lift (fg_begin_edges fg (opp d) (hi_node curr)) ;;
  e <~~ lift (fg_end_edges fg (opp d) (hi_node curr)) ;;
  l_stall_loop c fg d own curr (rangeN b e).

(** path_calculator.rs:142-150 / 178-186 *)
Definition l_relax_edge (c : cfg) (H : heap_ops) (fg : FastGraph) (d : dir) (curr : HeapItem)
  (own : Side) (edge_id : N) : logged Side :=
  _ <~~ log (Relaxed d edge_id) ;;
  lift (relax_edge c H fg d curr own edge_id).

(** path_calculator.rs:125-159 and 161-195 *)
Fixpoint l_search_dir (fuel : nat) (c : cfg) (H : heap_ops) (fg : FastGraph) (d : dir)
  (own other : Side) (best_weight meeting_node : N) : logged (Side * N * N) :=
  match fuel with
  | O => Diverge
  | S fuel' =>
      match hp_pop H (s_heap own) with
      | None => lret (own, best_weight, meeting_node)
      | Some (curr, h') =>
          _ <~~ log (Popped d (hi_node curr)) ;;
          let own1 := s_set_heap own h' in
          settled <~~ lift (s_is_settled own1 (hi_node curr)) ;;
          if (settled : bool) then
            l_search_dir fuel' c H fg d own1 other best_weight meeting_node
          else if best_weight <? hi_weight curr then
            lret (own1, best_weight, meeting_node)
          else
            st <~~ l_is_stallable c fg d own1 curr ;;
            if (st : bool) then
              l_search_dir fuel' c H fg d own1 other best_weight meeting_node
            else
              b <~~ lift (fg_begin_edges fg d (hi_node curr)) ;;
              e <~~ lift (fg_end_edges fg d (hi_node curr)) ;;
              own2 <~~ lfold (l_relax_edge c H fg d curr) (rangeN b e) own1 ;;
              own3 <~~ lift (s_settle own2 (hi_node curr)) ;;
              _ <~~ log (Expanded d (hi_node curr)) ;;
              v <~~ lift (vf_is_valid (s_flags other) (hi_node curr)) ;;
              if (v : bool) then
                ow <~~ lift (s_get_weight c other (hi_node curr)) ;;
                w <~~ lift (uadd c (hi_weight curr) ow) ;;
                if w <? best_weight then lret (own3, w, hi_node curr)
                else lret (own3, best_weight, meeting_node)
              else lret (own3, best_weight, meeting_node)
      end
  end.

(** path_calculator.rs:121-196 *)
Fixpoint l_main_loop (f : fuel) (c : cfg) (H : heap_ops) (fg : FastGraph)
  (fwd bwd : Side) (best_weight meeting_node : N) : logged (Side * Side * N * N) :=
  match f with
  | FO => Diverge
  | FS f' =>
      match s_heap fwd, s_heap bwd with
      | [], [] => lret (fwd, bwd, best_weight, meeting_node)
      | _, _ =>
          '(fwd', bw1, mn1) <~~ l_search_dir (S (List.length (s_heap fwd))) c H fg Fwd
                                  fwd bwd best_weight meeting_node ;;
          '(bwd', bw2, mn2) <~~ l_search_dir (S (List.length (s_heap bwd))) c H fg Bwd
                                  bwd fwd' bw1 mn1 ;;
          l_main_loop (f' tt) c H fg fwd' bwd' bw2 mn2
      end
  end.

(** path_calculator.rs:269-335 *)
Fixpoint l_unpack (fuel : nat) (c : cfg) (fg : FastGraph) (d : dir) (nodes : list N)
  (edge_id : N) (reverse : bool) : logged (list N) :=
  match fuel with
  | O => Diverge
  | S fuel' =>
      _ <~~ log (Unpacked d edge_id) ;;
      e <~~ lift (idx (fg_edges fg d) edge_id) ;;
      sc <~~ lift (fe_is_shortcut c e) ;;
      if negb sc then
        lret (nodes ++ [match d with Fwd => fe_base e | Bwd => fe_adj e end])
      else if reverse then
        nodes1 <~~ l_unpack fuel' c fg Fwd nodes (fe_replaced_out e) reverse ;;
        l_unpack fuel' c fg Bwd nodes1 (fe_replaced_in e) reverse
      else
        nodes1 <~~ l_unpack fuel' c fg Bwd nodes (fe_replaced_in e) reverse ;;
        l_unpack fuel' c fg Fwd nodes1 (fe_replaced_out e) reverse
  end.

(** path_calculator.rs:252-262 *)
Fixpoint l_unpack_tree (fuel : nat) (c : cfg) (fg : FastGraph) (d : dir) (s : Side)
  (result : list N) (node : N) : logged (list N * N) :=
  match fuel with
  | O => Diverge
  | S fuel' =>
      dt <~~ lift (idx (s_data s) node) ;;
      if d_inc_edge dt =? INVALID_EDGE c then lret (result, node)
      else
        result' <~~ l_unpack (unpack_fuel fg) c fg d result (d_inc_edge dt)
                      (match d with Fwd => true | Bwd => false end) ;;
        l_unpack_tree fuel' c fg d s result' (d_parent dt)
  end.

(** path_calculator.rs:247-267 *)
Definition l_extract_nodes (c : cfg) (fg : FastGraph) (fwd bwd : Side) (meeting_node : N)
  : logged (list N) :=
  _ <~~ lift (assert (negb (meeting_node =? INVALID_NODE c)) "meeting_node is INVALID_NODE") ;;
  vf <~~ lift (vf_is_valid (s_flags fwd) meeting_node) ;;
  _ <~~ lift (assert vf "meeting node not valid fwd") ;;
  vb <~~ lift (vf_is_valid (s_flags bwd) meeting_node) ;;
  _ <~~ lift (assert vb "meeting node not valid bwd") ;;
  let fuel := S (N.to_nat (fg_num_nodes fg)) in
  '(r1, _) <~~ l_unpack_tree fuel c fg Fwd fwd [] meeting_node ;;
  '(r2, node) <~~ l_unpack_tree fuel c fg Bwd bwd (rev r1) meeting_node ;;
  lret (r2 ++ [node]).

(** path_calculator.rs:64-211 *)
Definition l_calc_path_multiple (c : cfg) (H : heap_ops) (pc : PathCalculator) (fg : FastGraph)
  (starts ends : list (N * N)) : logged (PathCalculator * option ShortestPath) :=
  _ <~~ lift (assert (fg_num_nodes fg =? pc_num_nodes pc) "given graph has invalid node count") ;;
  _ <~~ lift (assert (negb (is_nil starts)) "there has to be at least one start") ;;
  _ <~~ lift (assert (negb (is_nil ends)) "there has to be at least one end") ;;
  _ <~~ lift (assert (forallb (fun '(n, _) => n <? pc_num_nodes pc) starts) "invalid start node") ;;
  _ <~~ lift (assert (forallb (fun '(n, _) => n <? pc_num_nodes pc) ends) "invalid end node") ;;
  let fwd0 := reset_side (pc_fwd pc) in
  let bwd0 := reset_side (pc_bwd pc) in
  '(bw0, mn0) <~~ lift (init_best c starts ends) ;;
  fwd1 <~~ lift (init_side c H fwd0 starts) ;;
  bwd1 <~~ lift (init_side c H bwd0 ends) ;;
  '(fwd2, bwd2, best_weight, meeting_node) <~~
     l_main_loop (query_fuel c fg starts ends) c H fg fwd1 bwd1 bw0 mn0 ;;
  let pc' := mkPC (pc_num_nodes pc) fwd2 bwd2 in
  if meeting_node =? INVALID_NODE c then lret (pc', None)
  else
    _ <~~ lift (assert (best_weight <? WEIGHT_MAX c) "best_weight < WEIGHT_MAX") ;;
    nodes <~~ l_extract_nodes c fg fwd2 bwd2 meeting_node ;;
    _ <~~ lift (assert (negb (is_nil nodes)) "nodes is empty") ;;
    first <~~ lift (idx nodes 0) ;;
    last <~~ lift (idx nodes (lenN nodes - 1)) ;;
    lret (pc', Some (mkSP first last best_weight nodes)).
