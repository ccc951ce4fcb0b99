(** * RandomTest: model of the crate's randomized tests *)
From Verif Require Export SpecOracle FastGraph32.
Open Scope N_scope.

(** rand::rngs::StdRng (external code): an endless stream of numbers; nothing is assumed about it. *)
Definition rng := nat -> N.

(** rand::Rng::gen_range (external code): some number of the range, depending on the next number of the stream.  It panics
    if the range is empty. *)
Definition gen_range (r : rng) (low high : N) : res (N * rng) :=
  if low <? high then Ok (low + r O mod (high - low), fun k => r (S k))
  else Panic (PAssert "gen_range called with low >= high").

(** input_graph.rs:221-231, the loop of build_random_graph.  It need not end: [fuel] bounds the number of rounds. *)
Fixpoint random_edges (fuel : nat) (c : cfg) (r : rng) (num_nodes num_edges : N) (g : InputGraph) (edge_count : N)
  : res (InputGraph * rng) :=
  match fuel with
  | O => Diverge
  | S fuel' =>
      '(head, r1) <- gen_range r 0 num_nodes ;;
      '(tail, r2) <- gen_range r1 0 num_nodes ;;
      '(weight, r3) <- gen_range r2 1 100 ;;
      '(g', added) <- ig_add_edge c g tail head weight ;;
      edge_count' <- uadd c edge_count added ;;
      if edge_count' =? num_edges then Ok (g', r3)
      else random_edges fuel' c r3 num_nodes num_edges g' edge_count'
  end.

(** input_graph.rs:52-55 and 216-235, InputGraph::random and build_random_graph.  The number of edges is an argument; in
    the code it is computed from the mean degree, with floating point numbers. *)
Definition ig_random (fuel : nat) (c : cfg) (r : rng) (num_nodes num_edges : N) : res (InputGraph * rng) :=
  '(g, r') <- random_edges fuel c r num_nodes num_edges ig_new 0 ;;
  g' <- ig_freeze g ;;
  Ok (g', r').

(** [==] of two node lists *)
Definition same_nodes (a b : list N) : bool := if list_eq_dec N.eq_dec a b then true else false.

(** [unwrap_or] *)
Definition unwrap_or {A} (o : option A) (d : A) : A := match o with Some a => a | None => d end.

(** lib.rs:177-205, the queries of run_test_on_random_graph.  Counters of queries are not bounded here. *)
Fixpoint single_queries (k : nat) (c : cfg) (H : heap_ops) (r : rng) (n : N) (fg : FastGraph) (pc : PathCalculator)
  (dg : PrepGraph) (dj : Dijkstra) (fw : FloydWarshall) (different : N) : res N :=
  match k with
  | O => Ok different
  | S k' =>
      '(source, r1) <- gen_range r 0 n ;;
      '(target, r2) <- gen_range r1 0 n ;;
      '(pc', fast) <- pc_calc_path c H pc fg source target ;;
      let path_fast := unwrap_or fast (sp_none c source target) in
      '(dj', dijkstra) <- dj_calc_path c H dj dg source target ;;
      let path_dijkstra := unwrap_or dijkstra (sp_none c source target) in
      weight_fw <- fw_calc_weight c fw source target ;;
      _ <- assert (weight_fw =? sp_get_weight path_fast) "No agreement for routing query: Floyd-Warshall" ;;
      _ <- assert (sp_eqb path_dijkstra path_fast) "No agreement for routing query: Dijkstra" ;;
      let different' := if same_nodes (sp_get_nodes path_dijkstra) (sp_get_nodes path_fast) then different else different + 1 in
      single_queries k' c H r2 n fg pc' dg dj' fw different'
  end.

(** lib.rs:159-213, run_test_on_random_graph, with its constants as arguments.  The comparison of floating point numbers
    at the end is one of natural numbers here. *)
Definition run_test_on_random_graph (fuel : nat) (c : cfg) (H : heap_ops) (Q : pq_ops) (r : rng)
  (num_nodes num_edges : N) (num_queries : nat) : res unit :=
  '(ig, r1) <- ig_random fuel c r num_nodes num_edges ;;
  fg <- prepare c H Q ig ;;
  let pc := create_calculator c fg in
  dg <- pg_from_input_graph c ig ;;
  n <- ig_get_num_nodes ig ;;
  let dj := dj_new c n in
  fw0 <- fw_new c n ;;
  fw <- fw_prepare c fw0 ig ;;
  different <- single_queries num_queries c H r1 n fg pc dg dj fw 0 ;;
  if N.of_nat num_queries <? 10 * different then Panic (PExplicit "too many different paths") else Ok tt.

(** lib.rs:335-349, gen_weighted_nodes *)
Fixpoint gen_weighted_nodes (num : nat) (c : cfg) (r : rng) (max_node : N) : res (list (N * N) * rng) :=
  match num with
  | O => Ok ([], r)
  | S num' =>
      '(node, r1) <- gen_range r 0 max_node ;;
      '(dice, r2) <- gen_range r1 0 100 ;;
      '(weight, r3) <- (if dice <? 3 then Ok (WEIGHT_MAX c, r2) else gen_range r2 0 100) ;;
      '(l, r4) <- gen_weighted_nodes num' c r3 max_node ;;
      Ok ((node, weight) :: l, r4)
  end.

(** lib.rs:251-258, one Dijkstra query for every pair of a source and a target *)
Definition dijkstra_paths (c : cfg) (H : heap_ops) (dg : PrepGraph) (dj : Dijkstra) (sources targets : list (N * N))
  : res (Dijkstra * list (option ShortestPath * N * N)) :=
  foldM (fun '(dj, l) '((s, sw), (t, tw)) =>
           '(dj', p) <- dj_calc_path c H dj dg s t ;;
           Ok (dj', l ++ [(p, sw, tw)]))
        (list_prod sources targets) (dj, []).

(** lib.rs:261-269, found_dijkstras *)
Definition found_dijkstras (c : cfg) (l : list (option ShortestPath * N * N)) : list (ShortestPath * N * N) :=
  flat_map (fun '(p, sw, tw) =>
              match p with
              | Some p => if (sw <? WEIGHT_MAX c) && (tw <? WEIGHT_MAX c) then [(p, sw, tw)] else []
              | None => []
              end) l.

(** lib.rs:274-276 and 301, the weight of a path together with those of its ends *)
Definition full_weight (c : cfg) (x : ShortestPath * N * N) : res N :=
  let '(p, sw, tw) := x in
  a <- uadd c (sp_get_weight p) sw ;; uadd c a tw.

(** Iterator::min *)
Definition list_min (l : list N) : option N :=
  match l with [] => None | a :: r => Some (fold_left N.min r a) end.

(** lib.rs:298-304, matching_dijkstras *)
Definition matching_dijkstras (c : cfg) (f : ShortestPath) (l : list (ShortestPath * N * N))
  : res (list (ShortestPath * N * N)) :=
  foldM (fun acc x =>
           w <- full_weight c x ;;
           let '(p, _, _) := x in
           if (w =? sp_get_weight f) && (sp_get_source p =? sp_get_source f) && (sp_get_target p =? sp_get_target f)
           then Ok (acc ++ [x]) else Ok acc) l [].

(** lib.rs:237-319, the queries of routing_with_multiple_sources_and_targets_on_random_graph *)
Fixpoint multi_queries (k : nat) (c : cfg) (H : heap_ops) (r : rng) (n : N) (num_sources num_targets : nat) (fg : FastGraph)
  (pc : PathCalculator) (dg : PrepGraph) (dj : Dijkstra) (different not_found : N) : res (N * N) :=
  match k with
  | O => Ok (different, not_found)
  | S k' =>
      '(sources, r1) <- gen_weighted_nodes num_sources c r n ;;
      '(targets, r2) <- gen_weighted_nodes num_targets c r1 n ;;
      '(pc', fast_path) <- pc_calc_path_multiple c H pc fg sources targets ;;
      '(dj', paths) <- dijkstra_paths c H dg dj sources targets ;;
      let found := found_dijkstras c paths in
      weights <- mapM (full_weight c) found ;;
      match list_min weights with
      | None =>
          _ <- assert (match fast_path with None => true | Some _ => false end) "fast_path.is_none()" ;;
          multi_queries k' c H r2 n num_sources num_targets fg pc' dg dj' different (not_found + 1)
      | Some w =>
          match fast_path with
          | None => Panic (PAssert "fast_path.is_some()")
          | Some f =>
              _ <- assert (w =? sp_get_weight f) "fast_path's weight does not match" ;;
              matching <- matching_dijkstras c f found ;;
              _ <- assert (0 <? lenN matching) "There has to be at least one Dijkstra path" ;;
              let different' :=
                if existsb (fun '(p, _, _) => same_nodes (sp_get_nodes p) (sp_get_nodes f)) matching then different
                else different + 1 in
              multi_queries k' c H r2 n num_sources num_targets fg pc' dg dj' different' not_found
          end
      end
  end.

(** lib.rs:218-332, one repetition of routing_with_multiple_sources_and_targets_on_random_graph, with its constants as
    arguments *)
Definition run_multi_test_on_random_graph (fuel : nat) (c : cfg) (H : heap_ops) (Q : pq_ops) (r : rng)
  (num_nodes num_edges : N) (num_queries num_sources num_targets : nat) : res unit :=
  '(ig, r1) <- ig_random fuel c r num_nodes num_edges ;;
  fg <- prepare c H Q ig ;;
  let pc := create_calculator c fg in
  dg <- pg_from_input_graph c ig ;;
  n <- ig_get_num_nodes ig ;;
  let dj := dj_new c n in
  '(different, not_found) <- multi_queries num_queries c H r1 n num_sources num_targets fg pc dg dj 0 0 ;;
  if N.of_nat num_queries <? 2 * not_found then Panic (PExplicit "too many paths not found")
  else if N.of_nat num_queries <? 10 * different then Panic (PExplicit "too many different paths")
  else Ok tt.
