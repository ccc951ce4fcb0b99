(** * PerfTest: model of the crate's performance tests, without their clocks *)
From Verif Require Export RandomTest.
Open Scope N_scope.

(** lib.rs:608-620, the queries of do_run_performance_test.  [calc_path] is the closure of lib.rs:517 and 549. *)
Fixpoint perf_queries (k : nat) (c : cfg) (H : heap_ops) (r : rng) (n : N) (fg : FastGraph) (pc : PathCalculator)
  (checksum num_not_found : N) : res (N * N) :=
  match k with
  | O => Ok (checksum, num_not_found)
  | S k' =>
      '(source, r1) <- gen_range r 0 n ;;
      '(target, r2) <- gen_range r1 0 n ;;
      '(pc', path) <- pc_calc_path c H pc fg source target ;;
      match path with
      | Some p =>
          checksum' <- uadd c checksum (sp_get_weight p) ;;
          perf_queries k' c H r2 n fg pc' checksum' num_not_found
      | None =>
          num_not_found' <- uadd c num_not_found 1 ;;
          perf_queries k' c H r2 n fg pc' checksum num_not_found'
      end
  end.

(** lib.rs:592-631, do_run_performance_test.  The number of queries and the stream of the seeded generator are arguments;
    times are not measured and nothing is printed. *)
Definition do_run_performance_test (c : cfg) (H : heap_ops) (r : rng) (num_queries : nat) (fg : FastGraph)
  (pc : PathCalculator) (num_nodes expected_checksum expected_num_not_found : N) : res unit :=
  '(checksum, num_not_found) <- perf_queries num_queries c H r num_nodes fg pc 0 0 ;;
  _ <- assert (expected_checksum =? checksum) "invalid checksum" ;;
  assert (expected_num_not_found =? num_not_found) "invalid number of paths not found".

(** lib.rs:570-590, prepare_algo: what it calls besides the preparation *)
Definition prepare_algo (preparation : InputGraph -> res FastGraph) (ig : InputGraph) : res FastGraph :=
  fg <- preparation ig ;;
  _ <- ig_get_num_nodes ig ;;
  _ <- ig_get_num_edges ig ;;
  Ok fg.

(** lib.rs:502-521, run_performance_test *)
Definition run_performance_test (c : cfg) (H : heap_ops) (Q : pq_ops) (r : rng) (num_queries : nat) (ig : InputGraph)
  (params : Params) (expected_checksum expected_num_not_found : N) : res unit :=
  _ <- fg_new c 1 ;;
  fg <- prepare_algo (fun ig => prepare_with_params c H Q ig params) ig ;;
  let pc := pc_new c (fg_get_num_nodes fg) in
  n <- ig_get_num_nodes ig ;;
  do_run_performance_test c H r num_queries fg pc n expected_checksum expected_num_not_found.

(** [Result::unwrap] *)
Definition unwrap {A E} (x : A + E) : res A :=
  match x with inl a => Ok a | inr _ => Panic (PExplicit "called `Result::unwrap()` on an `Err` value") end.

(** lib.rs:523-553, run_performance_test_fixed_ordering *)
Definition run_performance_test_fixed_ordering (c : cfg) (H : heap_ops) (Q : pq_ops) (r : rng) (num_queries : nat)
  (ig : InputGraph) (params : Params) (params_with_order : ParamsWithOrder)
  (expected_checksum expected_num_not_found : N) : res unit :=
  fg0 <- prepare_with_params c H Q ig params ;;
  order <- get_node_ordering fg0 ;;
  fg <- prepare_algo (fun ig => x <- prepare_with_order_with_params c H ig order params_with_order ;; unwrap x) ig ;;
  let pc := pc_new c (fg_get_num_nodes fg) in
  n <- ig_get_num_nodes ig ;;
  do_run_performance_test c H r num_queries fg pc n expected_checksum expected_num_not_found.
