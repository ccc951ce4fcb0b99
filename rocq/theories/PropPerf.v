(** * PropPerf: C78, the performance tests of the crate *)
From Verif Require Export PerfProps Examples.
Open Scope N_scope.

(** C78: a performance test, with or without a fixed ordering and with any parameters, compares the expected numbers with
    the sum of the distances and the number of pairs without a path in the input graph. *)
Theorem C78_performance_test : forall c ops ig r num_queries checksum num_not_found x,
  debug_build c = true -> 1 <= umax c -> frozen_graph c ops ig -> 1 <= ig_num_nodes ig ->
  performance_test c r num_queries ig checksum num_not_found x ->
  x = Panic POverflow \/ x = Panic PCapacity \/
  exists sum missing, tally (accepted ops) (WEIGHT_MAX c) (query_pairs (ig_num_nodes ig) r num_queries) sum missing /\
    (checksum <> sum -> x = Panic (PAssert "invalid checksum")) /\
    (checksum = sum -> num_not_found <> missing -> x = Panic (PAssert "invalid number of paths not found")) /\
    (checksum = sum -> num_not_found = missing -> x = Ok tt).
Proof. exact C78_outcome_proof. Qed.
Print Assumptions C78_performance_test.

(** There is at most one such sum and one such number. *)
Theorem C78_numbers_are_unique : forall E limit pairs sum missing sum' missing',
  tally E limit pairs sum missing -> tally E limit pairs sum' missing' -> sum = sum' /\ missing = missing'.
Proof. exact C78_tally_proof. Qed.
Print Assumptions C78_numbers_are_unique.

(** So all performance tests of a graph agree, unless something overflows. *)
Theorem C78_tests_agree : forall c ops ig r num_queries checksum num_not_found x x',
  debug_build c = true -> 1 <= umax c -> frozen_graph c ops ig -> 1 <= ig_num_nodes ig ->
  performance_test c r num_queries ig checksum num_not_found x ->
  performance_test c r num_queries ig checksum num_not_found x' ->
  x = x' \/ (x = Panic POverflow \/ x = Panic PCapacity) \/ (x' = Panic POverflow \/ x' = Panic PCapacity).
Proof. exact C78_agree_proof. Qed.
Print Assumptions C78_tests_agree.

(** The pairs (0, 4), (0, 5), (5, 1) and (3, 3): one has no path, the others have distances 13, 9 and 0. *)
Definition perf_stream : rng := fun i => nth i [0; 4; 0; 5; 5; 1; 3; 3] 0.
Example C78_case : query_pairs 6 perf_stream 4 = [(0, 4); (0, 5); (5, 1); (3, 3)] /\
  run_performance_test cfg64 list_heap list_pq perf_stream 4 ex_ig (params_new f32_one_tenth 500 2 50) 22 1 = Ok tt /\
  run_performance_test_fixed_ordering cfg64 list_heap list_pq perf_stream 4 ex_ig params_default (mkParamsWithOrder 3) 22 1 =
    Ok tt /\
  run_performance_test cfg64 list_heap list_pq perf_stream 4 ex_ig params_default 21 1 = Panic (PAssert "invalid checksum") /\
  run_performance_test cfg64 list_heap list_pq perf_stream 4 ex_ig params_default 22 0 =
    Panic (PAssert "invalid number of paths not found").
Proof. repeat split; vm_compute; reflexivity. Qed.
Example C78_case_applies : performance_test cfg64 perf_stream 4 ex_ig 22 1 (Ok tt) /\
  tally (accepted ex_ops) (WEIGHT_MAX cfg64) (query_pairs (ig_num_nodes ex_ig) perf_stream 4) 22 1.
Proof.
  assert (performance_test cfg64 perf_stream 4 ex_ig 22 1 (Ok tt)) as HT.
  { replace (@Ok unit tt) with (run_performance_test cfg64 list_heap list_pq perf_stream 4 ex_ig params_default 22 1)
      by (vm_compute; reflexivity).
    exact (plain_test cfg64 perf_stream 4 ex_ig 22 1 list_heap _ list_pq _ params_default list_heap_laws list_pq_laws). }
  split; [exact HT|].
  destruct (C78_performance_test cfg64 ex_ops ex_ig perf_stream 4 22 1 (Ok tt) eq_refl ltac:(discriminate) ex_frozen
    ltac:(vm_compute; discriminate) HT) as [E|[E|(a & b & HA & H1 & H2 & _)]]; [discriminate E|discriminate E|].
  destruct (N.eq_dec 22 a) as [<-|Hn]; [|discriminate (H1 Hn)].
  destruct (N.eq_dec 1 b) as [<-|Hn]; [exact HA|discriminate (H2 eq_refl Hn)].
Qed.
