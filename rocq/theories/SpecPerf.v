(** * SpecPerf: what the performance tests have to find *)
From Verif Require Export SpecApi PerfTest.
Open Scope N_scope.

(** The pairs of nodes that the stream stands for. *)
Definition query_pairs (n : N) (r : rng) (k : nat) : list (N * N) :=
  map (fun i => (r (2 * i)%nat mod n, r (2 * i + 1)%nat mod n)) (seq 0 k).

(** [sum] is the sum of the distances of those pairs that have a path lighter than [limit], and [missing] is the number of
    the other pairs. *)
Inductive tally (E : list Edge) (limit : N) : list (N * N) -> N -> N -> Prop :=
| tally_nil : tally E limit [] 0 0
| tally_found s t l d sum missing :
    is_dist E s t d -> d < limit -> tally E limit l sum missing -> tally E limit ((s, t) :: l) (d + sum) missing
| tally_missing s t l sum missing :
    (forall ns W, walk E s t ns W -> limit <= W) -> tally E limit l sum missing ->
    tally E limit ((s, t) :: l) sum (missing + 1).

(** [x] is the outcome of a performance test on [ig], of one of the two kinds, with any parameters, heap and queue. *)
Inductive performance_test (c : cfg) (r : rng) (k : nat) (ig : InputGraph) (sum missing : N) : res unit -> Prop :=
| plain_test H hinv Q qinv params :
    heap_laws H hinv -> pq_laws Q qinv ->
    performance_test c r k ig sum missing (run_performance_test c H Q r k ig params sum missing)
| fixed_ordering_test H hinv Q qinv params params_with_order :
    heap_laws H hinv -> pq_laws Q qinv ->
    performance_test c r k ig sum missing
      (run_performance_test_fixed_ordering c H Q r k ig params params_with_order sum missing).
