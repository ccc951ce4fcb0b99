(** * PropRandom: C77, the randomized tests of the crate *)
From Verif Require Export RandomProps Examples.
Open Scope N_scope.

(** C77: for every stream of random numbers, the generator either needs more candidates or returns a frozen graph: its
    edges are the first candidates that are no loops, as many as were asked for. *)
Theorem C77_random_graph : forall fuel c r num_nodes num_edges,
  1 <= num_nodes -> num_nodes <= umax c -> 99 <= umax c -> 1 <= num_edges -> num_edges <= umax c / 2 ->
  (ig_random fuel c r num_nodes num_edges = Diverge /\ lenN (candidates num_nodes r fuel) < num_edges) \/
  exists k ops ig r', (k <= fuel)%nat /\ ig_random fuel c r num_nodes num_edges = Ok (ig, r') /\
    (forall i, r' i = r (3 * k + i)%nat) /\ frozen_graph c ops ig /\ accepted ops = candidates num_nodes r k /\
    lenN (accepted ops) = num_edges.
Proof. exact C77_graph_proof. Qed.
Print Assumptions C77_random_graph.

(** Every list of edges with such ends and weights is generated from some stream. *)
Theorem C77_every_graph_arises : forall c num_nodes es,
  1 <= num_nodes -> num_nodes <= umax c -> 99 <= umax c -> es <> [] -> lenN es <= umax c / 2 ->
  (forall e, In e es -> e_from e < num_nodes /\ e_to e < num_nodes /\ e_from e <> e_to e /\ 1 <= e_weight e <= 99) ->
  exists fuel r ig r' ops, ig_random fuel c r num_nodes (lenN es) = Ok (ig, r') /\ frozen_graph c ops ig /\
    accepted ops = es.
Proof. exact C77_every_graph_proof. Qed.
Print Assumptions C77_every_graph_arises.

(** run_test_on_random_graph: no stream makes an assertion fail or anything else panic; only the count of different paths
    can, and only on graphs where shortest paths are not unique. *)
Theorem C77_single_test : forall fuel c H hinv Q qinv r num_nodes num_edges num_queries,
  debug_build c = true -> heap_laws H hinv -> pq_laws Q qinv ->
  1 <= num_nodes <= 100 -> 1 <= num_edges <= umax c / 2 -> 2000000 <= umax c ->
  ig_random fuel c r num_nodes num_edges = Diverge \/
  run_test_on_random_graph fuel c H Q r num_nodes num_edges num_queries = Ok tt \/
  run_test_on_random_graph fuel c H Q r num_nodes num_edges num_queries = Panic (PExplicit "too many different paths") /\
    exists ops ig r', ig_random fuel c r num_nodes num_edges = Ok (ig, r') /\ frozen_graph c ops ig /\
      ~ unique_shortest_paths (accepted ops).
Proof. exact C77_single_proof. Qed.
Print Assumptions C77_single_test.

(** routing_with_multiple_sources_and_targets_on_random_graph: the same, and the count of pairs without a path. *)
Theorem C77_multi_test : forall fuel c H hinv Q qinv r num_nodes num_edges num_queries num_sources num_targets,
  debug_build c = true -> heap_laws H hinv -> pq_laws Q qinv ->
  1 <= num_nodes <= 100 -> 1 <= num_edges <= umax c / 2 -> 2000000 <= umax c ->
  (0 < num_sources)%nat -> (0 < num_targets)%nat ->
  ig_random fuel c r num_nodes num_edges = Diverge \/
  run_multi_test_on_random_graph fuel c H Q r num_nodes num_edges num_queries num_sources num_targets = Ok tt \/
  run_multi_test_on_random_graph fuel c H Q r num_nodes num_edges num_queries num_sources num_targets =
    Panic (PExplicit "too many paths not found") \/
  run_multi_test_on_random_graph fuel c H Q r num_nodes num_edges num_queries num_sources num_targets =
    Panic (PExplicit "too many different paths") /\
    exists ops ig r', ig_random fuel c r num_nodes num_edges = Ok (ig, r') /\ frozen_graph c ops ig /\
      ~ unique_shortest_paths (accepted ops).
Proof. exact C77_multi_proof. Qed.
Print Assumptions C77_multi_test.

(** A stream that starts with the given numbers and goes on with zeros *)
Definition stream (l : list N) : rng := fun i => nth i l 0.

(** The candidates 0 -> 2, 0 -> 1, the loop at 2, 2 -> 3, 1 -> 3 and 3 -> 4 of weight 1, and then the pairs (0, 4) and (0, 3) *)
Definition ex_stream : rng := stream [2;0;0; 1;0;0; 2;2;5; 3;2;0; 3;1;0; 4;3;0; 0;4; 0;3].

(** Both counts can fail a test although every answer is right. *)
Theorem C77_tests_can_fail : exists r r' fuel num_nodes num_edges num_queries,
  (1 <= num_nodes <= 100 /\ 1 <= num_edges <= umax cfg64 / 2) /\
  run_test_on_random_graph fuel cfg64 list_heap list_pq r num_nodes num_edges num_queries =
    Panic (PExplicit "too many different paths") /\
  run_multi_test_on_random_graph fuel cfg64 list_heap list_pq r' num_nodes num_edges num_queries 1 1 =
    Panic (PExplicit "too many paths not found").
Proof.
  exists ex_stream, (stream [2;0;0; 1;0;0; 2;2;5; 3;2;0; 3;1;0; 4;3;0; 4;99;0; 0;99;0; 4;99;0; 0;99;0]), 6%nat, 5, 5, 2%nat.
  split; [vm_compute; repeat split; discriminate|]. split; vm_compute; reflexivity.
Qed.
Print Assumptions C77_tests_can_fail.

Example C77_case : candidates 5 ex_stream 6 = [mkEdge 0 2 1; mkEdge 0 1 1; mkEdge 2 3 1; mkEdge 1 3 1; mkEdge 3 4 1] /\
  (exists r', ig_random 6 cfg64 ex_stream 5 5 =
    Ok (mkInputGraph [mkEdge 0 1 1; mkEdge 0 2 1; mkEdge 1 3 1; mkEdge 2 3 1; mkEdge 3 4 1] 5 true, r')) /\
  ig_random 5 cfg64 ex_stream 5 5 = Diverge.
Proof. split; [|split]; [vm_compute; reflexivity|eexists; vm_compute; reflexivity|vm_compute; reflexivity]. Qed.
Example C77_case_single : run_test_on_random_graph 3 cfg64 list_heap list_pq
  (stream [1;0;6; 2;1;4; 0;2;8; 0;2; 2;1; 1;1]) 3 3 3 = Ok tt.
Proof. vm_compute. reflexivity. Qed.
Example C77_case_multi : run_multi_test_on_random_graph 3 cfg64 list_heap list_pq
  (stream [1;0;6; 2;1;4; 0;2;8; 0;50;7; 1;60;2; 2;2; 1;70;30]) 3 3 1 2 2 = Ok tt.
Proof. vm_compute. reflexivity. Qed.
