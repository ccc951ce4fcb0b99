(** * PropOutput: C50, the output of a graph as Rust code *)
From Verif Require Export OutputProps Examples.
Open Scope N_scope.

(** C50: the output is code, it makes calls that the types allow, and a new graph on which they are made is
    the graph again (after freeze, if the graph was frozen). *)
Theorem C50_output_rebuilds_the_graph : forall c ops g, (forall o, In o ops -> op_repr c o) ->
  (debug_build c = true \/ forall e, In e (accepted ops) -> e_from e < umax c /\ e_to e < umax c) ->
  ig_run c ig_new ops = Ok g ->
  exists calls, code (unit_test_output_string g) calls /\
    (forall o, In o calls -> op_repr c o) /\
    ig_run c ig_new (calls ++ if ig_frozen g then [OpFreeze] else []) = Ok g.
Proof. exact C50_proof. Qed.
Print Assumptions C50_output_rebuilds_the_graph.
(** No text stands for two different sequences of calls. *)
Theorem C50_code_is_unambiguous : forall s p q, code s p -> code s q -> p = q.
Proof. intros s p q H1 H2. exact (code_unique s p H1 q H2). Qed.
Print Assumptions C50_code_is_unambiguous.
Example C50_case : unit_test_output_string ex_ig = str "g.add_edge(0, 1, 5);
g.add_edge(0, 2, 7);
g.add_edge(1, 2, 3);
g.add_edge(2, 3, 4);
g.add_edge(3, 2, 4);
g.add_edge(3, 4, 2);
g.add_edge(4, 1, 1);
g.add_edge(5, 3, 6);
" /\ unit_test_output_string ig_new = [10].
Proof. split; vm_compute; reflexivity. Qed.
(** What [{:?}] prints rebuilds the graph as well. *)
Theorem C50_debug_rebuilds_the_graph : forall c ops g, (forall o, In o ops -> op_repr c o) ->
  (debug_build c = true \/ forall e, In e (accepted ops) -> e_from e < umax c /\ e_to e < umax c) ->
  ig_run c ig_new ops = Ok g ->
  exists calls, code (ig_debug g) calls /\
    (forall o, In o calls -> op_repr c o) /\
    ig_run c ig_new (calls ++ if ig_frozen g then [OpFreeze] else []) = Ok g.
Proof. exact C50_proof. Qed.
Print Assumptions C50_debug_rebuilds_the_graph.
Example C50_debug_case : ig_debug (mkInputGraph [mkEdge 3 0 12] 4 false) = str "g.add_edge(3, 0, 12);
".
Proof. vm_compute. reflexivity. Qed.
