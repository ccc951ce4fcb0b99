(** * PropOracle: C37 and C43, the reference implementations used by the tests *)
From Verif Require Export OracleProps Examples.
Open Scope N_scope.

(** C37: Dijkstra::calc_path returns a shortest path, or None iff there is no path of weight below
    WEIGHT_MAX; whatever the object was used for before. *)
Theorem C37_dijkstra_is_right : forall c ops ig s t r,
  debug_build c = true -> frozen_graph c ops ig -> dijkstra_answer c ig s t r ->
  match r with
  | Some p => sp_get_source p = s /\ sp_get_target p = t /\
              is_dist (accepted ops) s t (sp_get_weight p) /\ sp_get_weight p < WEIGHT_MAX c /\
              walk (ig_edges ig) s t (sp_get_nodes p) (sp_get_weight p)
  | None => forall ns W, walk (accepted ops) s t ns W -> WEIGHT_MAX c <= W
  end.
Proof. exact C37_dijkstra_proof. Qed.
Print Assumptions C37_dijkstra_is_right.

(** It returns for all nodes of the graph, if [number of nodes * greatest weight] is a usize. *)
Theorem C37_dijkstra_returns : forall c ops ig M H hinv d s t,
  debug_build c = true -> frozen_graph c ops ig ->
  (forall e, In e (ig_edges ig) -> e_weight e <= M) -> ig_num_nodes ig * M <= umax c ->
  heap_laws H hinv -> dijkstra_object c (ig_num_nodes ig) d ->
  s < ig_num_nodes ig -> t < ig_num_nodes ig ->
  exists g d' r, pg_from_input_graph c ig = Ok g /\ dj_calc_path c H d g s t = Ok (d', r).
Proof. exact C37_dijkstra_total_proof. Qed.
Print Assumptions C37_dijkstra_returns.

(** FloydWarshall::calc_weight returns the distance, or WEIGHT_MAX iff there is no path of weight
    below WEIGHT_MAX. *)
Theorem C37_floyd_warshall_is_right : forall c ops ig s t w,
  debug_build c = true -> frozen_graph c ops ig -> floyd_warshall_answer c ig s t w ->
  s < ig_num_nodes ig -> t < ig_num_nodes ig ->
  (w < WEIGHT_MAX c -> is_dist (accepted ops) s t w) /\
  (WEIGHT_MAX c <= w -> w = WEIGHT_MAX c /\ forall ns W, walk (accepted ops) s t ns W -> WEIGHT_MAX c <= W).
Proof. exact C37_fw_proof. Qed.
Print Assumptions C37_floyd_warshall_is_right.

(** It returns for all nodes, if twice [number of nodes * greatest weight] is a usize and the
    matrix can be allocated. *)
Theorem C37_floyd_warshall_returns : forall c ops ig M s t,
  debug_build c = true -> frozen_graph c ops ig ->
  (forall e, In e (ig_edges ig) -> e_weight e <= M) ->
  2 * ig_num_nodes ig * M <= umax c -> ig_num_nodes ig * ig_num_nodes ig <= umax c / 2 ->
  s < ig_num_nodes ig -> t < ig_num_nodes ig ->
  exists w, floyd_warshall_answer c ig s t w.
Proof. exact C37_fw_total_proof. Qed.
Print Assumptions C37_floyd_warshall_returns.

(** All three agree. *)
Theorem C37_agreement : forall c ops ig fg s t r r' w,
  debug_build c = true -> frozen_graph c ops ig -> prepared c ig fg ->
  answer c fg s t r -> dijkstra_answer c ig s t r' -> floyd_warshall_answer c ig s t w ->
  option_map sp_get_weight r = option_map sp_get_weight r' /\
  w = match r with Some p => sp_get_weight p | None => WEIGHT_MAX c end.
Proof. exact C37_agree_proof. Qed.
Print Assumptions C37_agreement.

Definition pg_dummy : PrepGraph := mkPrepGraph [] [] 0.
Definition ex_pg : PrepGraph := Eval vm_compute in get_ok (pg_from_input_graph cfg64 ex_ig) pg_dummy.
Definition ex_dj1 : Dijkstra :=
  Eval vm_compute in fst (get_ok (dj_calc_path cfg64 list_heap (dj_new cfg64 6) ex_pg 3 1) (dj_new cfg64 6, None)).
Example C37_dijkstra_case : dijkstra_answer cfg64 ex_ig 0 4 (Some (mkSP 0 4 13 [0; 2; 3; 4])) /\
  dijkstra_answer cfg64 ex_ig 0 5 None.
Proof.
  assert (dijkstra_object cfg64 6 ex_dj1) as Hd.
  { eapply dijkstra_used with (H := list_heap) (hinv := fun _ => True) (d := dj_new cfg64 6) (g := ex_pg) (s := 3) (t := 1);
      [apply dijkstra_new|exact list_heap_laws|vm_compute; reflexivity]. }
  split; exists ex_pg, 6, ex_dj1; eexists; exists list_heap, (fun _ => True);
    (split; [exact list_heap_laws|]); (split; [vm_compute; reflexivity|]);
    (split; [exact Hd|]); vm_compute; reflexivity.
Qed.
Example C37_floyd_warshall_case : floyd_warshall_answer cfg64 ex_ig 0 4 13 /\
  floyd_warshall_answer cfg64 ex_ig 0 5 (WEIGHT_MAX cfg64).
Proof.
  split; exists 6; eexists; eexists; (split; [vm_compute; reflexivity|]);
    (split; [vm_compute; reflexivity|]); vm_compute; reflexivity.
Qed.

(** C43: misuse of the reference implementations.  Dijkstra rejects unknown nodes and graphs of
    another size. *)
Theorem C43_dijkstra_rejects_misuse : forall c H n d g s t,
  dijkstra_object c n d ->
  (n <= s -> dj_calc_path c H d g s t = Panic PIndex) /\
  (s < n -> pg_num_nodes g <> n ->
     dj_calc_path c H d g s t = Panic (PAssert "given graph has invalid node count")) /\
  (s < n -> pg_num_nodes g = n -> n <= t -> dj_calc_path c H d g s t = Panic PIndex).
Proof. exact C43_dijkstra_proof. Qed.
Print Assumptions C43_dijkstra_rejects_misuse.

(** FloydWarshall::calc_weight rejects unknown sources.  For a target that is too large it panics or
    answers for another pair of nodes: every multiple of the node count in the target is added to the source. *)
Theorem C43_floyd_warshall_misuse_partial : forall c ig s t w,
  debug_build c = true -> floyd_warshall_answer c ig s t w ->
  0 < ig_num_nodes ig /\ s + t / ig_num_nodes ig < ig_num_nodes ig /\
  floyd_warshall_answer c ig (s + t / ig_num_nodes ig) (t mod ig_num_nodes ig) w.
Proof. exact C43_fw_proof. Qed.
Print Assumptions C43_floyd_warshall_misuse_partial.
Example C43_misuse_case : floyd_warshall_answer cfg64 ex_ig 0 10 9 /\ ig_num_nodes ex_ig = 6.
Proof.
  split; [|reflexivity]. exists 6; eexists; eexists; (split; [vm_compute; reflexivity|]);
    (split; [vm_compute; reflexivity|]); vm_compute; reflexivity.
Qed.

(** FloydWarshall::calc_weight does not reject an unknown target: it returns another entry. *)
Theorem C43_floyd_warshall_unknown_target_refuted : exists c ops ig s t w,
  frozen_graph c ops ig /\ ig_num_nodes ig <= t /\ floyd_warshall_answer c ig s t w /\ w < WEIGHT_MAX c.
Proof. exact C43_target_proof. Qed.
Print Assumptions C43_floyd_warshall_unknown_target_refuted.

(** FloydWarshall::prepare does not start afresh: prepared for a second graph, the object still
    answers with paths of the first one. *)
Theorem C43_floyd_warshall_reuse_refuted : exists c ops1 ig1 ops2 ig2 n fw0 fw1 fw2 s t w,
  frozen_graph c ops1 ig1 /\ frozen_graph c ops2 ig2 /\
  fw_new c n = Ok fw0 /\ fw_prepare c fw0 ig1 = Ok fw1 /\ fw_prepare c fw1 ig2 = Ok fw2 /\
  fw_calc_weight c fw2 s t = Ok w /\ w < WEIGHT_MAX c /\ ~ is_dist (accepted ops2) s t w.
Proof. exact C43_reuse_proof. Qed.
Print Assumptions C43_floyd_warshall_reuse_refuted.
