(** * PropOracleRel: C37 in builds without overflow checks *)
From Verif Require Export OracleRel PropOracle.
Open Scope N_scope.

(** Dijkstra::calc_path of a build without overflow checks, if [number of nodes * greatest weight] is a
    usize: a shortest path, or None iff there is no path of weight below WEIGHT_MAX; whatever the object
    was used for before, also on graphs where its sums wrapped. *)
Theorem C37_dijkstra_is_right_in_release : forall c ops ig M s t r,
  debug_build c = true -> frozen_graph c ops ig ->
  (forall e, In e (ig_edges ig) -> e_weight e <= M) -> ig_num_nodes ig * M <= umax c ->
  dijkstra_answer (unchecked c) ig s t r ->
  match r with
  | Some p => sp_get_source p = s /\ sp_get_target p = t /\
              is_dist (accepted ops) s t (sp_get_weight p) /\ sp_get_weight p < WEIGHT_MAX c /\
              walk (ig_edges ig) s t (sp_get_nodes p) (sp_get_weight p)
  | None => forall ns W, walk (accepted ops) s t ns W -> WEIGHT_MAX c <= W
  end.
Proof. exact C37_dijkstra_release_proof. Qed.
Print Assumptions C37_dijkstra_is_right_in_release.

Theorem C37_dijkstra_returns_in_release : forall c ops ig M H hinv d s t,
  debug_build c = true -> frozen_graph c ops ig ->
  (forall e, In e (ig_edges ig) -> e_weight e <= M) -> ig_num_nodes ig * M <= umax c ->
  heap_laws H hinv -> dijkstra_object (unchecked c) (ig_num_nodes ig) d ->
  s < ig_num_nodes ig -> t < ig_num_nodes ig ->
  exists g d' r, pg_from_input_graph (unchecked c) ig = Ok g /\ dj_calc_path (unchecked c) H d g s t = Ok (d', r).
Proof. exact C37_dijkstra_release_total_proof. Qed.
Print Assumptions C37_dijkstra_returns_in_release.

(** FloydWarshall of a build without overflow checks, if twice [number of nodes * greatest weight] is a
    usize and the matrix can be allocated: it returns for all nodes, with the distance, or WEIGHT_MAX iff
    there is no path of weight below WEIGHT_MAX. *)
Theorem C37_floyd_warshall_is_right_in_release : forall c ops ig M s t,
  debug_build c = true -> frozen_graph c ops ig ->
  (forall e, In e (ig_edges ig) -> e_weight e <= M) ->
  2 * ig_num_nodes ig * M <= umax c -> ig_num_nodes ig * ig_num_nodes ig <= umax c / 2 ->
  s < ig_num_nodes ig -> t < ig_num_nodes ig ->
  (exists w, floyd_warshall_answer (unchecked c) ig s t w) /\
  forall w, floyd_warshall_answer (unchecked c) ig s t w ->
    (w < WEIGHT_MAX c -> is_dist (accepted ops) s t w) /\
    (WEIGHT_MAX c <= w -> w = WEIGHT_MAX c /\ forall ns W, walk (accepted ops) s t ns W -> WEIGHT_MAX c <= W).
Proof. exact C37_fw_release_proof. Qed.
Print Assumptions C37_floyd_warshall_is_right_in_release.

(** The bound on the weights cannot be dropped: two edges of weight 2^63 make a path of weight 2^64, and
    a Dijkstra object of a build without overflow checks reports weight 0 for it. *)
Definition wrap37_ops : list ig_op := [OpAddEdge 0 1 (2 ^ 63); OpAddEdge 1 2 (2 ^ 63); OpFreeze].
Definition wrap37_ig : InputGraph := Eval vm_compute in get_ok (ig_run cfg64 ig_new wrap37_ops) ig_new.
Definition wrap37_pg : PrepGraph := Eval vm_compute in get_ok (pg_from_input_graph cfg64 wrap37_ig) pg_dummy.
Theorem C37_release_without_bound_refuted : exists c ops ig s t p,
  debug_build c = true /\ frozen_graph c ops ig /\ dijkstra_answer (unchecked c) ig s t (Some p) /\
  ~ is_dist (accepted ops) s t (sp_get_weight p).
Proof.
  exists cfg64, wrap37_ops, wrap37_ig, 0, 2, (mkSP 0 2 0 [0; 1; 2]).
  split; [reflexivity|]. split.
  { split; [|split; vm_compute; reflexivity]. intros o Ho.
    repeat (destruct Ho as [<-|Ho]; [vm_compute; repeat split; discriminate|]). destruct Ho. }
  split.
  { exists wrap37_pg, 3, (dj_new (unchecked cfg64) 3). eexists. exists list_heap, (fun _ => True).
    split; [exact list_heap_laws|]. split; [vm_compute; reflexivity|]. split; [apply dijkstra_new|].
    vm_compute. reflexivity. }
  intros ((ns & HW) & _). change (sp_get_weight (mkSP 0 2 0 [0; 1; 2])) with 0 in HW.
  inversion HW as [|u v t0 w l W Hin _ E1 E2 E3 E4]. apply N.eq_add_0 in E4 as (-> & _).
  vm_compute in Hin. repeat (destruct Hin as [Hin|Hin]; [discriminate Hin|]). exact Hin.
Qed.
Print Assumptions C37_release_without_bound_refuted.

(** The hypotheses can be met: an object that was used before. *)
Definition ex_dj1_release : Dijkstra := Eval vm_compute in
  fst (get_ok (dj_calc_path (unchecked cfg64) list_heap (dj_new (unchecked cfg64) 6) ex_pg 3 1) (dj_new cfg64 6, None)).
Example C37_release_case : dijkstra_answer (unchecked cfg64) ex_ig 0 4 (Some (mkSP 0 4 13 [0; 2; 3; 4])) /\
  is_dist (accepted ex_ops) 0 4 13 /\ floyd_warshall_answer (unchecked cfg64) ex_ig 0 4 13.
Proof.
  assert (dijkstra_answer (unchecked cfg64) ex_ig 0 4 (Some (mkSP 0 4 13 [0; 2; 3; 4]))) as Ha.
  { assert (dijkstra_object (unchecked cfg64) 6 ex_dj1_release) as Hd.
    { eapply dijkstra_used with (H := list_heap) (hinv := fun _ => True) (d := dj_new (unchecked cfg64) 6)
        (g := ex_pg) (s := 3) (t := 1); [apply dijkstra_new|exact list_heap_laws|vm_compute; reflexivity]. }
    exists ex_pg, 6, ex_dj1_release; eexists; exists list_heap, (fun _ => True).
    (split; [exact list_heap_laws|]). (split; [vm_compute; reflexivity|]).
    (split; [exact Hd|]). vm_compute; reflexivity. }
  assert (forall e, In e (ig_edges ex_ig) -> e_weight e <= 100) as HM.
  { intros e He. repeat (destruct He as [<-|He]; [vm_compute; discriminate|]). destruct He. }
  assert (ig_num_nodes ex_ig * 100 <= umax cfg64) as Hb by (vm_compute; discriminate).
  split; [exact Ha|]. split.
  - exact (proj1 (proj2 (proj2 (C37_dijkstra_is_right_in_release cfg64 ex_ops ex_ig 100 0 4 _ eq_refl ex_frozen HM Hb Ha)))).
  - exists 6; eexists; eexists; (split; [vm_compute; reflexivity|]);
    (split; [vm_compute; reflexivity|]); vm_compute; reflexivity.
Qed.
