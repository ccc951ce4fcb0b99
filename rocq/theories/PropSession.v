(** * PropSession: C71, whole sessions *)
From Verif Require Export SessionProps Examples.
Open Scope N_scope.

(** C71: whatever a program does with the crate, with any number of graphs, calculators, files, threads, caught panics,
    interrupted writes and restarts: a query that returns gives a best path among the edges that were added to the graph it
    stems from before that was prepared. *)
Theorem C71_queries_are_right : forall c w ops fg pc H hinv sources targets pc' r,
  platform c -> debug_build c = true -> session c w -> In (ops, fg) (w_prepared w) -> In pc (w_calculators w) ->
  heap_laws H hinv -> pc_calc_path_multiple c H pc fg sources targets = Ok (pc', r) ->
  match r with
  | Some p =>
      total (accepted ops) sources targets (sp_get_source p) (sp_get_target p) (sp_get_nodes p) (sp_get_weight p) /\
      (forall s t ns W, total (accepted ops) sources targets s t ns W -> sp_get_weight p <= W)
  | None => forall s t ns W, total (accepted ops) sources targets s t ns W -> WEIGHT_MAX c <= W
  end.
Proof. exact C71_query_proof. Qed.
Print Assumptions C71_queries_are_right.

(** The result of a query, also a panic, is the one that the free function gives for the same prepared graph: nothing else
    that happened in the session has an influence. *)
Theorem C71_nothing_else_counts : forall c w ops fg pc H hinv sources targets,
  platform c -> 1 <= umax c -> session c w -> In (ops, fg) (w_prepared w) -> In pc (w_calculators w) ->
  heap_laws H hinv -> pc_num_nodes pc = fg_get_num_nodes fg ->
  result_of (pc_calc_path_multiple c H pc fg sources targets) = calc_path_multiple c H fg sources targets.
Proof. exact C71_fresh_proof. Qed.
Print Assumptions C71_nothing_else_counts.

(** Whatever can be loaded from a file of the session is a graph that was prepared from the calls noted with the file, no
    matter how writing it ended. *)
Theorem C71_files_are_safe : forall c w f ops bytes fg,
  platform c -> 1 <= umax c -> session c w -> In (f, ops, bytes) (w_files w) -> loaded c f bytes fg ->
  exists ig, frozen_graph c ops ig /\ prepared c ig fg.
Proof. exact C71_file_proof. Qed.
Print Assumptions C71_files_are_safe.

(** Every input graph is what the calls on it that returned make of a new graph. *)
Theorem C71_graphs_are_separate : forall c w ops ig,
  platform c -> 1 <= umax c -> session c w -> In (ops, ig) (w_graphs w) -> ig_run c ig_new ops = Ok ig.
Proof. exact C71_graph_proof. Qed.
Print Assumptions C71_graphs_are_separate.

(** A session: a graph is built, prepared, queried and saved in both forms; it is changed, prepared again and saved over the
    first file, but the process ends meanwhile; after the restart the second file is loaded and queried. *)
Lemma session_calls c ops0 ig ps cs fs : forall ops ops1 ig', ops1 = ops0 ++ ops ->
  session c (World [(ops0, ig)] ps cs fs) -> (forall o, In o ops -> op_repr c o) ->
  ig_run c ig ops = Ok ig' -> session c (World [(ops1, ig')] ps cs fs).
Proof.
  intros ops. revert ops0 ig. induction ops as [|o ops IH]; intros ops0 ig ops1 ig' -> HS Hr E; cbn [ig_run] in E.
  - injection E as <-. rewrite app_nil_r. exact HS.
  - destruct (ig_step c ig o) as [[ig1 out]| |] eqn:E1; cbn [bind] in E; try discriminate.
    apply (IH (ops0 ++ [o]) ig1); [rewrite <- app_assoc; reflexivity| |intros; apply Hr; right; auto|exact E].
    eapply session_event; [exact HS|]. apply (ev_call c [] ops0 ig [] ps cs fs o ig1 out); [apply Hr; left; reflexivity|exact E1].
Qed.
Definition more_ops : list ig_op := [OpThaw; OpAddEdge 0 4 1; OpFreeze].
Definition more_ig : InputGraph := Eval vm_compute in get_ok (ig_run cfg64 ex_ig more_ops) ig_new.
Definition more_fg : FastGraph := Eval vm_compute in get_ok (prepare cfg64 list_heap list_pq more_ig) fg_dummy.
Definition half_bytes : list N := Eval vm_compute in get_ok (save_to_disk32 cfg64 ex_fg) [].
Definition session_end : world :=
  World [] [(ex_ops, ex_fg)] [create_calculator cfg64 ex_fg]
    [(Full, ex_ops ++ more_ops, firstn 100 (save_to_disk more_fg)); (Half, ex_ops, half_bytes)].
Example C71_case : session cfg64 session_end /\
  loaded cfg64 Half half_bytes ex_fg /\
  load_from_disk cfg64 (firstn 100 (save_to_disk more_fg)) = inl EUnexpectedEof /\
  calc_path cfg64 list_heap ex_fg 0 4 = Ok (Some ex_path) /\ sp_get_weight ex_path = 13 /\
  (exists p, calc_path cfg64 list_heap more_fg 0 4 = Ok (Some p) /\ sp_get_weight p = 1).
Proof.
  assert (HL : loaded cfg64 Half half_bytes ex_fg) by (vm_compute; reflexivity).
  split; [|split; [exact HL|split; [vm_compute; reflexivity|split; [vm_compute; reflexivity|split; [reflexivity|]]]]].
  2: { eexists. split; [vm_compute; reflexivity|reflexivity]. }
  pose proof (session_event _ _ _ (session_start cfg64) (ev_new cfg64 [] [] [] [])) as S1.
  assert (session cfg64 (World [(ex_ops, ex_ig)] [] [] [])) as S2
    by (eapply session_calls; [|exact S1|exact (proj1 ex_frozen)|exact (proj1 (proj2 ex_frozen))]; reflexivity).
  pose proof (session_event _ _ _ S2 (ev_prepare cfg64 [(ex_ops, ex_ig)] [] [] [] ex_ops ex_ig ex_fg (or_introl eq_refl) ex_prepared)) as S3.
  pose proof (session_event _ _ _ S3 (ev_create_calculator cfg64 [(ex_ops, ex_ig)] [(ex_ops, ex_fg)] [] [] ex_ops ex_fg (or_introl eq_refl))) as S4.
  assert (exists pc', session cfg64 (World [(ex_ops, ex_ig)] [(ex_ops, ex_fg)] [pc'] [])) as (pc' & S5).
  { eexists. eapply session_event; [exact S4|].
    eapply (ev_query cfg64 _ _ [] (create_calculator cfg64 ex_fg) [] [] ex_ops ex_fg list_heap (fun _ => True) [(0, 0)] [(4, 0)]);
      [left; reflexivity|exact list_heap_laws|vm_compute; reflexivity]. }
  assert (session cfg64 (World [(ex_ops, ex_ig)] [(ex_ops, ex_fg)] [pc'] [(Half, ex_ops, half_bytes)])) as S6.
  { eapply session_event; [exact S5|].
    apply (ev_save cfg64 _ _ _ [] [] [] Half ex_ops ex_fg half_bytes []); [left; reflexivity| |simpl; lia].
    split; [reflexivity|]. rewrite app_nil_r. split; [|vm_compute; reflexivity].
    split; [reflexivity|]. split; [reflexivity|]. split; [reflexivity|].
    intros e He. vm_compute in He. repeat (destruct He as [<-|He]; [reflexivity|]). destruct He. }
  assert (session cfg64 (World [(ex_ops, ex_ig)] [(ex_ops, ex_fg)] [pc']
    [(Full, ex_ops, save_to_disk ex_fg); (Half, ex_ops, half_bytes)])) as S7.
  { eapply session_event; [exact S6|].
    apply (ev_save cfg64 _ _ _ [] [] [(Half, ex_ops, half_bytes)] Full ex_ops ex_fg (save_to_disk ex_fg) []);
      [left; reflexivity|symmetry; apply app_nil_r|simpl; lia]. }
  assert (session cfg64 (World [(ex_ops ++ more_ops, more_ig)] [(ex_ops, ex_fg)] [pc']
    [(Full, ex_ops, save_to_disk ex_fg); (Half, ex_ops, half_bytes)])) as S8.
  { eapply session_calls; [reflexivity|exact S7| |vm_compute; reflexivity].
    intros o Ho. repeat (destruct Ho as [<-|Ho]; [cbn; repeat split; discriminate|]). destruct Ho. }
  assert (prepared cfg64 more_ig more_fg) as HP.
  { left. exists params_default, list_heap, (fun _ => True), list_pq, (fun _ => True).
    split; [exact list_heap_laws|]. split; [exact list_pq_laws|]. vm_compute. reflexivity. }
  pose proof (session_event _ _ _ S8 (ev_prepare cfg64 [(ex_ops ++ more_ops, more_ig)] _ _ _ (ex_ops ++ more_ops) more_ig more_fg (or_introl eq_refl) HP)) as S9.
  pose proof (session_event _ _ _ S9 (ev_save cfg64 _ [(ex_ops ++ more_ops, more_fg); (ex_ops, ex_fg)] _ [] [(Full, ex_ops, save_to_disk ex_fg)] [(Half, ex_ops, half_bytes)]
    Full (ex_ops ++ more_ops) more_fg (firstn 100 (save_to_disk more_fg)) (skipn 100 (save_to_disk more_fg))
    (or_introl eq_refl) (eq_sym (firstn_skipn _ _)) (le_n 1))) as S10.
  pose proof (session_event _ _ _ S10 (ev_crash cfg64 _ _ _ _)) as S11.
  pose proof (session_event _ _ _ S11 (ev_load cfg64 [] [] [] (w_files session_end) Half ex_ops half_bytes ex_fg (or_intror (or_introl eq_refl)) HL)) as S12.
  exact (session_event _ _ _ S12 (ev_create_calculator cfg64 [] [(ex_ops, ex_fg)] [] (w_files session_end) ex_ops ex_fg (or_introl eq_refl))).
Qed.
