(** * PropSens: C70, how answers depend on single edges and weights *)
From Verif Require Export SensProps Examples.
Open Scope N_scope.

(** C70: a best path stays best if other edges are removed or get heavier. *)
Theorem C70_best_path_stays_best : forall c ops ig fg ops' ig' fg' sources targets p r,
  debug_build c = true -> frozen_graph c ops ig -> prepared c ig fg -> frozen_graph c ops' ig' -> prepared c ig' fg' ->
  (forall u v w', In (mkEdge u v w') (accepted ops') -> exists w, In (mkEdge u v w) (accepted ops) /\ w <= w') ->
  answer_multi c fg sources targets (Some p) ->
  total (accepted ops') sources targets (sp_get_source p) (sp_get_target p) (sp_get_nodes p) (sp_get_weight p) ->
  answer_multi c fg' sources targets r ->
  exists q, r = Some q /\ sp_get_weight q = sp_get_weight p.
Proof. exact C70_stays_proof. Qed.
Print Assumptions C70_best_path_stays_best.

(** C70: edges that no walk from the source to the target uses have no influence. *)
Theorem C70_only_edges_on_routes_count : forall c ops ig fg ops' ig' fg' s t r r',
  debug_build c = true -> frozen_graph c ops ig -> prepared c ig fg -> frozen_graph c ops' ig' -> prepared c ig' fg' ->
  (forall e, on_route (accepted ops) s t e <-> on_route (accepted ops') s t e) ->
  answer c fg s t r -> answer c fg' s t r' ->
  option_map sp_get_weight r = option_map sp_get_weight r'.
Proof. exact C70_route_proof. Qed.
Print Assumptions C70_only_edges_on_routes_count.

(** C70: if every edge becomes heavier by at most [d], an answer becomes heavier by at most [d] for every edge of it. *)
Theorem C70_small_changes : forall c ops ig fg ops' ig' fg' sources targets d p r,
  debug_build c = true -> frozen_graph c ops ig -> prepared c ig fg -> frozen_graph c ops' ig' -> prepared c ig' fg' ->
  (forall u v w, In (mkEdge u v w) (accepted ops) -> exists w', In (mkEdge u v w') (accepted ops') /\ w' <= w + d) ->
  answer_multi c fg sources targets (Some p) -> answer_multi c fg' sources targets r ->
  sp_get_weight p + (lenN (sp_get_nodes p) - 1) * d < WEIGHT_MAX c ->
  exists q, r = Some q /\ sp_get_weight q <= sp_get_weight p + (lenN (sp_get_nodes p) - 1) * d.
Proof. exact C70_small_proof. Qed.
Print Assumptions C70_small_changes.

(** C70: if only edges from [x] to [y] become heavier, by at most [d], no answer becomes heavier by more than [d]. *)
Theorem C70_change_of_one_edge : forall c ops ig fg ops' ig' fg' s t x y d p r,
  debug_build c = true -> frozen_graph c ops ig -> prepared c ig fg -> frozen_graph c ops' ig' -> prepared c ig' fg' ->
  (forall u v w, In (mkEdge u v w) (accepted ops) ->
     exists w', In (mkEdge u v w') (accepted ops') /\ (w' <= w \/ u = x /\ v = y /\ w' <= w + d)) ->
  answer c fg s t (Some p) -> answer c fg' s t r ->
  sp_get_weight p + d < WEIGHT_MAX c ->
  exists q, r = Some q /\ sp_get_weight q <= sp_get_weight p + d.
Proof. exact C70_one_edge_proof. Qed.
Print Assumptions C70_change_of_one_edge.

Ltac frozen := split; [intros o Ho; repeat (destruct Ho as [<-|Ho]; [cbn; repeat split; discriminate|]); destruct Ho|split; vm_compute; reflexivity].
Ltac prepared_ := left; exists params_default, list_heap, (fun _ => True), list_pq, (fun _ => True);
    split; [exact list_heap_laws|]; split; [exact list_pq_laws|]; vm_compute; reflexivity.
Ltac answered := exists list_heap, (fun _ => True); split; [exact list_heap_laws|]; left; vm_compute; reflexivity.

Ltac weight := split; [vm_compute; tauto|first [vm_compute; discriminate|left; vm_compute; discriminate|
  right; repeat split; vm_compute; discriminate]].

(** The example graph with a jam from 0 to 1 and without the edge from 5 to 3. *)
Definition jam_ops : list ig_op :=
  [OpAddEdge 0 1 50; OpAddEdge 0 2 7; OpAddEdge 1 2 3; OpAddEdgeBidir 2 3 4; OpAddEdge 3 4 2; OpAddEdge 4 1 1; OpFreeze].
Definition jam_ig : InputGraph := Eval vm_compute in get_ok (ig_run cfg64 ig_new jam_ops) ig_new.
Definition jam_fg : FastGraph := Eval vm_compute in get_ok (prepare cfg64 list_heap list_pq jam_ig) fg_dummy.
Example C70_case : frozen_graph cfg64 jam_ops jam_ig /\ prepared cfg64 jam_ig jam_fg /\
  (forall u v w', In (mkEdge u v w') (accepted jam_ops) -> exists w, In (mkEdge u v w) (accepted ex_ops) /\ w <= w') /\
  total (accepted jam_ops) [(0, 0)] [(4, 0)] 0 4 (sp_get_nodes ex_path) (sp_get_weight ex_path) /\
  answer cfg64 jam_fg 0 4 (Some ex_path).
Proof.
  split; [frozen|]. split; [prepared_|]. split; [|split; [|answered]].
  - intros u v w H. vm_compute in H.
    repeat (destruct H as [H|H]; [injection H as <- <- <-;
      first [exists 1; weight|exists 2; weight|exists 3; weight|exists 4; weight|exists 5; weight|exists 7; weight]|]).
    destruct H.
  - exists 0, 0, 13. split; [left; reflexivity|]. split; [left; reflexivity|]. split; [|reflexivity].
    apply (walk_cons _ 0 2 4 7 [2; 3; 4] 6); [vm_compute; auto|]. apply (walk_cons _ 2 3 4 4 [3; 4] 2); [vm_compute; auto 8|].
    apply (walk_cons _ 3 4 4 2 [4] 0); [vm_compute; auto 8|]. constructor.
Qed.

(** Without the jam: the removed edge is on no route from 0 to 4, for nothing leads to 5. *)
Definition less_ops : list ig_op :=
  [OpAddEdge 0 1 5; OpAddEdge 0 2 9; OpAddEdge 0 2 7; OpAddEdge 1 2 3; OpAddEdgeBidir 2 3 4; OpAddEdge 3 4 2; OpAddEdge 4 1 1; OpFreeze].
Definition less_ig : InputGraph := Eval vm_compute in get_ok (ig_run cfg64 ig_new less_ops) ig_new.
Definition less_fg : FastGraph := Eval vm_compute in get_ok (prepare cfg64 list_heap list_pq less_ig) fg_dummy.
Example C70_case_route : frozen_graph cfg64 less_ops less_ig /\ prepared cfg64 less_ig less_fg /\
  In (mkEdge 5 3 6) (accepted ex_ops) /\ ~ In (mkEdge 5 3 6) (accepted less_ops) /\
  (forall e, on_route (accepted ex_ops) 0 4 e <-> on_route (accepted less_ops) 0 4 e) /\
  answer cfg64 less_fg 0 4 (Some ex_path).
Proof.
  split; [frozen|]. split; [prepared_|]. split; [vm_compute; tauto|].
  split; [vm_compute; intros H; repeat (destruct H as [H|H]; [discriminate H|]); destruct H|]. split; [|answered].
  assert (forall e, In e (accepted less_ops) -> In e (accepted ex_ops)) as I1 by (intros e; vm_compute; tauto).
  assert (forall e, In e (accepted ex_ops) -> e_from e <> 5 -> In e (accepted less_ops) /\ e_to e <> 5) as I2.
  { intros e H Hne. vm_compute in H.
    repeat (destruct H as [<-|H]; [first [destruct Hne; reflexivity|split; [vm_compute; tauto|discriminate]]|]). destruct H. }
  assert (forall u v ns W, walk (accepted less_ops) u v ns W -> walk (accepted ex_ops) u v ns W) as W1.
  { induction 1; econstructor; eauto. }
  assert (forall u v ns W, walk (accepted ex_ops) u v ns W -> u <> 5 -> walk (accepted less_ops) u v ns W /\ v <> 5) as W2.
  { induction 1 as [u|u v t w ns W HI HW IH]; intros Hu; [split; [constructor|auto]|].
    destruct (I2 _ HI Hu) as [J1 J2]. destruct (IH J2) as [J3 J4]. split; auto. econstructor; eauto. }
  intros e. split; intros (H1 & (n1 & V1 & H2) & (n2 & V2 & H3)).
  - destruct (W2 _ _ _ _ H2 ltac:(discriminate)) as [J1 J2]. destruct (I2 e H1 J2) as [J3 J4].
    destruct (W2 _ _ _ _ H3 J4) as [J5 _]. split; auto. split; eauto.
  - split; auto. split; eauto.
Qed.

(** The edge from 2 to 3 becomes heavier by 5. *)
Definition slow_ops : list ig_op :=
  [OpAddEdge 0 1 5; OpAddEdge 0 2 9; OpAddEdge 0 2 7; OpAddEdge 1 2 3; OpAddEdge 2 3 9; OpAddEdge 3 2 4; OpAddEdge 3 4 2; OpAddEdge 4 1 1;
   OpAddEdge 5 3 6; OpFreeze].
Definition slow_ig : InputGraph := Eval vm_compute in get_ok (ig_run cfg64 ig_new slow_ops) ig_new.
Definition slow_fg : FastGraph := Eval vm_compute in get_ok (prepare cfg64 list_heap list_pq slow_ig) fg_dummy.
Example C70_case_one_edge : frozen_graph cfg64 slow_ops slow_ig /\ prepared cfg64 slow_ig slow_fg /\
  (forall u v w, In (mkEdge u v w) (accepted ex_ops) ->
     exists w', In (mkEdge u v w') (accepted slow_ops) /\ (w' <= w \/ u = 2 /\ v = 3 /\ w' <= w + 5)) /\
  answer cfg64 slow_fg 0 4 (Some (mkSP 0 4 18 [0; 2; 3; 4])) /\ 13 + 5 = 18.
Proof.
  split; [frozen|]. split; [prepared_|]. split; [|split; [answered|reflexivity]].
  intros u v w H. vm_compute in H.
  repeat (destruct H as [H|H]; [injection H as <- <- <-;
    first [exists 1; weight|exists 2; weight|exists 3; weight|exists 4; weight|exists 5; weight|exists 6; weight|exists 7; weight|
           exists 9; weight]|]).
  destruct H.
Qed.
