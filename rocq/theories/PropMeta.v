(** * PropMeta: C51-C55, how answers change with the end points and with the graph *)
From Verif Require Export MetaProps Examples.
Open Scope N_scope.

(** C51: a query with several sources and targets is the minimum of the single queries. *)
Theorem C51_at_most_every_single_query : forall c ops ig fg fg' sources targets r s a t b p,
  debug_build c = true -> frozen_graph c ops ig -> prepared c ig fg -> prepared c ig fg' ->
  answer_multi c fg sources targets r ->
  In (s, a) sources -> In (t, b) targets -> answer c fg' s t (Some p) ->
  a + sp_get_weight p + b < WEIGHT_MAX c ->
  exists q, r = Some q /\ sp_get_weight q <= a + sp_get_weight p + b.
Proof. exact C51_upper_proof. Qed.
Print Assumptions C51_at_most_every_single_query.

Theorem C51_attained_by_a_single_query : forall c ops ig fg fg' sources targets q r,
  debug_build c = true -> frozen_graph c ops ig -> prepared c ig fg -> prepared c ig fg' ->
  answer_multi c fg sources targets (Some q) -> answer c fg' (sp_get_source q) (sp_get_target q) r ->
  exists a b p, In (sp_get_source q, a) sources /\ In (sp_get_target q, b) targets /\
    r = Some p /\ sp_get_weight q = a + sp_get_weight p + b.
Proof. exact C51_attained_proof. Qed.
Print Assumptions C51_attained_by_a_single_query.

(** More sources or targets do not make it heavier; order and repetitions do not matter. *)
Theorem C51_more_endpoints : forall c ops ig fg fg' sources targets sources' targets' p r,
  debug_build c = true -> frozen_graph c ops ig -> prepared c ig fg -> prepared c ig fg' ->
  (forall x, In x sources -> In x sources') -> (forall x, In x targets -> In x targets') ->
  answer_multi c fg sources targets (Some p) -> answer_multi c fg' sources' targets' r ->
  exists q, r = Some q /\ sp_get_weight q <= sp_get_weight p.
Proof. exact C51_more_proof. Qed.
Print Assumptions C51_more_endpoints.

Theorem C51_lists_are_sets : forall c ops ig fg fg' sources targets sources' targets' r r',
  debug_build c = true -> frozen_graph c ops ig -> prepared c ig fg -> prepared c ig fg' ->
  (forall x, In x sources <-> In x sources') -> (forall x, In x targets <-> In x targets') ->
  answer_multi c fg sources targets r -> answer_multi c fg' sources' targets' r' ->
  option_map sp_get_weight r = option_map sp_get_weight r'.
Proof. exact C51_sets_proof. Qed.
Print Assumptions C51_lists_are_sets.
Example C51_case :
  answer_multi cfg64 ex_fg ex_sources ex_targets (Some ex_path_multi) /\ In (0, 3) ex_sources /\ In (4, 2) ex_targets /\
  answer cfg64 ex_fg 0 4 (Some ex_path) /\ 3 + sp_get_weight ex_path + 2 < WEIGHT_MAX cfg64 /\
  answer cfg64 ex_fg (sp_get_source ex_path_multi) (sp_get_target ex_path_multi) (Some (mkSP 5 4 8 [5; 3; 4])) /\
  answer_multi cfg64 ex_fg (rev ex_sources ++ ex_sources) ex_targets (Some ex_path_multi).
Proof.
  split; [exact ex_answer_multi|]. split; [simpl; auto|]. split; [simpl; auto|]. split; [exact ex_answer|].
  split; [vm_compute; reflexivity|].
  split; (exists list_heap, (fun _ => True); split; [exact list_heap_laws|]; left; vm_compute; reflexivity).
Qed.

(** What is the same history of calls for a changed edge. *)
Definition map_edges (h : N -> N -> N -> ig_op) (ops : list ig_op) : list ig_op :=
  flat_map (fun o => match o with
    | OpAddEdge f t w => [h f t w]
    | OpAddEdgeBidir f t w => [h f t w; h t f w]
    | o => [o] end) ops.
Ltac decide_edges := intros ? ? ?; vm_compute; intuition congruence.

(** C52: reversing all edges reverses all answers. *)
Theorem C52_reversal : forall c ops ig fg ops' ig' fg' sources targets r r',
  debug_build c = true -> frozen_graph c ops ig -> prepared c ig fg ->
  frozen_graph c ops' ig' -> prepared c ig' fg' ->
  (forall u v w, In (mkEdge u v w) (accepted ops) <-> In (mkEdge v u w) (accepted ops')) ->
  answer_multi c fg sources targets r -> answer_multi c fg' targets sources r' ->
  option_map sp_get_weight r = option_map sp_get_weight r'.
Proof. exact C52_proof. Qed.
Print Assumptions C52_reversal.
Definition rev_ops : list ig_op := Eval vm_compute in map_edges (fun f t w => OpAddEdge t f w) ex_ops.
Definition rev_ig : InputGraph := Eval vm_compute in get_ok (ig_run cfg64 ig_new rev_ops) ig_new.
Definition rev_fg : FastGraph := Eval vm_compute in get_ok (prepare cfg64 list_heap list_pq rev_ig) fg_dummy.
Ltac frozen := split; [intros o Ho; repeat (destruct Ho as [<-|Ho]; [cbn; repeat split; discriminate|]); destruct Ho|split; vm_compute; reflexivity].
Ltac prepared_ := left; exists params_default, list_heap, (fun _ => True), list_pq, (fun _ => True);
    split; [exact list_heap_laws|]; split; [exact list_pq_laws|]; vm_compute; reflexivity.
Ltac answered := exists list_heap, (fun _ => True); split; [exact list_heap_laws|]; left; vm_compute; reflexivity.
Example C52_case : frozen_graph cfg64 rev_ops rev_ig /\ prepared cfg64 rev_ig rev_fg /\
  (forall u v w, In (mkEdge u v w) (accepted ex_ops) <-> In (mkEdge v u w) (accepted rev_ops)) /\
  answer_multi cfg64 rev_fg ex_targets ex_sources (Some (mkSP 4 5 11 [4; 3; 5])).
Proof. split; [frozen|]. split; [prepared_|]. split; [decide_edges|answered]. Qed.

(** C53: multiplying all weights by k multiplies all answers by k, as long as they are below WEIGHT_MAX. *)
Theorem C53_scaling : forall c ops ig fg ops' ig' fg' k s t r r',
  debug_build c = true -> frozen_graph c ops ig -> prepared c ig fg ->
  frozen_graph c ops' ig' -> prepared c ig' fg' -> 1 <= k ->
  (forall u v w, In (mkEdge u v w) (accepted ops) -> In (mkEdge u v (k * w)) (accepted ops')) ->
  (forall u v w, In (mkEdge u v w) (accepted ops') -> exists w0, w = k * w0 /\ In (mkEdge u v w0) (accepted ops)) ->
  answer c fg s t r -> answer c fg' s t r' ->
  (forall p, r = Some p -> k * sp_get_weight p < WEIGHT_MAX c ->
     exists q, r' = Some q /\ sp_get_weight q = k * sp_get_weight p) /\
  (forall q, r' = Some q -> exists p, r = Some p /\ sp_get_weight q = k * sp_get_weight p).
Proof. exact C53_proof. Qed.
Print Assumptions C53_scaling.
Definition big_ops : list ig_op := Eval vm_compute in map_edges (fun f t w => OpAddEdge f t (1000 * w)) ex_ops.
Definition big_ig : InputGraph := Eval vm_compute in get_ok (ig_run cfg64 ig_new big_ops) ig_new.
Definition big_fg : FastGraph := Eval vm_compute in get_ok (prepare cfg64 list_heap list_pq big_ig) fg_dummy.
Example C53_case : frozen_graph cfg64 big_ops big_ig /\ prepared cfg64 big_ig big_fg /\
  (forall u v w, In (mkEdge u v w) (accepted ex_ops) -> In (mkEdge u v (1000 * w)) (accepted big_ops)) /\
  (forall u v w, In (mkEdge u v w) (accepted big_ops) -> exists w0, w = 1000 * w0 /\ In (mkEdge u v w0) (accepted ex_ops)) /\
  answer cfg64 big_fg 0 4 (Some (mkSP 0 4 13000 [0; 2; 3; 4])).
Proof.
  split; [frozen|]. split; [prepared_|]. split; [|split; [|answered]].
  - intros u v w H. vm_compute in H. repeat (destruct H as [H|H]; [injection H as <- <- <-; vm_compute; tauto|]). destruct H.
  - intros u v w H. exists (w / 1000). vm_compute in H.
    repeat (destruct H as [H|H]; [injection H as <- <- <-; split; vm_compute; tauto|]). destruct H.
Qed.

(** C54: the answers do not depend on how the nodes are numbered. *)
Theorem C54_renaming : forall c ops ig fg ops' ig' fg' (f : N -> N) sources targets r r',
  debug_build c = true -> frozen_graph c ops ig -> prepared c ig fg ->
  frozen_graph c ops' ig' -> prepared c ig' fg' ->
  (forall u v, u < ig_num_nodes ig -> v < ig_num_nodes ig -> f u = f v -> u = v) ->
  (forall u v w, In (mkEdge u v w) (accepted ops) -> In (mkEdge (f u) (f v) w) (accepted ops')) ->
  (forall u' v' w, In (mkEdge u' v' w) (accepted ops') ->
     exists u v, u' = f u /\ v' = f v /\ In (mkEdge u v w) (accepted ops)) ->
  answer_multi c fg sources targets r ->
  answer_multi c fg' (map (fun '(v, w) => (f v, w)) sources) (map (fun '(v, w) => (f v, w)) targets) r' ->
  option_map sp_get_weight r = option_map sp_get_weight r'.
Proof. exact C54_proof. Qed.
Print Assumptions C54_renaming.
Definition odd (x : N) : N := 2 * (5 - x) + 1.
Definition odd_ops : list ig_op := Eval vm_compute in map_edges (fun f t w => OpAddEdge (odd f) (odd t) w) ex_ops.
Definition odd_ig : InputGraph := Eval vm_compute in get_ok (ig_run cfg64 ig_new odd_ops) ig_new.
Definition odd_fg : FastGraph := Eval vm_compute in get_ok (prepare cfg64 list_heap list_pq odd_ig) fg_dummy.
Example C54_case : frozen_graph cfg64 odd_ops odd_ig /\ prepared cfg64 odd_ig odd_fg /\
  (forall u v, u < ig_num_nodes ex_ig -> v < ig_num_nodes ex_ig -> odd u = odd v -> u = v) /\
  (forall u v w, In (mkEdge u v w) (accepted ex_ops) -> In (mkEdge (odd u) (odd v) w) (accepted odd_ops)) /\
  (forall u' v' w, In (mkEdge u' v' w) (accepted odd_ops) ->
     exists u v, u' = odd u /\ v' = odd v /\ In (mkEdge u v w) (accepted ex_ops)) /\
  answer_multi cfg64 odd_fg (map (fun '(v, w) => (odd v, w)) ex_sources) (map (fun '(v, w) => (odd v, w)) ex_targets)
    (Some (mkSP 1 3 11 [1; 5; 3])).
Proof.
  split; [frozen|]. split; [prepared_|]. split; [|split; [|split; [|answered]]].
  - change (ig_num_nodes ex_ig) with 6. intros u v Hu Hv. unfold odd. lia.
  - intros u v w H. vm_compute in H. repeat (destruct H as [H|H]; [injection H as <- <- <-; vm_compute; tauto|]). destruct H.
  - intros u v w H. exists (5 - u / 2), (5 - v / 2). vm_compute in H.
    repeat (destruct H as [H|H]; [injection H as <- <- <-; repeat split; vm_compute; tauto|]). destruct H.
Qed.

(** C55: whatever the number of edges added, a prepared graph holds at most one edge for every pair of
    nodes in either direction. *)
Theorem C55_number_of_edges : forall c ops ig fg,
  1 <= umax c -> frozen_graph c ops ig -> prepared c ig fg ->
  2 * fg_get_num_out_edges fg <= ig_num_nodes ig * (ig_num_nodes ig - 1) /\
  2 * fg_get_num_in_edges fg <= ig_num_nodes ig * (ig_num_nodes ig - 1).
Proof. exact C55_proof. Qed.
Print Assumptions C55_number_of_edges.
(** The bound is reached. *)
Definition full_ops : list ig_op :=
  [OpAddEdgeBidir 0 1 1; OpAddEdgeBidir 1 2 1; OpAddEdgeBidir 0 2 1; OpAddEdgeBidir 0 2 1; OpFreeze].
Definition full_ig : InputGraph := Eval vm_compute in get_ok (ig_run cfg64 ig_new full_ops) ig_new.
Definition full_fg : FastGraph := Eval vm_compute in get_ok (prepare cfg64 list_heap list_pq full_ig) fg_dummy.
Example C55_case : frozen_graph cfg64 full_ops full_ig /\ prepared cfg64 full_ig full_fg /\
  ig_num_nodes full_ig = 3 /\ fg_get_num_out_edges full_fg = 3 /\ fg_get_num_in_edges full_fg = 3.
Proof. split; [frozen|]. split; [prepared_|]. repeat split. Qed.
