(** * PropPipeline: C66 unique shortest paths, C67 a graph on its way through files *)
From Verif Require Export PipelineProps Examples PropFile.
Open Scope N_scope.

(** C66: if there is just one lightest path, then that path is the answer, whatever the ordering,
    the parameters, the heap and the calculator are. *)
Theorem C66_unique_path_is_returned : forall c ops ig fg s t ns W r,
  debug_build c = true -> frozen_graph c ops ig -> prepared c ig fg ->
  walk (accepted ops) s t ns W -> W < WEIGHT_MAX c ->
  (forall ns' W', walk (accepted ops) s t ns' W' -> W < W' \/ (W' = W /\ ns' = ns)) ->
  answer c fg s t r -> r = Some (mkSP s t W ns).
Proof. exact C66_proof. Qed.
Print Assumptions C66_unique_path_is_returned.

Theorem C66_unique_total_is_returned : forall c ops ig fg sources targets s t ns W r,
  debug_build c = true -> frozen_graph c ops ig -> prepared c ig fg ->
  total (accepted ops) sources targets s t ns W -> W < WEIGHT_MAX c ->
  (forall s' t' ns' W', total (accepted ops) sources targets s' t' ns' W' -> W < W' \/ (W' = W /\ ns' = ns)) ->
  answer_multi c fg sources targets r -> r = Some (mkSP s t W ns).
Proof. exact C66_multi_proof. Qed.
Print Assumptions C66_unique_total_is_returned.

(** Two ways from 0 to 3, of weights 9 and 10; the arc from 0 to 1 is given twice. *)
Definition un_ops : list ig_op :=
  [OpAddEdge 0 1 5; OpAddEdge 1 2 3; OpAddEdge 0 2 9; OpAddEdge 0 1 6; OpAddEdge 2 3 1; OpFreeze].
Definition un_ig : InputGraph := Eval vm_compute in get_ok (ig_run cfg64 ig_new un_ops) ig_new.
Definition un_fg : FastGraph := Eval vm_compute in get_ok (prepare cfg64 list_heap list_pq un_ig) fg_dummy.
Example un_frozen : frozen_graph cfg64 un_ops un_ig.
Proof.
  split; [|split; vm_compute; reflexivity].
  intros o Ho. repeat (destruct Ho as [<-|Ho]; [cbn; repeat split; discriminate|]). destruct Ho.
Qed.
Example un_prepared : prepared cfg64 un_ig un_fg.
Proof.
  left. exists params_default, list_heap, (fun _ => True), list_pq, (fun _ => True).
  split; [exact list_heap_laws|]. split; [exact list_pq_laws|]. vm_compute. reflexivity.
Qed.
(** what the walks to node 3 look like *)
Lemma un_walks u t ns W : walk (accepted un_ops) u t ns W -> t = 3 ->
  (u = 3 -> W = 0 /\ ns = [3]) /\ (u = 2 -> W = 1 /\ ns = [2; 3]) /\ (u = 1 -> W = 4 /\ ns = [1; 2; 3]) /\
  (u = 0 -> 9 < W \/ (W = 9 /\ ns = [0; 1; 2; 3])).
Proof.
  induction 1 as [u|u v t w ns W Hin HW IH]; intros ->.
  - refine (conj _ (conj _ (conj _ _))); intros; try lia; auto.
  - destruct (IH eq_refl) as (H3 & H2 & H1 & H0). clear IH HW. cbn in Hin.
    repeat (destruct Hin as [Hin|Hin]; [injection Hin as <- <- <-|]); try destruct Hin;
      refine (conj _ (conj _ (conj _ _))); intros Hu; try lia; clear Hu.
    all: first [destruct (H1 eq_refl) as [-> ->] | destruct (H2 eq_refl) as [-> ->] | destruct (H3 eq_refl) as [-> ->]];
      first [split; [lia|reflexivity] | left; lia | right; split; [lia|reflexivity]].
Qed.
Example C66_case :
  walk (accepted un_ops) 0 3 [0; 1; 2; 3] 9 /\
  (forall ns' W', walk (accepted un_ops) 0 3 ns' W' -> 9 < W' \/ (W' = 9 /\ ns' = [0; 1; 2; 3])) /\
  (exists ns' W', walk (accepted un_ops) 0 3 ns' W' /\ ns' <> [0; 1; 2; 3]) /\
  calc_path cfg64 list_heap un_fg 0 3 = Ok (Some (mkSP 0 3 9 [0; 1; 2; 3])).
Proof.
  split; [|split; [|split]].
  - change 9 with (5 + (3 + (1 + 0))).
    do 3 (eapply walk_cons; [vm_compute; tauto|]). apply walk_nil.
  - intros ns' W' H. destruct (un_walks _ _ _ _ H eq_refl) as (_ & _ & _ & H0). exact (H0 eq_refl).
  - exists [0; 2; 3], (9 + (1 + 0)). split; [|discriminate].
    do 2 (eapply walk_cons; [vm_compute; tauto|]). apply walk_nil.
  - vm_compute. reflexivity.
Qed.

(** C67: a graph is written to a text file and read back, prepared, saved and loaded; the answers of
    what was loaded are the shortest paths of the edges that were added in the first place. *)
Theorem C67_answers_after_files : forall c ops ig dv old b ig' fg fg' sources targets r,
  platform c -> debug_build c = true -> frozen_graph c ops ig -> reliable dv ->
  (to_file dv old ig = (Some b, Ok IoOk) /\ from_file c (contents b) = Ok ig' \/
   to_dimacs_file c dv old ig = (Some b, Ok IoOk) /\ from_dimacs_file c (contents b) = Ok ig') ->
  prepared c ig' fg -> load_from_disk c (save_to_disk fg) = inr fg' ->
  answer_multi c fg' sources targets r ->
  match r with
  | Some p =>
      total (accepted ops) sources targets (sp_get_source p) (sp_get_target p) (sp_get_nodes p) (sp_get_weight p) /\
      (forall s t ns W, total (accepted ops) sources targets s t ns W -> sp_get_weight p <= W)
  | None => forall s t ns W, total (accepted ops) sources targets s t ns W -> WEIGHT_MAX c <= W
  end.
Proof. exact C67_proof. Qed.
Print Assumptions C67_answers_after_files.

(** No step of this can fail, if the preparation does not. *)
Theorem C67_files_work : forall c ops ig dv old fg,
  platform c -> 1 <= umax c -> frozen_graph c ops ig -> reliable dv -> prepared c ig fg ->
  (exists b, to_file dv old ig = (Some b, Ok IoOk) /\ from_file c (contents b) = Ok ig) /\
  (exists b, to_dimacs_file c dv old ig = (Some b, Ok IoOk) /\ from_dimacs_file c (contents b) = Ok ig) /\
  load_from_disk c (save_to_disk fg) = inr fg.
Proof. exact C67_runs_proof. Qed.
Print Assumptions C67_files_work.

Definition pipeline_text : list N := Eval vm_compute in
  match fst (to_dimacs_file cfg64 slow_device None ex_ig) with Some b => b | None => [] end.
Example C67_case :
  to_dimacs_file cfg64 slow_device None ex_ig = (Some pipeline_text, Ok IoOk) /\
  from_dimacs_file cfg64 (contents pipeline_text) = Ok ex_ig /\
  load_from_disk cfg64 (save_to_disk ex_fg) = inr ex_fg /\
  answer_multi cfg64 ex_fg ex_sources ex_targets (Some ex_path_multi) /\
  forall s t ns W, total (accepted ex_ops) ex_sources ex_targets s t ns W -> 11 <= W.
Proof.
  assert (HT : to_dimacs_file cfg64 slow_device None ex_ig = (Some pipeline_text, Ok IoOk)) by (vm_compute; reflexivity).
  assert (HF : from_dimacs_file cfg64 (contents pipeline_text) = Ok ex_ig) by (vm_compute; reflexivity).
  assert (HL : load_from_disk cfg64 (save_to_disk ex_fg) = inr ex_fg) by (vm_compute; reflexivity).
  split; [exact HT|]. split; [exact HF|]. split; [exact HL|]. split; [exact ex_answer_multi|].
  exact (proj2 (C67_answers_after_files cfg64 ex_ops ex_ig slow_device None pipeline_text ex_ig ex_fg ex_fg
    ex_sources ex_targets _ eq_refl eq_refl ex_frozen slow_reliable (or_intror (conj HT HF)) ex_prepared HL ex_answer_multi)).
Qed.
