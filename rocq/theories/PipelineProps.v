(** * PipelineProps: proofs about unique shortest paths and about a graph on its way through files *)
From Verif Require Export FileTrunc SerialProps QueryProps.
Open Scope N_scope.

Lemma C66_proof : forall c ops ig fg s t ns W r,
  debug_build c = true -> frozen_graph c ops ig -> prepared c ig fg ->
  walk (accepted ops) s t ns W -> W < WEIGHT_MAX c ->
  (forall ns' W', walk (accepted ops) s t ns' W' -> W < W' \/ (W' = W /\ ns' = ns)) ->
  answer c fg s t r -> r = Some (mkSP s t W ns).
Proof.
  intros c ops ig fg s t ns W r Hd Hf Hp HW HL HU Ha.
  destruct (answer_single c ops ig fg s t r Hd Hf Hp Ha) as (_ & _ & HA).
  change (WEIGHT_MAX c) with (umax c) in HL.
  destruct r as [[s' t' w ns']|]; [|apply HA in HW; lia]. cbn in HA.
  destruct HA as (-> & -> & HL' & HW' & HM).
  apply HM in HW. apply (frozen_walk c ops ig _ _ _ _ Hf) in HW'.
  destruct (HU _ _ HW') as [H|[-> ->]]; [lia|reflexivity].
Qed.

Lemma C66_multi_proof : forall c ops ig fg sources targets s t ns W r,
  debug_build c = true -> frozen_graph c ops ig -> prepared c ig fg ->
  total (accepted ops) sources targets s t ns W -> W < WEIGHT_MAX c ->
  (forall s' t' ns' W', total (accepted ops) sources targets s' t' ns' W' -> W < W' \/ (W' = W /\ ns' = ns)) ->
  answer_multi c fg sources targets r -> r = Some (mkSP s t W ns).
Proof.
  intros c ops ig fg ss ts s t ns W r Hd Hf Hp HT HL HU Ha.
  pose proof (answer_multi_accepted c ops ig fg ss ts r Hd Hf Hp Ha) as HA.
  change (WEIGHT_MAX c) with (umax c) in HL.
  destruct r as [[s' t' w ns']|]; cbn in HA; [|apply HA in HT; lia].
  destruct HA as (HT' & HL' & HM).
  pose proof (HM _ _ _ _ HT) as HLe. destruct (HU _ _ _ _ HT') as [H|[-> ->]]; [lia|].
  destruct HT as (sw & tw & W0 & _ & _ & HWk & _). destruct HT' as (sw' & tw' & W0' & _ & _ & HWk' & _).
  destruct (walk_ends _ _ _ _ _ HWk) as (Hn & H1 & H2), (walk_ends _ _ _ _ _ HWk') as (_ & H3 & H4).
  rewrite H1 in H3. injection H3 as <-. rewrite H2 in H4. subst. reflexivity.
Qed.

Lemma C67_proof : forall c ops ig dv old b ig' fg fg' sources targets r,
  platform c -> debug_build c = true -> frozen_graph c ops ig -> reliable dv ->
  (to_file dv old ig = (Some b, Ok IoOk) /\ from_file c (contents b) = Ok ig' \/
   to_dimacs_file c dv old ig = (Some b, Ok IoOk) /\ from_dimacs_file c (contents b) = Ok ig') ->
  prepared c ig' fg -> load_from_disk c (save_to_disk fg) = inr fg' ->
  answer_multi c fg' sources targets r ->
  match r with
  | Some p =>
      total (accepted ops) sources targets (sp_get_source p) (sp_get_target p) (sp_get_nodes p) (sp_get_weight p) /\
      (forall s t ns W, total (accepted ops) sources targets s t ns W -> sp_get_weight p <= W)
  | None => forall s t ns W, total (accepted ops) sources targets s t ns W -> WEIGHT_MAX c <= W
  end.
Proof.
  intros c ops ig dv old b ig' fg fg' ss ts r Hpl Hd Hf Hr HF Hp Hl Ha.
  assert (ig' = ig) as ->.
  { destruct HF as [[H1 H2]|[H1 H2]].
    - destruct (C22_proof c ops ig dv old (or_introl Hd) Hf Hr) as (b' & H3 & _ & H4). congruence.
    - destruct (C23_proof c ops ig dv old (or_introl Hd) Hf Hr) as (b' & H3 & _ & H4). congruence. }
  rewrite (C44_prepared_proof c ops ig fg Hpl (checked_umax c ops ig fg Hd Hf Hp) Hf Hp) in Hl. injection Hl as <-.
  pose proof (answer_multi_accepted c ops ig fg ss ts r Hd Hf Hp Ha) as HA.
  destruct r as [p|]; cbn in HA |- *; tauto.
Qed.

Lemma prepared_ids c ops ig fg : frozen_graph c ops ig -> prepared c ig fg ->
  forall e, In e (accepted ops) -> e_from e < umax c /\ e_to e < umax c.
Proof.
  intros Hf Hp e He. pose proof (prepared_nodes c ops ig fg Hf Hp e He). pose proof Hf as (_ & Hrun & _).
  pose proof (run_nodes_bound c ops ig Hrun). lia.
Qed.

(** The pipeline does not fail by itself: files are written, read back, and the saved graph is loaded. *)
Lemma C67_runs_proof : forall c ops ig dv old fg,
  platform c -> 1 <= umax c -> frozen_graph c ops ig -> reliable dv -> prepared c ig fg ->
  (exists b, to_file dv old ig = (Some b, Ok IoOk) /\ from_file c (contents b) = Ok ig) /\
  (exists b, to_dimacs_file c dv old ig = (Some b, Ok IoOk) /\ from_dimacs_file c (contents b) = Ok ig) /\
  load_from_disk c (save_to_disk fg) = inr fg.
Proof.
  intros c ops ig dv old fg Hpl Hu Hf Hr Hp. pose proof (prepared_ids c ops ig fg Hf Hp) as Hids. split; [|split].
  - destruct (C22_proof c ops ig dv old (or_intror Hids) Hf Hr) as (b & H1 & _ & H2). eauto.
  - destruct (C23_proof c ops ig dv old (or_intror Hids) Hf Hr) as (b & H1 & _ & H2). eauto.
  - eapply C44_prepared_proof; eauto.
Qed.
