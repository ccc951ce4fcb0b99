(** * NoneFacts: answers with None replaced by ShortestPath::none *)
From Verif Require Export ReleaseProps.
Open Scope N_scope.

Lemma C33_none_proof : forall c ops ig fg s t r p,
  debug_build c = true -> frozen_graph c ops ig -> prepared c ig fg ->
  answer c fg s t r -> p = match r with Some q => q | None => sp_none c s t end ->
  sp_get_source p = s /\ sp_get_target p = t /\
  (sp_is_found c p = true <-> exists ns W, walk (accepted ops) s t ns W /\ W < WEIGHT_MAX c) /\
  (sp_is_found c p = true -> walk (accepted ops) s t (sp_get_nodes p) (sp_get_weight p)) /\
  (sp_is_found c p = false -> sp_get_nodes p = [] /\ sp_get_weight p = WEIGHT_MAX c) /\
  (forall ns W, walk (accepted ops) s t ns W -> W < WEIGHT_MAX c -> sp_get_weight p <= W).
Proof.
  intros c ops ig fg s t r p Hd Hf Hp Ha ->.
  unfold sp_get_source, sp_get_target, sp_get_nodes, sp_get_weight, sp_is_found, WEIGHT_MAX.
  destruct (answer_single c ops ig fg s t _ Hd Hf Hp Ha) as (_ & _ & HA). destruct r as [p|].
  - destruct HA as (<- & <- & HL & HW & HM). apply (frozen_walk c ops ig) in HW; auto.
    destruct (N.eqb_spec (sp_weight p) (umax c)) as [E|E]; [lia|]. cbn [negb].
    repeat split; try discriminate; eauto.
  - cbn [sp_none sp_source sp_target sp_nodes sp_weight]. unfold WEIGHT_MAX. rewrite N.eqb_refl. cbn [negb].
    repeat split; try discriminate; auto.
    + intros (ns & W & HW & HL). apply HA in HW. lia.
    + intros ns W HW HL. apply HA in HW. lia.
Qed.

Lemma C33_none_equal_proof : forall c ops ig fg fg' s t r r',
  debug_build c = true -> frozen_graph c ops ig -> prepared c ig fg -> prepared c ig fg' ->
  answer c fg s t r -> answer c fg' s t r' ->
  sp_eqb (match r with Some q => q | None => sp_none c s t end)
         (match r' with Some q => q | None => sp_none c s t end) = true.
Proof.
  intros c ops ig fg fg' s t r r' Hd Hf Hp Hp' Ha Ha'. apply sp_eqb_spec.
  destruct (answer_single c ops ig fg s t _ Hd Hf Hp Ha) as (_ & _ & HA).
  destruct (answer_single c ops ig fg' s t _ Hd Hf Hp' Ha') as (_ & _ & HB).
  destruct r as [p|], r' as [q|].
  - destruct HA as (A1 & A2 & _ & A3 & A4), HB as (B1 & B2 & _ & B3 & B4).
    apply (frozen_walk c ops ig) in A3, B3; auto. apply A4 in B3. apply B4 in A3.
    repeat split; try congruence. lia.
  - destruct HA as (A1 & A2 & AL & A3 & A4). apply (frozen_walk c ops ig) in A3; auto. apply HB in A3. lia.
  - destruct HB as (A1 & A2 & AL & A3 & A4). apply (frozen_walk c ops ig) in A3; auto. apply HA in A3. lia.
  - repeat split.
Qed.
