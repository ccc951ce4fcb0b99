(** * QueryProps: proofs of the properties of answers *)
From Verif Require Export AnswerFacts.
Open Scope N_scope.

Lemma walk_ends E s t ns W : walk E s t ns W -> ns <> [] /\ hd_error ns = Some s /\ last ns s = t.
Proof.
  induction 1 as [u|u v t w ns W Hin HW (H1 & H2 & H3)].
  - repeat split; auto. discriminate.
  - split; [discriminate|]. split; [reflexivity|]. simpl. destruct ns as [|x r]; [congruence|].
    simpl in H2. injection H2 as ->. destruct r as [|y r]; [simpl in *; auto|].
    rewrite <- H3. clear. revert y. induction r as [|z r IH]; intros y; simpl; auto. apply IH.
Qed.

Lemma C01_proof : forall c ops ig fg s t p,
  debug_build c = true -> frozen_graph c ops ig -> prepared c ig fg ->
  answer c fg s t (Some p) ->
  forall ns W, walk (accepted ops) s t ns W -> sp_weight p <= W.
Proof.
  intros c ops ig fg s t p Hd Hf Hp Ha.
  destruct (answer_single c ops ig fg s t _ Hd Hf Hp Ha) as (_ & _ & _ & _ & _ & _ & HM). exact HM.
Qed.

Lemma C02_proof : forall c ops ig fg s t r,
  debug_build c = true -> frozen_graph c ops ig -> prepared c ig fg ->
  answer c fg s t r ->
  (r = None <-> ~ exists ns W, walk (accepted ops) s t ns W /\ W < WEIGHT_MAX c).
Proof. exact answer_none_iff. Qed.

Lemma C03_proof : forall c ops ig fg s t p,
  debug_build c = true -> frozen_graph c ops ig -> prepared c ig fg ->
  answer c fg s t (Some p) ->
  sp_get_source p = s /\ sp_get_target p = t /\
  forall edges, ig_get_edges ig = Ok edges ->
    walk edges s t (sp_get_nodes p) (sp_get_weight p) /\
    sp_get_nodes p <> [] /\ hd_error (sp_get_nodes p) = Some s /\ last (sp_get_nodes p) s = t.
Proof.
  intros c ops ig fg s t p Hd Hf Hp Ha.
  destruct (answer_single c ops ig fg s t _ Hd Hf Hp Ha) as (_ & _ & H1 & H2 & _ & HW & _).
  split; auto. split; auto. intros edges HE.
  assert (edges = ig_edges ig) as ->.
  { destruct Hf as (_ & _ & Hfr). unfold ig_get_edges, ig_check_frozen in HE. rewrite Hfr in HE. simpl in HE. congruence. }
  split; [exact HW|]. eapply walk_ends; eauto.
Qed.

Lemma C04_proof : forall c ops ig fg sources targets r,
  debug_build c = true -> frozen_graph c ops ig -> prepared c ig fg ->
  answer_multi c fg sources targets r ->
  match r with
  | Some p =>
      sp_get_weight p < WEIGHT_MAX c /\
      (exists s t ns, total (accepted ops) sources targets s t ns (sp_get_weight p)) /\
      (forall s t ns W, total (accepted ops) sources targets s t ns W -> sp_get_weight p <= W)
  | None => forall s t ns W, total (accepted ops) sources targets s t ns W -> WEIGHT_MAX c <= W
  end.
Proof.
  intros c ops ig fg ss ts r Hd Hf Hp Ha.
  pose proof (answer_multi_accepted c ops ig fg ss ts r Hd Hf Hp Ha) as HA.
  destruct r as [p|]; [|exact HA]. destruct HA as (H1 & H2 & H3). split; [exact H2|]. split; [eauto|exact H3].
Qed.

Lemma C05_proof : forall c ops ig fg sources targets p,
  debug_build c = true -> frozen_graph c ops ig -> prepared c ig fg ->
  answer_multi c fg sources targets (Some p) ->
  exists sw tw W,
    In (sp_get_source p, sw) sources /\ In (sp_get_target p, tw) targets /\
    sw < WEIGHT_MAX c /\ tw < WEIGHT_MAX c /\
    walk (ig_edges ig) (sp_get_source p) (sp_get_target p) (sp_get_nodes p) W /\
    sp_get_weight p = sw + W + tw.
Proof.
  intros c ops ig fg ss ts p Hd Hf Hp Ha.
  destruct (answer_multi_ok c ops ig fg ss ts _ Hd Hf Hp Ha) as (_ & _ & _ & (sw & tw & W & H1 & H2 & H3 & H4) & H5 & _).
  exists sw, tw, W. unfold WEIGHT_MAX, sp_get_source, sp_get_target, sp_get_nodes, sp_get_weight.
  repeat split; auto; lia.
Qed.

Lemma C06_proof : forall c ops ig fg s r,
  debug_build c = true -> frozen_graph c ops ig -> prepared c ig fg ->
  answer c fg s s r -> r = Some (mkSP s s 0 [s]).
Proof.
  intros c ops ig fg s r Hd Hf Hp Ha.
  destruct (answer_single c ops ig fg s s _ Hd Hf Hp Ha) as (Hs & _ & HA).
  pose proof (walk_nil (accepted ops) s) as H0.
  pose proof (prepared_ok c ops ig fg Hd Hf Hp) as Hok.
  pose proof (ok_cap _ _ _ _ Hok) as Hcap.
  destruct r as [[a b w ns]|]; simpl in *.
  - destruct HA as (-> & -> & _ & HW & HM). pose proof (HM _ _ H0) as Hw. assert (w = 0) as -> by lia.
    pose proof HW as HW2. inversion HW; subst; auto.
    destruct Hf as (_ & Hr & _). destruct (run_inv c ops ig Hr) as [HI _].
    pose proof (accepted_pos ops _ (hg_sub _ _ _ HI _ H1)) as [HP _]. simpl in HP. lia.
  - apply HA in H0. pose proof (umax_pos c _ _ fg Hok). lia.
Qed.
