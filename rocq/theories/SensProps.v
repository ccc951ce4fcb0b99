(** * SensProps: how answers depend on single edges and weights (C70) *)
From Verif Require Export SpecSens MetaProps.
Open Scope N_scope.

Lemma C70_stays_proof : forall c ops ig fg ops' ig' fg' sources targets p r,
  debug_build c = true -> frozen_graph c ops ig -> prepared c ig fg -> frozen_graph c ops' ig' -> prepared c ig' fg' ->
  (forall u v w', In (mkEdge u v w') (accepted ops') -> exists w, In (mkEdge u v w) (accepted ops) /\ w <= w') ->
  answer_multi c fg sources targets (Some p) ->
  total (accepted ops') sources targets (sp_get_source p) (sp_get_target p) (sp_get_nodes p) (sp_get_weight p) ->
  answer_multi c fg' sources targets r ->
  exists q, r = Some q /\ sp_get_weight q = sp_get_weight p.
Proof.
  intros c ops ig fg ops' ig' fg' ss ts p r Hd Hf Hp Hf' Hp' HE Ha HT Ha'.
  pose proof (answer_multi_accepted c ops ig fg ss ts _ Hd Hf Hp Ha) as HA.
  pose proof (answer_multi_accepted c ops' ig' fg' ss ts r Hd Hf' Hp' Ha') as HB. simpl in HA.
  destruct HA as (_ & Hmax & HM). unfold sp_get_weight in *.
  destruct r as [q|]; simpl in HB.
  - exists q. split; auto. destruct HB as (HQ & _ & HM').
    apply N.le_antisymm; [eapply HM'; exact HT|].
    destruct HQ as (sw & tw & W & H1 & H2 & H3 & H4).
    assert (exists W', walk (accepted ops) (sp_source q) (sp_target q) (sp_nodes q) W' /\ W' <= W) as (W' & HW' & HLe).
    { apply (walk_dom (accepted ops')); auto.
      intros [u v w'] He. destruct (HE u v w' He) as (w & HI & Hw). eexists. split; [exact HI|]. simpl. auto. }
    assert (sp_weight p <= sw + W' + tw) by (eapply HM; exists sw, tw, W'; eauto). lia.
  - apply HB in HT. lia.
Qed.

Lemma route_walk E E' s t : (forall e, on_route E s t e -> on_route E' s t e) ->
  forall u ns W, walk E u t ns W -> (exists ns0 W0, walk E s u ns0 W0) -> walk E' u t ns W.
Proof.
  intros HR u ns W HW. remember t as t' in HW. induction HW as [u|u v t' w ns W HI HW IH]; intros (ns0 & W0 & H0).
  - subst. constructor.
  - subst t'. apply (walk_cons _ u v).
    + apply (HR (mkEdge u v w)). split; auto. split; simpl; eauto.
    + apply IH; auto. exists (ns0 ++ [v]), (W0 + w).
      pose proof (walk_app E s u v ns0 [u; v] W0 (w + 0) H0) as HA.
      rewrite N.add_0_r in HA. apply HA. rewrite <- (N.add_0_r w). eapply walk_cons; eauto. constructor.
Qed.

Lemma C70_route_proof : forall c ops ig fg ops' ig' fg' s t r r',
  debug_build c = true -> frozen_graph c ops ig -> prepared c ig fg -> frozen_graph c ops' ig' -> prepared c ig' fg' ->
  (forall e, on_route (accepted ops) s t e <-> on_route (accepted ops') s t e) ->
  answer c fg s t r -> answer c fg' s t r' ->
  option_map sp_get_weight r = option_map sp_get_weight r'.
Proof.
  intros c ops ig fg ops' ig' fg' s t r r' Hd Hf Hp Hf' Hp' HR Ha Ha'.
  assert (forall E E', (forall e, on_route E s t e -> on_route E' s t e) ->
    forall ns W, walk E s t ns W -> walk E' s t ns W) as G.
  { intros E E' H ns W HW. eapply route_walk; eauto. exists [s], 0. constructor. }
  pose proof (G _ _ (fun e => proj1 (HR e))) as G1. pose proof (G _ _ (fun e => proj2 (HR e))) as G2.
  destruct r as [p|], r' as [p'|]; simpl; auto.
  - f_equal.
    destruct (answer_is_dist c ops ig fg s t p Hd Hf Hp Ha) as [(n1 & W1) L1].
    destruct (answer_is_dist c ops' ig' fg' s t p' Hd Hf' Hp' Ha') as [(n2 & W2) L2].
    apply N.le_antisymm; eauto.
  - exfalso. pose proof (proj1 (C02_proof c ops' ig' fg' s t None Hd Hf' Hp' Ha') eq_refl) as HN. apply HN.
    destruct (answer_is_dist c ops ig fg s t p Hd Hf Hp Ha) as [(n1 & W1) L1].
    exists n1, (sp_get_weight p). split; auto.
    pose proof (answer_single c ops ig fg s t _ Hd Hf Hp Ha) as HS. simpl in HS. unfold sp_get_weight. tauto.
  - exfalso. pose proof (proj1 (C02_proof c ops ig fg s t None Hd Hf Hp Ha) eq_refl) as HN. apply HN.
    destruct (answer_is_dist c ops' ig' fg' s t p' Hd Hf' Hp' Ha') as [(n1 & W1) L1].
    exists n1, (sp_get_weight p'). split; auto.
    pose proof (answer_single c ops' ig' fg' s t _ Hd Hf' Hp' Ha') as HS. simpl in HS. unfold sp_get_weight. tauto.
Qed.

Lemma walk_shift E E' d u v ns W :
  (forall a b w, In (mkEdge a b w) E -> exists w', In (mkEdge a b w') E' /\ w' <= w + d) ->
  walk E u v ns W -> exists W', walk E' u v ns W' /\ W' <= W + (lenN ns - 1) * d.
Proof.
  intros HD. induction 1 as [u|u v t w ns W HI HW (W' & IH & HL)].
  - exists 0. split; [constructor|apply N.le_0_l].
  - destruct (HD _ _ _ HI) as (w' & HI' & Hw). exists (w' + W'). split; [econstructor; eauto|].
    destruct (walk_head _ _ _ _ _ HW) as (r & ->). rewrite !lenN_cons in *. nia.
Qed.

Lemma C70_small_proof : forall c ops ig fg ops' ig' fg' sources targets d p r,
  debug_build c = true -> frozen_graph c ops ig -> prepared c ig fg -> frozen_graph c ops' ig' -> prepared c ig' fg' ->
  (forall u v w, In (mkEdge u v w) (accepted ops) -> exists w', In (mkEdge u v w') (accepted ops') /\ w' <= w + d) ->
  answer_multi c fg sources targets (Some p) -> answer_multi c fg' sources targets r ->
  sp_get_weight p + (lenN (sp_get_nodes p) - 1) * d < WEIGHT_MAX c ->
  exists q, r = Some q /\ sp_get_weight q <= sp_get_weight p + (lenN (sp_get_nodes p) - 1) * d.
Proof.
  intros c ops ig fg ops' ig' fg' ss ts d p r Hd Hf Hp Hf' Hp' HE Ha Ha' HB.
  pose proof (answer_multi_accepted c ops ig fg ss ts _ Hd Hf Hp Ha) as HA.
  pose proof (answer_multi_accepted c ops' ig' fg' ss ts r Hd Hf' Hp' Ha') as HR. simpl in HA.
  destruct HA as ((sw & tw & W & H1 & H2 & H3 & H4) & _ & _).
  destruct (walk_shift _ _ d _ _ _ _ HE H3) as (W' & HW' & HL). unfold sp_get_weight, sp_get_nodes, WEIGHT_MAX in *.
  assert (total (accepted ops') ss ts (sp_source p) (sp_target p) (sp_nodes p) (sw + W' + tw)) as HT.
  { exists sw, tw, W'. auto. }
  destruct r as [q|]; simpl in HR.
  - exists q. split; auto. destruct HR as (_ & _ & HM). apply HM in HT. lia.
  - apply HR in HT. unfold WEIGHT_MAX in HT. lia.
Qed.

(** the walk uses edges from x to y at most once *)
Lemma walk_once E E' d x y u v ns W : NoDup ns ->
  (forall a b w, In (mkEdge a b w) E -> exists w', In (mkEdge a b w') E' /\ (w' <= w \/ a = x /\ b = y /\ w' <= w + d)) ->
  walk E u v ns W -> exists W', walk E' u v ns W' /\ W' <= W + d /\ (~ In x ns -> W' <= W).
Proof.
  intros HN HD HW. revert HN. induction HW as [u|u v t w ns W HI HW IH]; intros HN.
  - exists 0. split; [constructor|]. lia.
  - inversion HN as [|? ? HN1 HN2]. subst. destruct (IH HN2) as (W' & IHw & I1 & I2).
    destruct (HD _ _ _ HI) as (w' & HI' & [Hw|(-> & -> & Hw)]).
    + exists (w' + W'). split; [econstructor; eauto|]. split; [lia|]. intros Hx.
      assert (W' <= W) by (apply I2; intros Hy; apply Hx; right; auto). lia.
    + exists (w' + W'). split; [econstructor; eauto|]. assert (W' <= W) by auto. split; [lia|].
      intros Hx. destruct Hx. left; auto.
Qed.

Lemma C70_one_edge_proof : forall c ops ig fg ops' ig' fg' s t x y d p r,
  debug_build c = true -> frozen_graph c ops ig -> prepared c ig fg -> frozen_graph c ops' ig' -> prepared c ig' fg' ->
  (forall u v w, In (mkEdge u v w) (accepted ops) ->
     exists w', In (mkEdge u v w') (accepted ops') /\ (w' <= w \/ u = x /\ v = y /\ w' <= w + d)) ->
  answer c fg s t (Some p) -> answer c fg' s t r ->
  sp_get_weight p + d < WEIGHT_MAX c ->
  exists q, r = Some q /\ sp_get_weight q <= sp_get_weight p + d.
Proof.
  intros c ops ig fg ops' ig' fg' s t x y d p r Hd Hf Hp Hf' Hp' HE Ha Ha' HB.
  pose proof (C32_simple_proof c ops ig fg s t p Hd Hf Hp Ha) as HN.
  destruct (answer_single c ops ig fg s t _ Hd Hf Hp Ha) as (_ & _ & _ & _ & _ & HW & _).
  apply (frozen_walk c ops ig) in HW; auto.
  destruct (walk_once _ _ d x y _ _ _ _ HN HE HW) as (W' & HW' & HL & _).
  destruct (answer_single c ops' ig' fg' s t _ Hd Hf' Hp' Ha') as (_ & _ & HR).
  unfold sp_get_weight, WEIGHT_MAX in *. destruct r as [q|].
  - exists q. split; auto. destruct HR as (_ & _ & _ & _ & HM). apply HM in HW'. lia.
  - apply HR in HW'. lia.
Qed.
