(** * PlatformFacts: the same program on targets with integers of different size *)
From Verif Require Export QueryProps InputGraphFacts.
From Coq Require Import ZArith Lia.
Open Scope N_scope.

Definition agree {A} (m m' : res A) : Prop := forall a b, m = Ok a -> m' = Ok b -> a = b.
Lemma agree_same {A} (m : res A) : agree m m.
Proof. intros a b H1 H2. congruence. Qed.
Lemma agree_bind {A B} (m m' : res A) (k k' : A -> res B) :
  agree m m' -> (forall a, agree (k a) (k' a)) -> agree (bind m k) (bind m' k').
Proof.
  intros H1 H2 x y Hx Hy. apply bind_Ok in Hx as (a & Ha & Hx). apply bind_Ok in Hy as (b & Hb & Hy).
  assert (a = b) as <- by (eapply H1; eauto). eapply H2; eauto.
Qed.
Lemma agree_uadd c c' a b : debug_build c = true -> debug_build c' = true -> agree (uadd c a b) (uadd c' a b).
Proof.
  intros H1 H2 x y Hx Hy. unfold uadd in *. rewrite H1 in Hx. rewrite H2 in Hy.
  destruct (_ <=? umax c); [|discriminate]. destruct (_ <=? umax c'); [|discriminate]. congruence.
Qed.
Lemma agree_vpush {A} c c' (l : list A) x : agree (vpush c l x) (vpush c' l x).
Proof.
  intros a b Ha Hb. unfold vpush in *. destruct (_ <? umax c / 2); [|discriminate]. destruct (_ <? umax c' / 2); [|discriminate].
  congruence.
Qed.
Lemma agree_step c c' g o : debug_build c = true -> debug_build c' = true -> agree (ig_step c g o) (ig_step c' g o).
Proof.
  intros H1 H2.
  assert (forall f t w b, agree (ig_do_add_edge c g f t w b) (ig_do_add_edge c' g f t w b)) as HA.
  { intros f t w b. unfold ig_do_add_edge. destruct (ig_frozen g); [apply agree_same|].
    destruct (f =? t); [apply agree_same|]. destruct (w <? 1); [apply agree_same|].
    apply agree_bind; [apply agree_uadd; auto|]. intros m. apply agree_bind; [apply agree_vpush|]. intros es.
    apply agree_bind; [|intros; apply agree_same]. destruct b; [apply agree_vpush|apply agree_same]. }
  destruct o; cbn [ig_step]; try apply agree_same; (apply agree_bind; [apply HA|]); intros (g' & k); apply agree_same.
Qed.
Lemma agree_run c c' : debug_build c = true -> debug_build c' = true ->
  forall ops g, agree (ig_run c g ops) (ig_run c' g ops).
Proof.
  intros H1 H2. induction ops as [|o ops IH]; intros g; simpl; [apply agree_same|].
  apply agree_bind; [apply agree_step; auto|]. intros (g' & x). apply IH.
Qed.

Lemma C86_graph_proof : forall c c' ops ig ig',
  debug_build c = true -> debug_build c' = true -> frozen_graph c ops ig -> frozen_graph c' ops ig' -> ig = ig'.
Proof. intros c c' ops ig ig' H1 H2 (_ & R1 & _) (_ & R2 & _). exact (agree_run c c' H1 H2 ops ig_new _ _ R1 R2). Qed.

Lemma C86_multi_proof : forall c c' ops ig ig' fg fg' sources targets r r',
  debug_build c = true -> debug_build c' = true ->
  frozen_graph c ops ig -> frozen_graph c' ops ig' -> prepared c ig fg -> prepared c' ig' fg' ->
  answer_multi c fg sources targets r -> answer_multi c' fg' sources targets r' ->
  match r, r' with
  | Some p, Some p' => sp_get_weight p = sp_get_weight p'
  | Some p, None => WEIGHT_MAX c' <= sp_get_weight p
  | None, Some p' => WEIGHT_MAX c <= sp_get_weight p'
  | None, None => True
  end.
Proof.
  intros c c' ops ig ig' fg fg' sources targets r r' H1 H2 F1 F2 P1 P2 A1 A2.
  pose proof (C04_proof c ops ig fg sources targets r H1 F1 P1 A1) as G1.
  pose proof (C04_proof c' ops ig' fg' sources targets r' H2 F2 P2 A2) as G2.
  destruct r as [p|], r' as [p'|]; auto.
  - destruct G1 as (_ & (s & t & ns & T1) & M1). destruct G2 as (_ & (s' & t' & ns' & T2) & M2).
    apply M2 in T1. apply M1 in T2. lia.
  - destruct G1 as (_ & (s & t & ns & T1) & M1). eauto.
  - destruct G2 as (_ & (s & t & ns & T1) & M1). eauto.
Qed.

Lemma C86_single_proof : forall c c' ops ig ig' fg fg' s t r r',
  debug_build c = true -> debug_build c' = true ->
  frozen_graph c ops ig -> frozen_graph c' ops ig' -> prepared c ig fg -> prepared c' ig' fg' ->
  answer c fg s t r -> answer c' fg' s t r' ->
  match r, r' with
  | Some p, Some p' => sp_get_weight p = sp_get_weight p'
  | Some p, None => WEIGHT_MAX c' <= sp_get_weight p
  | None, Some p' => WEIGHT_MAX c <= sp_get_weight p'
  | None, None => True
  end.
Proof.
  intros c c' ops ig ig' fg fg' s t r r' H1 H2 F1 F2 P1 P2 A1 A2.
  assert (forall c ops ig fg s t r, debug_build c = true -> frozen_graph c ops ig -> prepared c ig fg -> answer c fg s t r ->
    answer_multi c fg [(s, 0)] [(t, 0)] r) as HM.
  { clear. intros c ops ig fg s t r Hd Hf Hp (H & hinv & HL & HA). exists H, hinv. split; auto. }
  eapply (C86_multi_proof c c' ops ig ig' fg fg' [(s, 0)] [(t, 0)]); eauto.
Qed.

(** ** The larger target accepts what the smaller one accepts *)
Lemma larger_uadd c c' a b x : debug_build c' = true -> umax c' <= umax c -> uadd c' a b = Ok x -> uadd c a b = Ok x.
Proof.
  intros H1 H2 Hx. unfold uadd in *. rewrite H1 in Hx. destruct (N.leb_spec (a + b) (umax c')); [|discriminate].
  destruct (N.leb_spec (a + b) (umax c)); [auto|lia].
Qed.
Lemma larger_vpush {A} c c' (l : list A) y x : umax c' <= umax c -> vpush c' l y = Ok x -> vpush c l y = Ok x.
Proof.
  intros H2 Hx. unfold vpush in *. destruct (N.ltb_spec (lenN l) (umax c' / 2)); [|discriminate].
  assert (umax c' / 2 <= umax c / 2) by (apply N.div_le_mono; lia). destruct (N.ltb_spec (lenN l) (umax c / 2)); [auto|lia].
Qed.
Lemma larger_step c c' g o x : debug_build c' = true -> umax c' <= umax c -> ig_step c' g o = Ok x -> ig_step c g o = Ok x.
Proof.
  intros H1 H2.
  assert (forall f t w b x, ig_do_add_edge c' g f t w b = Ok x -> ig_do_add_edge c g f t w b = Ok x) as HA.
  { intros f t w b y. unfold ig_do_add_edge. destruct (ig_frozen g); auto. destruct (f =? t); auto. destruct (w <? 1); auto.
    intros HE. apply bind_Ok in HE as (m & Hm & HE). rewrite (larger_uadd c c' _ _ _ H1 H2 Hm). cbn [bind].
    apply bind_Ok in HE as (es & Hes & HE). rewrite (larger_vpush c c' _ _ _ H2 Hes). cbn [bind].
    apply bind_Ok in HE as (es' & Hes' & HE). destruct b; [rewrite (larger_vpush c c' _ _ _ H2 Hes')|rewrite Hes']; auto. }
  destruct o; cbn [ig_step]; auto; intros HE; apply bind_Ok in HE as (y & Hy & HE); apply HA in Hy;
    unfold ig_add_edge, ig_add_edge_bidir; rewrite Hy; auto.
Qed.
Lemma larger_run c c' : debug_build c' = true -> umax c' <= umax c ->
  forall ops g x, ig_run c' g ops = Ok x -> ig_run c g ops = Ok x.
Proof.
  intros H1 H2. induction ops as [|o ops IH]; intros g x; simpl; auto. intros HE.
  apply bind_Ok in HE as ((g' & y) & Hy & HE). rewrite (larger_step c c' _ _ _ H1 H2 Hy). simpl. auto.
Qed.
Lemma C86_larger_proof : forall c c' ops ig, debug_build c' = true -> umax c' <= umax c ->
  frozen_graph c' ops ig -> frozen_graph c ops ig.
Proof.
  intros c c' ops ig H1 H2 (Hr & Hrun & Hf). split; [|split; auto; eapply larger_run; eauto].
  intros o Ho. specialize (Hr o Ho). destruct o; simpl in *; auto; lia.
Qed.
