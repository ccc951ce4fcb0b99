(** * MetaProps: how the answers change with the graph and with the end points *)
From Verif Require Export ReleaseProps.
From Coq Require Import Permutation.
Open Scope N_scope.

(** *** C51 *)
Lemma C51_upper_proof : forall c ops ig fg fg' sources targets r s a t b p,
  debug_build c = true -> frozen_graph c ops ig -> prepared c ig fg -> prepared c ig fg' ->
  answer_multi c fg sources targets r ->
  In (s, a) sources -> In (t, b) targets -> answer c fg' s t (Some p) ->
  a + sp_get_weight p + b < WEIGHT_MAX c ->
  exists q, r = Some q /\ sp_get_weight q <= a + sp_get_weight p + b.
Proof.
  intros c ops ig fg fg' ss ts r s a t b p Hd Hf Hp Hp' Hm Hs Ht Ha Hlt. unfold WEIGHT_MAX, sp_get_weight in *.
  pose proof (answer_multi_accepted c ops ig fg ss ts r Hd Hf Hp Hm) as HB.
  destruct (answer_single c ops ig fg' s t _ Hd Hf Hp' Ha) as (_ & _ & _ & _ & _ & HW & _).
  assert (total (accepted ops) ss ts s t (sp_nodes p) (a + sp_weight p + b)) as HT.
  { exists a, b, (sp_weight p). split; auto. split; auto. split; auto. eapply frozen_walk; eauto. }
  destruct r as [q|]; simpl in HB.
  - exists q. split; auto. destruct HB as (_ & _ & HM). eapply HM; eauto.
  - apply HB in HT. lia.
Qed.

Lemma C51_attained_proof : forall c ops ig fg fg' sources targets q r,
  debug_build c = true -> frozen_graph c ops ig -> prepared c ig fg -> prepared c ig fg' ->
  answer_multi c fg sources targets (Some q) -> answer c fg' (sp_get_source q) (sp_get_target q) r ->
  exists a b p, In (sp_get_source q, a) sources /\ In (sp_get_target q, b) targets /\
    r = Some p /\ sp_get_weight q = a + sp_get_weight p + b.
Proof.
  intros c ops ig fg fg' ss ts q r Hd Hf Hp Hp' Hm Ha. unfold sp_get_source, sp_get_target, sp_get_weight in *.
  destruct (answer_multi_accepted c ops ig fg ss ts _ Hd Hf Hp Hm) as ((a & b & W & Hs & Ht & HW & HE) & Hlt & HM).
  destruct (answer_single c ops ig fg' _ _ _ Hd Hf Hp' Ha) as (_ & _ & HR).
  destruct r as [p|].
  - exists a, b, p. repeat split; auto. destruct HR as (_ & _ & _ & HW' & HM').
    apply HM' in HW. pose proof (frozen_walk _ _ _ _ _ _ _ Hf HW') as HW2.
    assert (total (accepted ops) ss ts (sp_source q) (sp_target q) (sp_nodes p) (a + sp_weight p + b)) as HT by (exists a, b, (sp_weight p); auto).
    apply HM in HT. lia.
  - apply HR in HW. lia.
Qed.

Lemma C51_more_proof : forall c ops ig fg fg' sources targets sources' targets' p r,
  debug_build c = true -> frozen_graph c ops ig -> prepared c ig fg -> prepared c ig fg' ->
  (forall x, In x sources -> In x sources') -> (forall x, In x targets -> In x targets') ->
  answer_multi c fg sources targets (Some p) -> answer_multi c fg' sources' targets' r ->
  exists q, r = Some q /\ sp_get_weight q <= sp_get_weight p.
Proof.
  intros c ops ig fg fg' ss ts ss' ts' p r Hd Hf Hp Hp' H1 H2 Ha Ha'. unfold sp_get_weight.
  destruct (answer_multi_accepted c ops ig fg ss ts _ Hd Hf Hp Ha) as ((a & b & W & Hs & Ht & HW & HE) & Hlt & _).
  pose proof (answer_multi_accepted c ops ig fg' ss' ts' r Hd Hf Hp' Ha') as HB.
  assert (total (accepted ops) ss' ts' (sp_source p) (sp_target p) (sp_nodes p) (sp_weight p)) as HT.
  { exists a, b, W. auto. }
  destruct r as [q|]; simpl in HB.
  - exists q. split; auto. destruct HB as (_ & _ & HM). eauto.
  - apply HB in HT. lia.
Qed.
Lemma C51_sets_proof : forall c ops ig fg fg' sources targets sources' targets' r r',
  debug_build c = true -> frozen_graph c ops ig -> prepared c ig fg -> prepared c ig fg' ->
  (forall x, In x sources <-> In x sources') -> (forall x, In x targets <-> In x targets') ->
  answer_multi c fg sources targets r -> answer_multi c fg' sources' targets' r' ->
  option_map sp_get_weight r = option_map sp_get_weight r'.
Proof.
  intros c ops ig fg fg' ss ts ss' ts' r r' Hd Hf Hp Hp' H1 H2 Ha Ha'.
  destruct r as [p|], r' as [p'|]; auto; simpl.
  - destruct (C51_more_proof c ops ig fg fg' ss ts ss' ts' p (Some p') Hd Hf Hp Hp') as (q & HE & HLe); auto; try (intros; apply H1; auto); try (intros; apply H2; auto).
    injection HE as <-.
    destruct (C51_more_proof c ops ig fg' fg ss' ts' ss ts p' (Some p) Hd Hf Hp' Hp) as (q & HE & HLe'); auto; try (intros; apply H1; auto); try (intros; apply H2; auto).
    injection HE as <-. f_equal. lia.
  - destruct (C51_more_proof c ops ig fg fg' ss ts ss' ts' p None Hd Hf Hp Hp') as (q & HE & _); auto; try (intros; apply H1; auto); try (intros; apply H2; auto). discriminate.
  - destruct (C51_more_proof c ops ig fg' fg ss' ts' ss ts p' None Hd Hf Hp' Hp) as (q & HE & _); auto; try (intros; apply H1; auto); try (intros; apply H2; auto). discriminate.
Qed.

(** *** Transport along a map of walks *)
Lemma transport c E E' ss ts ss' ts' (k : N) r r' :
  1 <= k ->
  (forall s t ns W, total E ss ts s t ns W -> W < umax c -> exists s' t' ns', total E' ss' ts' s' t' ns' (k * W)) ->
  (forall s t ns W, total E' ss' ts' s t ns W -> W < umax c -> exists W0 s' t' ns', W = k * W0 /\ total E ss ts s' t' ns' W0) ->
  answer_ok c E ss ts r -> answer_ok c E' ss' ts' r' ->
  (forall p, r = Some p -> k * sp_weight p < umax c -> exists q, r' = Some q /\ sp_weight q = k * sp_weight p) /\
  (forall q, r' = Some q -> exists p, r = Some p /\ sp_weight q = k * sp_weight p).
Proof.
  intros Hk HF HB Hr Hr'.
  assert (forall q, r' = Some q -> exists p, r = Some p /\ sp_weight q = k * sp_weight p) as H2.
  { intros q ->. destruct Hr' as (HT & Hlt & HM).
    destruct (HB _ _ _ _ HT Hlt) as (W0 & s' & t' & ns' & HE & HT0).
    assert (W0 < umax c) by nia. destruct r as [p|]; [|apply Hr in HT0; lia].
    exists p. split; auto. destruct Hr as (HTp & Hltp & HMp).
    destruct (HF _ _ _ _ HTp Hltp) as (s2 & t2 & ns2 & HT2). apply HM in HT2. apply HMp in HT0. nia. }
  split; auto.
  intros p -> Hlt. destruct Hr as (HT & HLt & HM). destruct (HF _ _ _ _ HT HLt) as (s' & t' & ns' & HT').
  destruct r' as [q|]; [|apply Hr' in HT'; lia].
  exists q. split; auto. destruct (H2 q eq_refl) as (p' & HE & HW). injection HE as <-. auto.
Qed.
Lemma transport1 c E E' ss ts ss' ts' r r' :
  (forall s t ns W, total E ss ts s t ns W -> exists s' t' ns', total E' ss' ts' s' t' ns' W) ->
  (forall s t ns W, total E' ss' ts' s t ns W -> exists s' t' ns', total E ss ts s' t' ns' W) ->
  answer_ok c E ss ts r -> answer_ok c E' ss' ts' r' -> option_map sp_get_weight r = option_map sp_get_weight r'.
Proof.
  intros HF HB Hr Hr'.
  destruct (transport c E E' ss ts ss' ts' 1 r r') as [H1 H2]; auto; [lia| | |].
  - intros s t ns W HT _. rewrite N.mul_1_l. eauto.
  - intros s t ns W HT _. destruct (HB _ _ _ _ HT) as (s' & t' & ns' & HT'). exists W, s', t', ns'. split; auto. lia.
  - destruct r as [p|], r' as [q|]; auto; simpl.
    + destruct (H2 q eq_refl) as (p' & HE & HW). injection HE as <-. f_equal. unfold sp_get_weight. lia.
    + exfalso. destruct (H1 p eq_refl) as (q & HE & _); [|discriminate]. destruct Hr as (_ & Hr & _). lia.
    + destruct (H2 q eq_refl) as (p & HE & _). discriminate.
Qed.

(** *** C52 *)
Lemma walk_reverse E E' u v ns W : (forall a b w, In (mkEdge a b w) E -> In (mkEdge b a w) E') ->
  walk E u v ns W -> walk E' v u (rev ns) W.
Proof.
  intros HS. induction 1 as [u|u v t w ns W HI HW IH]; [constructor|].
  simpl. replace (w + W) with (W + w) by lia.
  pose proof (AnswerFacts.walk_app E' t v u (rev ns) [v; u] W w IH) as HA. simpl in HA.
  apply HA. apply walk_one. auto.
Qed.
Lemma C52_proof : forall c ops ig fg ops' ig' fg' sources targets r r',
  debug_build c = true -> frozen_graph c ops ig -> prepared c ig fg ->
  frozen_graph c ops' ig' -> prepared c ig' fg' ->
  (forall u v w, In (mkEdge u v w) (accepted ops) <-> In (mkEdge v u w) (accepted ops')) ->
  answer_multi c fg sources targets r -> answer_multi c fg' targets sources r' ->
  option_map sp_get_weight r = option_map sp_get_weight r'.
Proof.
  intros c ops ig fg ops' ig' fg' ss ts r r' Hd Hf Hp Hf' Hp' HE Ha Ha'.
  apply (transport1 c (accepted ops) (accepted ops') ss ts ts ss); [| |eapply answer_multi_accepted; eauto|eapply answer_multi_accepted; eauto].
  - intros s t ns W (a & b & W0 & Hs & Ht & HW & ->). exists t, s, (rev ns). exists b, a, W0. split; auto. split; auto. split; [|lia].
    eapply walk_reverse; [|exact HW]. intros; apply HE; auto.
  - intros s t ns W (a & b & W0 & Hs & Ht & HW & ->). exists t, s, (rev ns). exists b, a, W0. split; auto. split; auto. split; [|lia].
    eapply walk_reverse; [|exact HW]. intros; apply HE; auto.
Qed.

(** *** C53 *)
Lemma walk_scale E E' k u v ns W : (forall a b w, In (mkEdge a b w) E -> In (mkEdge a b (k * w)) E') ->
  walk E u v ns W -> walk E' u v ns (k * W).
Proof.
  intros HS. induction 1 as [u|u v t w ns W HI HW IH]; [rewrite N.mul_0_r; constructor|].
  rewrite N.mul_add_distr_l. econstructor; eauto.
Qed.
Lemma walk_unscale E E' k u v ns W :
  (forall a b w, In (mkEdge a b w) E' -> exists w0, w = k * w0 /\ In (mkEdge a b w0) E) ->
  walk E' u v ns W -> exists W0, W = k * W0 /\ walk E u v ns W0.
Proof.
  intros HS. induction 1 as [u|u v t w ns W HI HW (W0 & -> & IH)].
  - exists 0. split; [lia|constructor].
  - destruct (HS _ _ _ HI) as (w0 & -> & HI0). exists (w0 + W0). split; [lia|]. econstructor; eauto.
Qed.
Lemma C53_proof : forall c ops ig fg ops' ig' fg' k s t r r',
  debug_build c = true -> frozen_graph c ops ig -> prepared c ig fg ->
  frozen_graph c ops' ig' -> prepared c ig' fg' -> 1 <= k ->
  (forall u v w, In (mkEdge u v w) (accepted ops) -> In (mkEdge u v (k * w)) (accepted ops')) ->
  (forall u v w, In (mkEdge u v w) (accepted ops') -> exists w0, w = k * w0 /\ In (mkEdge u v w0) (accepted ops)) ->
  answer c fg s t r -> answer c fg' s t r' ->
  (forall p, r = Some p -> k * sp_get_weight p < WEIGHT_MAX c ->
     exists q, r' = Some q /\ sp_get_weight q = k * sp_get_weight p) /\
  (forall q, r' = Some q -> exists p, r = Some p /\ sp_get_weight q = k * sp_get_weight p).
Proof.
  intros c ops ig fg ops' ig' fg' k s t r r' Hd Hf Hp Hf' Hp' Hk HE1 HE2 Ha Ha'.
  apply answer_as_multi in Ha, Ha'.
  eapply (transport c (accepted ops) (accepted ops') [(s, 0)] [(t, 0)] [(s, 0)] [(t, 0)]);
    [auto| | |eapply answer_multi_accepted; eauto|eapply answer_multi_accepted; eauto].
  - intros s1 t1 ns W HT _. apply total_single in HT. destruct HT as (-> & -> & HW).
    exists s, t, ns. apply total_single. repeat split; auto. eapply walk_scale; eauto.
  - intros s1 t1 ns W HT _. apply total_single in HT. destruct HT as (-> & -> & HW).
    destruct (walk_unscale _ _ _ _ _ _ _ HE2 HW) as (W0 & -> & HW0). exists W0, s, t, ns. split; auto.
    apply total_single. auto.
Qed.

(** *** C54 *)
Lemma walk_rename (f : N -> N) E E' u v ns W :
  (forall a b w, In (mkEdge a b w) E -> In (mkEdge (f a) (f b) w) E') ->
  walk E u v ns W -> walk E' (f u) (f v) (map f ns) W.
Proof. intros HS. induction 1; [constructor|]. simpl. econstructor; eauto. Qed.
Lemma walk_unrename (f : N -> N) n E E' x v' ns' W :
  (forall a b w, In (mkEdge a b w) E -> a < n /\ b < n) ->
  (forall a b, a < n -> b < n -> f a = f b -> a = b) ->
  (forall a' b' w, In (mkEdge a' b' w) E' -> exists a b, a' = f a /\ b' = f b /\ In (mkEdge a b w) E) ->
  walk E' x v' ns' W -> forall u, u < n -> x = f u -> exists v ns, v < n /\ v' = f v /\ walk E u v ns W.
Proof.
  intros HN HI HS. induction 1 as [x|x y t w ns W HE HW IH]; intros u Hu ->.
  - exists u, [u]. repeat split; auto. constructor.
  - destruct (HS _ _ _ HE) as (a & b & Ha & -> & HE0). destruct (HN _ _ _ HE0).
    apply HI in Ha; auto. subst a. destruct (IH b) as (v & ns0 & Hv & -> & HW0); auto.
    exists v, (u :: ns0). repeat split; auto. econstructor; eauto.
Qed.
Lemma accepted_lt c ops ig a b w : debug_build c = true -> frozen_graph c ops ig -> In (mkEdge a b w) (accepted ops) ->
  a < ig_num_nodes ig /\ b < ig_num_nodes ig.
Proof.
  intros Hd (_ & Hr & _) HI. destruct (run_inv c ops ig Hr) as [_ HN].
  destruct (HN (or_introl Hd)) as [N1 _]. apply (N1 _ HI).
Qed.
Lemma C54_proof : forall c ops ig fg ops' ig' fg' (f : N -> N) sources targets r r',
  debug_build c = true -> frozen_graph c ops ig -> prepared c ig fg ->
  frozen_graph c ops' ig' -> prepared c ig' fg' ->
  (forall u v, u < ig_num_nodes ig -> v < ig_num_nodes ig -> f u = f v -> u = v) ->
  (forall u v w, In (mkEdge u v w) (accepted ops) -> In (mkEdge (f u) (f v) w) (accepted ops')) ->
  (forall u' v' w, In (mkEdge u' v' w) (accepted ops') ->
     exists u v, u' = f u /\ v' = f v /\ In (mkEdge u v w) (accepted ops)) ->
  answer_multi c fg sources targets r ->
  answer_multi c fg' (map (fun '(v, w) => (f v, w)) sources) (map (fun '(v, w) => (f v, w)) targets) r' ->
  option_map sp_get_weight r = option_map sp_get_weight r'.
Proof.
  intros c ops ig fg ops' ig' fg' f ss ts r r' Hd Hf Hp Hf' Hp' Hinj HE1 HE2 Ha Ha'.
  destruct (answer_multi_ok c ops ig fg ss ts r Hd Hf Hp Ha) as (_ & _ & Hids & _).
  apply (transport1 c (accepted ops) (accepted ops') ss ts (map (fun '(v, w) => (f v, w)) ss) (map (fun '(v, w) => (f v, w)) ts)); [| |eapply answer_multi_accepted; eauto|eapply answer_multi_accepted; eauto].
  - intros s t ns W (a & b & W0 & Hs & Ht & HW & ->). exists (f s), (f t), (map f ns). exists a, b, W0.
    split; [apply in_map_iff; exists (s, a); auto|]. split; [apply in_map_iff; exists (t, b); auto|]. split; auto.
    eapply walk_rename; eauto.
  - intros s' t' ns W (a & b & W0 & Hs & Ht & HW & ->).
    apply in_map_iff in Hs, Ht. destruct Hs as ([s a'] & HEs & Hs), Ht as ([t b'] & HEt & Ht).
    injection HEs as <- ->. injection HEt as <- ->.
    destruct (walk_unrename f (ig_num_nodes ig) (accepted ops) _ _ _ _ _ (fun a b w => accepted_lt c ops ig a b w Hd Hf) Hinj HE2 HW s)
      as (v & ns0 & Hv & Hfv & HW0); auto.
    { eapply Hids. apply in_or_app. eauto. }
    apply Hinj in Hfv; [subst v| |auto]; [|eapply Hids; apply in_or_app; eauto].
    exists s, t, ns0. exists a, b, W0. auto.
Qed.

(** *** C55 *)
Fixpoint pairs (k : nat) : list (N * N) :=
  match k with
  | O => []
  | S k' => pairs k' ++ map (fun i => (i, N.of_nat k')) (rangeN 0 (N.of_nat k'))
  end.
Lemma pairs_In k i j : i < j -> j < N.of_nat k -> In (i, j) (pairs k).
Proof.
  induction k as [|k IH]; intros Hi Hj; [lia|]. cbn [pairs]. apply in_or_app.
  destruct (N.eq_dec j (N.of_nat k)) as [->|Hne].
  - right. apply in_map_iff. exists i. split; auto. apply rangeN_In. lia.
  - left. apply IH; lia.
Qed.
Lemma pairs_len k : 2 * lenN (pairs k) = N.of_nat k * (N.of_nat k - 1).
Proof.
  induction k as [|k IH]; [reflexivity|]. cbn [pairs]. rewrite lenN_app, lenN_map, lenN_rangeN.
  rewrite N.mul_add_distr_l, IH. nia.
Qed.
Lemma NoDup_getN {A} (l : list A) : (forall i j x, getN l i = Some x -> getN l j = Some x -> i = j) -> NoDup l.
Proof.
  induction l as [|x l IH]; intros HX; constructor.
  - intros HI. apply In_getN in HI. destruct HI as (i & _ & HI).
    enough (0 = N.succ i) by lia. apply (HX 0 (N.succ i) x); [reflexivity|].
    simpl. destruct (N.eqb_spec (N.succ i) 0); [lia|]. rewrite N.pred_succ. auto.
  - apply IH. intros i j y Hi Hj. enough (N.succ i = N.succ j) by lia.
    apply (HX _ _ y); simpl.
    + destruct (N.eqb_spec (N.succ i) 0); [lia|]. rewrite N.pred_succ. auto.
    + destruct (N.eqb_spec (N.succ j) 0); [lia|]. rewrite N.pred_succ. auto.
Qed.
Lemma edges_bound c E n fg d : fg_shape c E n fg -> 2 * lenN (fg_edges fg d) <= n * (n - 1).
Proof.
  intros Hok. pose (f := fun e => (rk fg (fe_base e), rk fg (fe_adj e))).
  assert (NoDup (map f (fg_edges fg d))) as HN.
  { apply NoDup_getN. intros i j x. rewrite !getN_map.
    destruct (getN (fg_edges fg d) i) as [e1|] eqn:E1; [|discriminate].
    destruct (getN (fg_edges fg d) j) as [e2|] eqn:E2; [|discriminate]. cbn [option_map]. intros H1 H2.
    rewrite <- H2 in H1. injection H1 as Hb Ha.
    destruct (sh_edge _ _ _ _ Hok _ _ _ E1) as (B1 & A1 & _), (sh_edge _ _ _ _ Hok _ _ _ E2) as (B2 & A2 & _).
    apply (sh_uniq _ _ _ _ Hok d _ _ _ _ E1 E2); apply (sh_inj _ _ _ _ Hok); auto. }
  assert (incl (map f (fg_edges fg d)) (pairs (N.to_nat n))) as HI.
  { intros x Hx. apply in_map_iff in Hx. destruct Hx as (e & <- & He). apply In_getN in He. destruct He as (i & _ & He).
    destruct (sh_edge _ _ _ _ Hok _ _ _ He) as (B & A & R). apply pairs_In; auto. rewrite N2Nat.id.
    apply (sh_rank _ _ _ _ Hok); auto. }
  apply NoDup_incl_length in HI; auto. rewrite map_length in HI.
  pose proof (pairs_len (N.to_nat n)) as HP. rewrite N2Nat.id in HP. unfold lenN in *. lia.
Qed.
Lemma C55_proof : forall c ops ig fg,
  1 <= umax c -> frozen_graph c ops ig -> prepared c ig fg ->
  2 * fg_get_num_out_edges fg <= ig_num_nodes ig * (ig_num_nodes ig - 1) /\
  2 * fg_get_num_in_edges fg <= ig_num_nodes ig * (ig_num_nodes ig - 1).
Proof.
  intros c ops ig fg Hd Hf Hp. pose proof (prepared_shape c ops ig fg Hd Hf Hp) as Hok.
  split; [apply (edges_bound c _ _ fg Fwd Hok)|apply (edges_bound c _ _ fg Bwd Hok)].
Qed.
