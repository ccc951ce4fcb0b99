(** * AnswerFacts: consequences of the correctness of queries *)
From Verif Require Export ApiFacts.
Open Scope N_scope.

Lemma total_single E s t s' t' ns W :
  total E [(s, 0)] [(t, 0)] s' t' ns W <-> s' = s /\ t' = t /\ walk E s t ns W.
Proof.
  split.
  - intros (sw & tw & W0 & [H1|[]] & [H2|[]] & H3 & ->). injection H1 as <- <-. injection H2 as <- <-.
    split; auto. split; auto. rewrite N.add_0_l, N.add_0_r. auto.
  - intros (-> & -> & HW). exists 0, 0, W. simpl. repeat split; auto. lia.
Qed.

Lemma answer_single c ops ig fg s t r : debug_build c = true -> frozen_graph c ops ig ->
  prepared c ig fg -> answer c fg s t r ->
  s < ig_num_nodes ig /\ t < ig_num_nodes ig /\
  match r with
  | Some p => sp_source p = s /\ sp_target p = t /\ sp_weight p < umax c /\
              walk (ig_edges ig) s t (sp_nodes p) (sp_weight p) /\
              (forall ns W, walk (accepted ops) s t ns W -> sp_weight p <= W)
  | None => forall ns W, walk (accepted ops) s t ns W -> umax c <= W
  end.
Proof.
  intros Hd Hf Hp Ha. apply answer_as_multi in Ha.
  destruct (answer_multi_ok c ops ig fg _ _ r Hd Hf Hp Ha) as (_ & _ & Hids & HA).
  pose proof (answer_multi_accepted c ops ig fg _ _ r Hd Hf Hp Ha) as HB.
  split; [|split].
  - eapply Hids. simpl. eauto.
  - eapply Hids. simpl. eauto.
  - destruct r as [p|]; simpl in *.
    + destruct HA as (HT & HLt & _). apply total_single in HT. destruct HT as (H1 & H2 & H3).
      repeat split; auto. intros ns W HW. destruct HB as (_ & _ & HM). apply (HM s t ns).
      apply total_single. auto.
    + intros ns W HW. apply (HB s t ns). apply total_single. auto.
Qed.

Lemma answer_dist c ops ig fg s t r W : debug_build c = true -> frozen_graph c ops ig ->
  prepared c ig fg -> answer c fg s t r -> is_dist (accepted ops) s t W ->
  option_map sp_weight r = if W <? umax c then Some W else None.
Proof.
  intros Hd Hf Hp Ha ((ns & HW) & Hmin).
  destruct (answer_single c ops ig fg s t r Hd Hf Hp Ha) as (_ & _ & HA).
  destruct r as [p|]; simpl.
  - destruct HA as (_ & _ & Hlt & HW' & HM). apply HM in HW.
    apply (frozen_walk c ops ig) in HW'; auto. apply Hmin in HW'.
    assert (W = sp_weight p) as -> by lia. destruct (N.ltb_spec (sp_weight p) (umax c)); auto. lia.
  - apply HA in HW. destruct (N.ltb_spec W (umax c)); auto. lia.
Qed.

Lemma answer_is_dist c ops ig fg s t p : debug_build c = true -> frozen_graph c ops ig ->
  prepared c ig fg -> answer c fg s t (Some p) -> is_dist (accepted ops) s t (sp_weight p).
Proof.
  intros Hd Hf Hp Ha. destruct (answer_single c ops ig fg s t _ Hd Hf Hp Ha) as (_ & _ & _ & _ & _ & HW & HM).
  split; [|auto]. exists (sp_nodes p). eapply frozen_walk; eauto.
Qed.

Lemma answer_none_iff c ops ig fg s t r : debug_build c = true -> frozen_graph c ops ig ->
  prepared c ig fg -> answer c fg s t r ->
  (r = None <-> ~ exists ns W, walk (accepted ops) s t ns W /\ W < umax c).
Proof.
  intros Hd Hf Hp Ha. destruct (answer_single c ops ig fg s t _ Hd Hf Hp Ha) as (_ & _ & HA). split.
  - intros -> (ns & W & HW & HL). apply HA in HW. lia.
  - intros HN. destruct r as [p|]; auto. destruct HN. destruct HA as (_ & _ & HL & HW & _).
    exists (sp_nodes p), (sp_weight p). split; auto. eapply frozen_walk; eauto.
Qed.

(** equality of answers up to the node list, for lists of sources and targets *)
Lemma answer_ok_weight c E ss ts r r' : answer_ok c E ss ts r -> answer_ok c E ss ts r' ->
  option_map sp_weight r = option_map sp_weight r'.
Proof.
  destruct r as [p|], r' as [p'|]; simpl; auto.
  - intros (H1 & _ & H2) (H3 & _ & H4). apply H2 in H3. apply H4 in H1. f_equal. lia.
  - intros (H1 & Hl & _) H2. apply H2 in H1. lia.
  - intros H2 (H1 & Hl & _). apply H2 in H1. lia.
Qed.

Lemma answers_agree c ops ig ops' ig' fg fg' ss ts r r' : debug_build c = true ->
  frozen_graph c ops ig -> frozen_graph c ops' ig' ->
  (forall e, In e (accepted ops) <-> In e (accepted ops')) ->
  prepared c ig fg -> prepared c ig' fg' ->
  answer_multi c fg ss ts r -> answer_multi c fg' ss ts r' ->
  option_map sp_weight r = option_map sp_weight r'.
Proof.
  intros Hd Hf Hf' He Hp Hp' Ha Ha'.
  pose proof (answer_multi_accepted c ops ig fg ss ts r Hd Hf Hp Ha) as H1.
  pose proof (answer_multi_accepted c ops' ig' fg' ss ts r' Hd Hf' Hp' Ha') as H2.
  eapply answer_ok_weight; [exact H1|].
  assert (forall s t ns W, total (accepted ops) ss ts s t ns W <-> total (accepted ops') ss ts s t ns W) as HT.
  { intros s t ns W. split; intros (sw & tw & W0 & A & B & D & ->); exists sw, tw, W0;
      (split; [auto|]; split; [auto|]; split; [|auto]); (eapply walk_incl; [|exact D]; intros e; apply He). }
  destruct r' as [p|]; simpl in *.
  - destruct H2 as (A & B & D). split; [apply HT; auto|]. split; auto. intros. eapply D. apply HT. eauto.
  - intros. eapply H2. apply HT; eauto.
Qed.

(** *** Paths *)
Lemma walk_app E u v w ns1 ns2 W1 W2 : walk E u v ns1 W1 -> walk E v w ns2 W2 ->
  walk E u w (ns1 ++ tl ns2) (W1 + W2).
Proof.
  induction 1 as [u|u v t x ns W Hin Hw IH]; intros H2.
  - simpl. inversion H2; subst; simpl; auto.
  - simpl. replace (x + W + W2) with (x + (W + W2)) by lia. econstructor; eauto.
Qed.

Lemma walk_single E u v : walk E u v [u] 0 -> u = v.
Proof. inversion 1; subst; auto. match goal with H : walk _ _ _ [] _ |- _ => inversion H end. Qed.

Lemma walk_head E u v ns W : walk E u v ns W -> exists r, ns = u :: r.
Proof. inversion 1; eauto. Qed.

(** splitting a walk at a position *)
Lemma walk_split E s t ns W i v : walk E s t ns W -> getN ns i = Some v ->
  exists ns1 ns2 W1 W2, walk E s v ns1 W1 /\ walk E v t ns2 W2 /\ W = W1 + W2 /\
    lenN ns1 = i + 1 /\ ns = ns1 ++ tl ns2.
Proof.
  intros H. revert i. induction H as [u|u m t w ns W Hin Hw IH]; intros i Hi.
  - simpl in Hi. destruct (N.eqb_spec i 0); [|discriminate]. injection Hi as <-. subst i.
    exists [u], [u], 0, 0. repeat split; auto; constructor.
  - simpl in Hi. destruct (N.eqb_spec i 0).
    + injection Hi as <-. subst i. exists [u], (u :: ns), 0, (w + W).
      repeat split; auto; econstructor; eauto.
    + destruct (IH (N.pred i) Hi) as (ns1 & ns2 & W1 & W2 & A & B & -> & D & ->).
      exists (u :: ns1), ns2, (w + W1), W2. repeat split; auto.
      * econstructor; eauto.
      * lia.
      * unfold lenN in *. simpl. lia.
Qed.

Lemma walk_pos E u v ns W : (forall e, In e E -> 1 <= e_weight e) -> walk E u v ns W -> u <> v -> 1 <= W.
Proof. intros HP. destruct 1; [congruence|]. apply HP in H. simpl in H. lia. Qed.

Lemma walk_pos_len E u v ns W : (forall e, In e E -> 1 <= e_weight e) -> walk E u v ns W -> 2 <= lenN ns -> 1 <= W.
Proof. intros HP. destruct 1; unfold lenN; simpl; [lia|]. apply HP in H. simpl in H. lia. Qed.

Lemma dist_simple E s t ns W : (forall e, In e E -> 1 <= e_weight e) ->
  walk E s t ns W -> (forall ns' W', walk E s t ns' W' -> W <= W') -> NoDup ns.
Proof.
  intros HP HW. induction HW as [u|u m t w ns W Hin HW IH]; intros Hmin.
  - repeat constructor; auto.
  - constructor.
    + intros HI. destruct (In_getN _ _ HI) as (i & _ & Hi).
      destruct (walk_split E m t ns W i u HW Hi) as (ns1 & ns2 & W1 & W2 & A & B & -> & _ & _).
      pose proof (Hmin _ _ B). pose proof (HP _ Hin). simpl in *. lia.
    + apply IH. intros ns' W' HW'. assert (w + W <= w + W'); [|lia].
      eapply Hmin. econstructor; eauto.
Qed.

Lemma accepted_pos ops e : In e (accepted ops) -> 1 <= e_weight e /\ e_from e <> e_to e.
Proof.
  unfold accepted, acceptable. rewrite filter_In, andb_true_iff. intros (_ & H1 & H2).
  apply N.leb_le in H2. split; auto. destruct (N.eqb_spec (e_from e) (e_to e)); auto. discriminate.
Qed.

Lemma sub_optimal E s t ns W i j u v : walk E s t ns W ->
  (forall ns' W', walk E s t ns' W' -> W <= W') -> i <= j ->
  getN ns i = Some u -> getN ns j = Some v ->
  exists ns' W', walk E u v ns' W' /\ is_dist E u v W' /\ W' <= W /\
     (exists l r, ns = l ++ ns' ++ r /\ lenN l = i /\ lenN ns' = j - i + 1).
Proof.
  intros HW Hmin Hij Hi Hj.
  destruct (walk_split E s t ns W j v HW Hj) as (ns1 & ns2 & W1 & W2 & A & B & -> & D & ->).
  assert (getN ns1 i = Some u) as Hi'.
  { rewrite getN_app1 in Hi; [auto|lia]. }
  destruct (walk_split E s v ns1 W1 i u A Hi') as (ms1 & ms2 & V1 & V2 & A1 & B1 & -> & D1 & ->).
  exists ms2, V2. split; auto. split.
  - split; [eauto|]. intros ns' W' HW'.
    pose proof (walk_app _ _ _ _ _ _ _ _ (walk_app _ _ _ _ _ _ _ _ A1 HW') B) as HX.
    apply Hmin in HX. lia.
  - split; [lia|].
    destruct (walk_head _ _ _ _ _ B1) as [r2 ->].
    exists (removelast ms1), (tl ns2).
    assert (ms1 = removelast ms1 ++ [u]) as Hms.
    { clear - A1. induction A1; simpl; auto. destruct ns; [inversion A1|]. simpl in *. congruence. }
    split; [|split].
    + rewrite Hms at 1. simpl. rewrite <- !app_assoc. reflexivity.
    + rewrite Hms in D1. unfold lenN in *. rewrite app_length in D1. simpl in D1. lia.
    + unfold lenN in *. rewrite app_length in D. simpl in *. lia.
Qed.
