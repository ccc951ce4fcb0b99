(** * SimpleFacts: without search limits, shortcuts stand for walks that visit no node twice *)
From Verif Require Export RepFacts.
Open Scope N_scope.

Lemma path_at (g : PrepGraph) x u v W : path (arel g) u v W -> path (arelx g x) u v W \/
  exists W1 W2, path (arel g) u x W1 /\ path (arel g) x v W2 /\ W = W1 + W2.
Proof.
  induction 1 as [u|u y v w W Hr Hp IH]; [left; constructor|].
  destruct (N.eq_dec u x) as [->|Hu].
  { right. exists 0, (w + W). split; [constructor|]. split; [econstructor; eauto|lia]. }
  destruct (N.eq_dec y x) as [->|Hy].
  { right. exists w, W. split; [apply path_one; auto|]. auto. }
  destruct IH as [IH|(W1 & W2 & P1 & P2 & ->)].
  - left. econstructor; eauto. split; auto.
  - right. exists (w + W1), W2. split; [econstructor; eauto|]. split; [auto|lia].
Qed.

Section Simple.
  Variables (c : cfg) (n : N) (E : list Edge) (full : Prop).
  Hypothesis HE : forall e, In e E -> 1 <= e_weight e <= umax c.

  Lemma epath_pos u v W : path (edge_rel E) u v W -> u <> v -> 1 <= W.
  Proof.
    destruct 1 as [|u y v w W Hr Hp]; intros Hne; [congruence|]. apply HE in Hr. simpl in Hr. lia.
  Qed.

  (** [y] is on a lightest path from [u] to [v] *)
  Definition between (u y v : N) : Prop :=
    forall W, path (edge_rel E) u v W ->
      exists W1 W2, path (edge_rel E) u y W1 /\ path (edge_rel E) y v W2 /\ W1 + W2 <= W.

  (** the middle node [k] of an arc is on a lightest path, and no other node is on both sides of it *)
  Definition alean (u v k : N) : Prop :=
    k = umax c \/
    (full -> between u k v /\ forall y, y <> k -> between u y k -> between k y v -> False).
  Definition plean (d : dir) (x : N) (a : Arc) : Prop :=
    alean (fsrc d x (a_adj a)) (fdst d x (a_adj a)) (a_center a).

  (** an arc stands for a walk over different nodes that were contracted before *)
  Definition asimple (R : list crec) (u v w : N) : Prop :=
    full -> exists I, NoDup I /\ (forall y, In y I -> In y (map cnode R) /\ between u y v) /\
      walk E u v (u :: I ++ [v]) w.

  Record bsimp (R : list crec) (g : PrepGraph) : Prop := mk_bsimp {
    sp_pres : forall u v W, path (edge_rel E) u v W -> ~ In u (map cnode R) -> ~ In v (map cnode R) ->
      W < umax c -> exists W', W' <= W /\ path (arel g) u v W';
    sp_sound : forall u v w, arel g u v w -> path (edge_rel E) u v w;
    sp_arc : forall u v w k, In (mkArc v w k) (outs g u) -> asimple R u v w /\ alean u v k;
    sp_rec : forall r d a, In r R -> In a (carcs d r) -> plean d (cnode r) a
  }.

  Lemma sound_path R g u v W : bsimp R g -> path (arel g) u v W -> path (edge_rel E) u v W.
  Proof.
    intros S. induction 1 as [|u y v w W Hr Hp IH]; [constructor|].
    eapply path_app; [apply (sp_sound _ _ S); eauto|auto].
  Qed.

  Lemma asimple_app R R' u v w : asimple R u v w -> asimple (R ++ R') u v w.
  Proof.
    intros H Hf. destruct (H Hf) as (I & HN & HI & HW). exists I. split; auto. split; auto.
    intros y Hy. destruct (HI y Hy). rewrite map_app, in_app_iff. auto.
  Qed.

  Lemma bsimp_step R g x g' : pg_wf n g -> binv c n E R g -> bsimp R g -> cstep c n g x g' -> csmin full g x g' ->
    bsimp (R ++ [(x, outs g x, ins g x)]) g'.
  Proof.
    intros Hw Hb S Cs Cm.
    assert (forall y, ~ In y (map cnode (R ++ [(x, outs g x, ins g x)])) -> ~ In y (map cnode R) /\ y <> x) as Hsp.
    { intros y Hy. rewrite map_app, in_app_iff in Hy. simpl in Hy. split; [tauto|]. intros ->. apply Hy. right; left. reflexivity. }
    assert (forall u v w k, In (mkArc v w k) (outs g u) -> ~ In u (map cnode R) /\ ~ In v (map cnode R)) as Hout.
    { intros u v w k Hin. split; intros HR; apply (bi_iso _ _ _ _ _ Hb) in HR as [Ho Hi].
      - rewrite Ho in Hin. destruct Hin.
      - apply (wf_sym _ _ Hw) in Hin. rewrite Hi in Hin. destruct Hin. }
    assert (forall u v w, arel g' u v w -> path (edge_rel E) u v w) as Hsound.
    { intros u v w (k & Hin).
      apply (cs_origin _ _ _ _ _ Cs) in Hin as (_ & _ & [Hin|(_ & _ & w1 & k1 & w2 & k2 & H1 & H2 & ->)]).
      - apply (sp_sound _ _ S). exists k; auto.
      - eapply path_app; apply (sp_sound _ _ S); eexists; eauto. }
    constructor; auto.
    - intros u v W Hp Hu Hv HW. apply Hsp in Hu as [Hu Hux]. apply Hsp in Hv as [Hv Hvx].
      destruct (sp_pres _ _ S _ _ _ Hp Hu Hv HW) as (W1 & HW1 & Hp1).
      destruct (cs_pres _ _ _ _ _ Cs _ _ _ Hp1 Hux Hvx) as (W2 & HW2 & Hp2); [lia|].
      exists W2. split; auto. lia.
    - intros u v w k Hin.
      destruct (cm_new _ _ _ _ Cm _ _ _ _ Hin) as [Hold|(-> & Hu & Hv & Hmin)].
      { destruct (sp_arc _ _ S _ _ _ _ Hold). split; auto. apply asimple_app; auto. }
      apply (cs_origin _ _ _ _ _ Cs) in Hin as (_ & _ & [Hold|(_ & Hwu & w1 & k1 & w2 & k2 & H1 & H2 & ->)]).
      { destruct (sp_arc _ _ S _ _ _ _ Hold). split; auto. apply asimple_app; auto. }
      destruct (Hout _ _ _ _ H1) as [Hun Hxn]. destruct (Hout _ _ _ _ H2) as [_ Hvn].
      assert (path (edge_rel E) u x w1) as P1 by (apply (sp_sound _ _ S); eexists; eauto).
      assert (path (edge_rel E) x v w2) as P2 by (apply (sp_sound _ _ S); eexists; eauto).
      (* every path of weight below that of the arc can be routed over x *)
      assert (full -> forall W, path (edge_rel E) u v W -> W <= w1 + w2 ->
        exists W1 W2, path (edge_rel E) u x W1 /\ path (edge_rel E) x v W2 /\ W1 + W2 <= W) as Hvia.
      { intros Hf W Hp Hle. destruct (sp_pres _ _ S _ _ _ Hp Hun Hvn) as (W' & HW' & Hp'); [lia|].
        destruct (path_at g x _ _ _ Hp') as [Hp2|(W1 & W2 & Q1 & Q2 & ->)].
        - specialize (Hmin Hf _ Hp2). lia.
        - exists W1, W2. split; [eapply sound_path; eauto|]. split; [eapply sound_path; eauto|lia]. }
      assert (full -> between u x v) as Hbx.
      { intros Hf W Hp. destruct (N.le_gt_cases W (w1 + w2)) as [Hle|Hgt]; [apply Hvia; auto|].
        exists w1, w2. split; auto. split; auto. lia. }
      assert (full -> forall y, y <> x -> between u y x -> between x y v -> False) as Hdis.
      { intros Hf y Hy B1 B2.
        assert (forall k W1 W2, (N.to_nat (W1 + W2) < k)%nat -> path (edge_rel E) u x W1 -> path (edge_rel E) x v W2 ->
          W1 + W2 <= w1 + w2 -> False) as G.
        { induction k as [|k IH]; intros W1 W2 Hk Q1 Q2 Hle; [lia|].
          destruct (B1 _ Q1) as (a & b & A1 & A2 & A3). destruct (B2 _ Q2) as (a' & b' & A4 & A5 & A6).
          pose proof (epath_pos _ _ _ A2 Hy) as Hpos.
          destruct (Hvia Hf (a + b')) as (X & Y & Q3 & Q4 & Q5); [eapply path_app; eauto|lia|].
          apply (IH X Y); auto; lia. }
        apply (G (Datatypes.S (N.to_nat (w1 + w2))) w1 w2); auto. lia. }
      split.
      + intros Hf.
        destruct (sp_arc _ _ S _ _ _ _ H1) as [A1 _]. destruct (A1 Hf) as (I1 & N1 & J1 & L1).
        destruct (sp_arc _ _ S _ _ _ _ H2) as [A2 _]. destruct (A2 Hf) as (I2 & N2 & J2 & L2).
        assert (forall y, In y I1 -> between u y v) as K1.
        { intros y Hy W Hp. destruct (J1 y Hy) as [_ By]. destruct (Hbx Hf _ Hp) as (a & b & Q1 & Q2 & Hle).
          destruct (By _ Q1) as (a1 & a2 & Q3 & Q4 & Hle2). exists a1, (a2 + b).
          split; auto. split; [eapply path_app; eauto|lia]. }
        assert (forall y, In y I2 -> between u y v) as K2.
        { intros y Hy W Hp. destruct (J2 y Hy) as [_ By]. destruct (Hbx Hf _ Hp) as (a & b & Q1 & Q2 & Hle).
          destruct (By _ Q2) as (a1 & a2 & Q3 & Q4 & Hle2). exists (a + a1), a2.
          split; [eapply path_app; eauto|]. split; [auto|lia]. }
        assert (~ In x I1 /\ ~ In x I2) as [X1 X2].
        { split; intros Hy; [apply J1 in Hy|apply J2 in Hy]; tauto. }
        exists (I1 ++ x :: I2). split; [|split].
        * apply NoDup_Add with (a := x) (l := I1 ++ I2); [apply Add_app|]. split.
          -- clear L1 L2 K1 K2 X1 X2. induction I1 as [|y I1 IH]; simpl; auto.
             inversion N1; subst. constructor.
             ++ rewrite in_app_iff. intros [Hy|Hy]; [auto|].
                destruct (J1 y (or_introl eq_refl)) as [Yr Yb]. destruct (J2 y Hy) as [_ Yb2].
                apply (Hdis Hf y); auto. intros ->. auto.
             ++ apply IH; auto. intros z Hz. apply J1. right; auto.
          -- rewrite in_app_iff. tauto.
        * intros y Hy. rewrite map_app, in_app_iff. apply in_app_iff in Hy as [Hy|[<-|Hy]].
          -- split; [left; apply J1; auto|auto].
          -- split; [right; left; reflexivity|auto].
          -- split; [left; apply J2; auto|auto].
        * rewrite <- app_assoc. simpl. change (u :: I1 ++ x :: I2 ++ [v]) with ((u :: I1) ++ (x :: I2 ++ [v])).
          eapply walk_app; eauto.
      + right. intros Hf. split; [auto|exact (Hdis Hf)].
    - intros r d a Hr Ha. apply in_app_iff in Hr as [Hr|[<-|[]]]; [eapply (sp_rec _ _ S); eauto|].
      destruct a as [v w k]. destruct d; simpl in *.
      + apply (sp_arc _ _ S _ _ _ _ Ha).
      + apply (wf_sym _ _ Hw) in Ha. apply (sp_arc _ _ S _ _ _ _ Ha).
  Qed.

  Variable M : N.
  Hypothesis HM : forall e, In e E -> e_weight e <= M.

  Lemma walk_len_bound u v ns W : walk E u v ns W -> W <= (lenN ns - 1) * M.
  Proof.
    induction 1 as [u|u y v w ns W He Hw IH]; [apply N.le_0_l|].
    apply HM in He. simpl in He. destruct (walk_head _ _ _ _ _ Hw) as (r & ->).
    rewrite lenN_cons in IH. rewrite !lenN_cons.
    replace (lenN r + 1 - 1) with (lenN r) in IH by lia. replace (lenN r + 1 + 1 - 1) with (lenN r + 1) by lia. lia.
  Qed.

  Lemma bsimp_bnd R g : full -> pg_wf n g -> binv c n E R g -> bsimp R g -> pg_bnd ((n - 1) * M) g.
  Proof.
    intros Hf Hw Hb S u v w k Hin.
    destruct (sp_arc _ _ S _ _ _ _ Hin) as [A _]. destruct (A Hf) as (I & HN & HI & HW).
    apply walk_len_bound in HW. rewrite lenN_cons, lenN_app in HW. change (lenN [v]) with 1 in HW.
    assert (~ In u (map cnode R)) as Hu.
    { intros HR. apply (bi_iso _ _ _ _ _ Hb) in HR as [Ho _]. rewrite Ho in Hin. destruct Hin. }
    assert (~ In v (map cnode R)) as Hv.
    { intros HR. apply (bi_iso _ _ _ _ _ Hb) in HR as [_ Hi]. apply (wf_sym _ _ Hw) in Hin. rewrite Hi in Hin. destruct Hin. }
    pose proof (wf_arc _ _ Hw _ _ _ _ Hin) as (Hvn & Hne & _). pose proof (outs_src _ _ _ _ _ _ Hw Hin) as Hun.
    assert (lenN (u :: v :: I) <= n) as HL.
    { apply NoDup_bounded_len.
      - constructor; [|constructor; auto].
        + intros [->|Hy]; [congruence|]. apply HI in Hy. tauto.
        + intros Hy. apply HI in Hy. tauto.
      - intros y [<-|[<-|Hy]]; auto. apply HI in Hy as [Hy _]. apply in_map_iff in Hy as (r & <- & Hr).
        apply in_split in Hr as (R1 & R2 & HR).
        apply (ro_node _ _ _ _ _ (bi_rec _ _ _ _ _ Hb _ _ _ HR)). }
    rewrite !lenN_cons in HL. nia.
  Qed.
End Simple.
