(** * HierFacts: the sequence of contraction records and its completeness *)
From Verif Require Export ContractFacts FastGraph.
Open Scope N_scope.

(** What is stored when a node is contracted: the node, its out-arcs, its in-arcs. *)
Definition crec := (N * list Arc * list Arc)%type.
Definition cnode (r : crec) : N := fst (fst r).
Definition carcs (d : dir) (r : crec) : list Arc :=
  match d with Fwd => snd (fst r) | Bwd => snd r end.

Section Hier.
  Variables (c : cfg) (n : N) (E : list Edge).

  Inductive hierc : PrepGraph -> list crec -> PrepGraph -> Prop :=
  | hc_nil g : hierc g [] g
  | hc_cons g x g' R gend : x < n -> pg_wf n g -> cstep c n g x g' -> hierc g' R gend ->
      hierc g ((x, outs g x, ins g x) :: R) gend.

  Lemma hierc_snoc g R g1 x g2 : hierc g R g1 -> x < n -> pg_wf n g1 -> cstep c n g1 x g2 ->
    hierc g (R ++ [(x, outs g1 x, ins g1 x)]) g2.
  Proof.
    induction 1 as [g|g y g' R gend Hy Hw Hs Hh IH]; intros Hx Hw1 Hs1; simpl.
    - econstructor; eauto. constructor.
    - econstructor; eauto.
  Qed.

  (** upward edges recorded in direction [d] *)
  Definition upr (R : list crec) (d : dir) (u v w : N) : Prop :=
    exists r k, In r R /\ cnode r = u /\ In (mkArc v w k) (carcs d r).

  Lemma upr_cons r R d u v W : path (upr R d) u v W -> path (upr (r :: R) d) u v W.
  Proof.
    apply path_sub. intros a b w (r' & k & H1 & H2 & H3). exists r', k. simpl; auto.
  Qed.

  Lemma hierc_complete g R gend : hierc g R gend ->
    (forall u, outs gend u = []) ->
    forall u v W, path (arel g) u v W -> W < umax c ->
      exists m W1 W2, path (upr R Fwd) u m W1 /\ path (upr R Bwd) v m W2 /\ W1 + W2 <= W.
  Proof.
    induction 1 as [g|g x g' R gend Hx Hw Hs Hh IH]; intros Hend u v W Hp HW.
    - apply path_inv_nil in Hp as [-> ->].
      + exists u, 0, 0. repeat split; try constructor; lia.
      + intros v' w (k & Hin). rewrite Hend in Hin. destruct Hin.
    - specialize (IH Hend).
      destruct (N.eq_dec u x) as [->|Hu]; [destruct (N.eq_dec v x) as [->|Hv]|].
      + exists x, 0, 0. repeat split; try constructor; lia.
      + inversion Hp as [|a b t w W' Hr Hp' E1 E2 E3]; subst; [congruence|].
        destruct Hr as [k Hr]. pose proof (wf_arc _ _ Hw _ _ _ _ Hr) as (_ & Hne & _).
        destruct (cs_pres _ _ _ _ _ Hs _ _ _ Hp') as (W2 & HW2 & Hp2); auto; [lia|].
        destruct (IH _ _ _ Hp2) as (m & A & B & HA & HB & Hle); [lia|].
        exists m, (w + A), B. split; [|split; [apply upr_cons; auto|lia]].
        econstructor; [|apply upr_cons; eauto].
        exists (x, outs g x, ins g x), k. simpl; auto.
      + destruct (N.eq_dec v x) as [->|Hv].
        * apply path_last in Hp as [[E1 _]|(y & w & W' & Hp' & (k & Hr) & ->)]; [congruence|].
          pose proof (wf_arc _ _ Hw _ _ _ _ Hr) as (_ & Hne & _).
          destruct (cs_pres _ _ _ _ _ Hs _ _ _ Hp') as (W2 & HW2 & Hp2); auto; [lia|].
          destruct (IH _ _ _ Hp2) as (m & A & B & HA & HB & Hle); [lia|].
          exists m, A, (w + B). split; [apply upr_cons; auto|split; [|lia]].
          econstructor; [|apply upr_cons; eauto].
          exists (x, outs g x, ins g x), k. simpl. repeat split; auto.
          apply (wf_sym _ _ Hw). auto.
        * destruct (cs_pres _ _ _ _ _ Hs _ _ _ Hp) as (W2 & HW2 & Hp2); auto.
          destruct (IH _ _ _ Hp2) as (m & A & B & HA & HB & Hle); [lia|].
          exists m, A, B. split; [apply upr_cons; auto|split; [apply upr_cons; auto|lia]].
  Qed.

  (** ** Origin of arcs *)
  Definition agood (R : list crec) (u v w k : N) : Prop :=
    (k = umax c /\ In (mkEdge u v w) E) \/
    (k < n /\ w < umax c /\ exists r w1 k1 w2 k2, In r R /\ cnode r = k /\
       In (mkArc u w1 k1) (carcs Bwd r) /\ In (mkArc v w2 k2) (carcs Fwd r) /\ w = w1 + w2).

  Lemma agood_incl R R' u v w k : incl R R' -> agood R u v w k -> agood R' u v w k.
  Proof.
    intros Hi [H|(Hk & Hw & r & w1 & k1 & w2 & k2 & Hin & H)]; [left; auto|].
    right. split; auto. split; auto. exists r, w1, k1, w2, k2. split; auto.
  Qed.

  Definition pgood (R : list crec) (d : dir) (x : N) (a : Arc) : Prop :=
    match d with
    | Fwd => agood R x (a_adj a) (a_weight a) (a_center a)
    | Bwd => agood R (a_adj a) x (a_weight a) (a_center a)
    end.

  Record rec_ok (R : list crec) (r : crec) : Prop := mk_rec_ok {
    ro_node : cnode r < n;
    ro_nodup : forall d, NoDup (map a_adj (carcs d r));
    ro_arc : forall d a, In a (carcs d r) ->
       a_adj a < n /\ a_adj a <> cnode r /\ ~ In (a_adj a) (map cnode R) /\ 1 <= a_weight a /\
       pgood R d (cnode r) a
  }.
  Definition recs_ok (R : list crec) : Prop :=
    forall R1 r R2, R = R1 ++ r :: R2 -> rec_ok R1 r.

  Lemma recs_ok_nil : recs_ok [].
  Proof. intros R1 r R2 H. destruct R1; discriminate. Qed.
  Lemma recs_ok_snoc R r : recs_ok R -> rec_ok R r -> recs_ok (R ++ [r]).
  Proof.
    intros H1 H2 R1 r' R2 H. destruct (exists_last (l := r' :: R2)) as (l & y & Hl); [discriminate|].
    rewrite Hl, app_assoc in H. apply app_inj_tail in H as [HR <-].
    destruct R2 as [|z R2].
    - destruct l as [|a l]; [|destruct l; discriminate]. injection Hl as <-.
      rewrite app_nil_r in HR. subst; auto.
    - destruct l as [|a l]; [discriminate|]. injection Hl as <- Hl. subst R.
      eapply H1; eauto.
  Qed.

  Record binv (R : list crec) (g : PrepGraph) : Prop := mk_binv {
    bi_wf : pg_wf n g;
    bi_arc : forall u v w k, In (mkArc v w k) (outs g u) -> agood R u v w k;
    bi_iso : forall x, In x (map cnode R) -> outs g x = [] /\ ins g x = [];
    bi_rec : recs_ok R
  }.

  Lemma binv_step R g x g' : binv R g -> x < n -> cstep c n g x g' ->
    rec_ok R (x, outs g x, ins g x) /\ binv (R ++ [(x, outs g x, ins g x)]) g'.
  Proof.
    intros [Hw Ha Hi Hr] Hx Hs.
    assert (rec_ok R (x, outs g x, ins g x)) as Hrec.
    { constructor; simpl; auto.
      - intros []; simpl; [apply (wf_ndo _ _ Hw)|apply (wf_ndi _ _ Hw)].
      - intros [] [v w k] Hin; simpl in *.
        + pose proof (wf_arc _ _ Hw _ _ _ _ Hin) as (H1 & H2 & H3). repeat split; auto.
          intros HR. apply Hi in HR as [_ HR]. apply (wf_sym _ _ Hw) in Hin. rewrite HR in Hin.
          destruct Hin.
        + apply (wf_sym _ _ Hw) in Hin.
          pose proof (wf_arc _ _ Hw _ _ _ _ Hin) as (H1 & H2 & H3).
          pose proof (outs_src _ _ _ _ _ _ Hw Hin). repeat split; auto.
          intros HR. apply Hi in HR as [HR _]. rewrite HR in Hin. destruct Hin. }
    split; auto. constructor.
    - apply (cs_wf _ _ _ _ _ Hs).
    - intros u v w k Hin.
      apply (cs_origin _ _ _ _ _ Hs) in Hin as (Hu & Hv & [Hin|(-> & Hw1 & w1 & k1 & w2 & k2 & H1 & H2 & ->)]).
      + eapply agood_incl; [|apply Ha; eauto]. apply incl_appl, incl_refl.
      + right. split; auto. split; auto. exists (x, outs g x, ins g x), w1, k1, w2, k2.
        simpl. repeat split; auto.
        * apply in_app_iff; simpl; auto.
        * apply (wf_sym _ _ Hw). auto.
    - assert (outs g' x = [] /\ ins g' x = []) as Hx'.
      { split; [apply (cs_out _ _ _ _ _ Hs)|apply (cs_in _ _ _ _ _ Hs)]. }
      intros y Hy. rewrite map_app, in_app_iff in Hy. simpl in Hy.
      destruct Hy as [Hy|[Hy|[]]]; [|unfold cnode in Hy; simpl in Hy; subst y; auto].
      destruct (Hi y Hy) as [Ho Hin].
      destruct (N.eq_dec y x) as [->|Hyx]; auto.
      split.
      + destruct (outs g' y) as [|[v w k] l] eqn:El; auto. exfalso.
        assert (In (mkArc v w k) (outs g' y)) as Hin' by (rewrite El; simpl; auto).
        apply (cs_origin _ _ _ _ _ Hs) in Hin' as (Hu & Hv & [H1|(-> & Hw1 & w1 & k1 & w2 & k2 & H1 & H2 & ->)]);
          rewrite Ho in H1; destruct H1.
      + destruct (ins g' y) as [|[v w k] l] eqn:El; auto. exfalso.
        assert (In (mkArc v w k) (ins g' y)) as Hin' by (rewrite El; simpl; auto).
        apply (wf_sym _ _ (cs_wf _ _ _ _ _ Hs)) in Hin'.
        apply (cs_origin _ _ _ _ _ Hs) in Hin' as (Hu & Hv & [H1|(-> & Hw1 & w1 & k1 & w2 & k2 & H1 & H2 & ->)]).
        * apply (wf_sym _ _ Hw) in H1. rewrite Hin in H1. destruct H1.
        * apply (wf_sym _ _ Hw) in H2. rewrite Hin in H2. destruct H2.
    - apply recs_ok_snoc; auto.
  Qed.

  (** ** Shortcuts are necessary *)
  Variable full : Prop.

  (** the input edges between nodes satisfying [P] *)
  Definition erx (P : N -> Prop) (u v w : N) : Prop := edge_rel E u v w /\ P u /\ P v.

  (** In case of [full] an arc with center [k] is lighter than all paths of input edges over nodes
      that were contracted after [k]. *)
  Definition amin (R : list crec) (u v w k : N) : Prop :=
    k = umax c \/
    exists R1 r R2, R = R1 ++ r :: R2 /\ cnode r = k /\
      (full -> forall W, path (erx (fun y => ~ In y (map cnode (R1 ++ [r])))) u v W -> w < W).

  Lemma amin_app R R' u v w k : amin R u v w k -> amin (R ++ R') u v w k.
  Proof.
    intros [->|(R1 & r & R2 & -> & G)]; [left; auto|]. right. exists R1, r, (R2 ++ R').
    rewrite <- app_assoc. auto.
  Qed.

  Definition pmin (R : list crec) (d : dir) (x : N) (a : Arc) : Prop :=
    match d with
    | Fwd => amin R x (a_adj a) (a_weight a) (a_center a)
    | Bwd => amin R (a_adj a) x (a_weight a) (a_center a)
    end.

  Record bmin (R : list crec) (g : PrepGraph) : Prop := mk_bmin {
    bm_keep : forall u v w, erx (fun y => ~ In y (map cnode R)) u v w -> exists w', arel g u v w' /\ w' <= w;
    bm_arc : forall u v w k, In (mkArc v w k) (outs g u) -> amin R u v w k;
    bm_rec : forall R1 r R2 d a, R = R1 ++ r :: R2 -> In a (carcs d r) -> pmin R1 d (cnode r) a
  }.

  Lemma bmin_step R g x g' : pg_wf n g -> bmin R g -> csmin full g x g' ->
    bmin (R ++ [(x, outs g x, ins g x)]) g'.
  Proof.
    intros Hw [Hk Ha Hr] [Ck Cn].
    assert (forall y, ~ In y (map cnode (R ++ [(x, outs g x, ins g x)])) -> ~ In y (map cnode R) /\ y <> x) as Hsp.
    { intros y Hy. rewrite map_app, in_app_iff in Hy. simpl in Hy. split; [tauto|]. intros ->. apply Hy. right; left. reflexivity. }
    constructor.
    - intros u v w (He & Hu & Hv). apply Hsp in Hu as [Hu Hux]. apply Hsp in Hv as [Hv Hvx].
      destruct (Hk u v w) as (w' & Hr' & Hw'); [split; auto|].
      destruct (Ck u v w' Hr' Hux Hvx) as (w'' & Hr'' & Hw''). exists w''. split; auto. lia.
    - intros u v w k Hin. apply Cn in Hin as [Hin|(-> & Hu & Hv & Hmin)]; [apply amin_app; auto|].
      right. exists R, (x, outs g x, ins g x), []. split; auto. split; auto.
      intros Hf W Hp.
      assert (exists W', W' <= W /\ path (arelx g x) u v W') as (W' & HW' & Hp').
      { clear Hmin Hu Hv. induction Hp as [u|u y v w' W (He & Hu & Hy) Hp IH].
        - exists 0. split; [lia|constructor].
        - destruct IH as (W' & HW' & Hp'). apply Hsp in Hu as [Hu Hux]. apply Hsp in Hy as [Hy Hyx].
          destruct (Hk u y w') as (w'' & Hr'' & Hw''); [split; auto|].
          exists (w'' + W'). split; [lia|]. econstructor; eauto. split; auto. }
      specialize (Hmin Hf W' Hp'). lia.
    - intros R1 r R2 d a Heq Hin.
      destruct (exists_last (l := r :: R2)) as (l & y & Hl); [discriminate|].
      rewrite Hl, app_assoc in Heq. apply app_inj_tail in Heq as [HR <-].
      destruct R2 as [|z R2].
      + destruct l as [|b l]; [|destruct l; discriminate]. injection Hl as ->.
        rewrite app_nil_r in HR. subst R1. destruct a as [v w k]. destruct d; simpl in *; [apply Ha; auto|].
        apply Ha. apply (wf_sym _ _ Hw). auto.
      + destruct l as [|b l]; [discriminate|]. injection Hl as <- Hl. subst R. eapply Hr; eauto.
  Qed.
End Hier.

Lemma csmin_imp (P Q : Prop) g x g' : (Q -> P) -> csmin P g x g' -> csmin Q g x g'.
Proof.
  intros Hi [Ck Cn]. constructor; auto. intros u v w k Hin.
  destruct (Cn _ _ _ _ Hin) as [|(-> & Hu & Hv & G)]; auto. right.
  repeat (split; auto).
Qed.
