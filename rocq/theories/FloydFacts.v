(** * FloydFacts: the reference Floyd-Warshall computes all distances *)
From Verif Require Export PathFacts BuilderFacts AnswerFacts FloydWarshall.
From Coq Require Import Lia.
Open Scope N_scope.

(** ** Walks whose interior nodes are below [k] *)
Fixpoint D (R : N -> N -> N -> Prop) (k : nat) (i j W : N) : Prop :=
  match k with
  | O => (i = j /\ W = 0) \/ R i j W
  | S k' => D R k' i j W \/
      exists W1 W2, D R k' i (N.of_nat k') W1 /\ D R k' (N.of_nat k') j W2 /\ W = W1 + W2
  end.

Lemma D_refl R k i : D R k i i 0.
Proof. induction k; simpl; auto. Qed.
Lemma D_edge (R : N -> N -> N -> Prop) k i j w : R i j w -> D R k i j w.
Proof. intros; induction k; simpl; auto. Qed.
Lemma D_path R k : forall i j W, D R k i j W -> path R i j W.
Proof.
  induction k as [|k IH]; simpl; intros i j W.
  - intros [(-> & ->)|HR]; [constructor|apply path_one; auto].
  - intros [HD|(W1 & W2 & H1 & H2 & ->)]; auto. eapply path_app; eauto.
Qed.
Lemma D_comp R k : forall x i j W1 W2, x < N.of_nat k -> D R k i x W1 -> D R k x j W2 ->
  exists W', W' <= W1 + W2 /\ D R k i j W'.
Proof.
  induction k as [|k IH]; intros x i j W1 W2 Hx H1 H2; [lia|].
  simpl in H1, H2. destruct (N.eq_dec x (N.of_nat k)) as [->|Hne].
  - assert (exists A, A <= W1 /\ D R k i (N.of_nat k) A) as (A & HA & HDA).
    { destruct H1 as [H1|(A & B & HA & HB & ->)]; [exists W1|exists A]; split; auto; lia. }
    assert (exists B, B <= W2 /\ D R k (N.of_nat k) j B) as (B & HB & HDB).
    { destruct H2 as [H2|(A' & B & HA' & HB & ->)]; [exists W2|exists B]; split; auto; lia. }
    exists (A + B). split; [lia|]. simpl. right. exists A, B. auto.
  - assert (x < N.of_nat k) as Hx' by lia.
    destruct H1 as [H1|(A & B & HA & HB & ->)], H2 as [H2|(A' & B' & HA' & HB' & ->)].
    + destruct (IH _ _ _ _ _ Hx' H1 H2) as (W' & Hle & HD). exists W'; split; auto. simpl; auto.
    + destruct (IH _ _ _ _ _ Hx' H1 HA') as (W' & Hle & HD). exists (W' + B'); split; [lia|].
      simpl. right. exists W', B'; auto.
    + destruct (IH _ _ _ _ _ Hx' HB H2) as (W' & Hle & HD). exists (A + W'); split; [lia|].
      simpl. right. exists A, W'; auto.
    + exists (A + B'); split; [lia|]. simpl. right. exists A, B'; auto.
Qed.
Lemma path_D (R : N -> N -> N -> Prop) n : (forall u v w, R u v w -> v < N.of_nat n) ->
  forall i j W, path R i j W -> exists W', W' <= W /\ D R n i j W'.
Proof.
  intros Hn. induction 1 as [|u v t w W Hr Hp (W' & Hle & HD)].
  - exists 0; split; [lia|apply D_refl].
  - destruct (D_comp R n v u t w W') as (W2 & Hle2 & HD2); auto.
    + eapply Hn; eauto.
    + apply D_edge; auto.
    + exists W2; split; auto; lia.
Qed.

(** ** They can be taken to be simple *)
Section Simple.
  Variables (E : list Edge) (n M : N).
  Hypothesis HE : forall u v w, In (mkEdge u v w) E -> u < n /\ v < n /\ 1 <= w <= M.

  Definition via (k i j : N) : list Edge :=
    filter (fun e => ((e_from e =? i) || (e_from e <? k)) && ((e_to e =? j) || (e_to e <? k))) E.
  Lemma via_In k i j u v w : In (mkEdge u v w) (via k i j) <->
    In (mkEdge u v w) E /\ (u = i \/ u < k) /\ (v = j \/ v < k).
  Proof.
    unfold via. rewrite filter_In, andb_true_iff, !orb_true_iff, !N.eqb_eq, !N.ltb_lt. simpl. tauto.
  Qed.
  Lemma D_via k : forall i j W, D (edge_rel E) k i j W ->
    path (edge_rel (via (N.of_nat k) i j)) i j W.
  Proof.
    induction k as [|k IH]; simpl; intros i j W.
    - intros [(-> & ->)|HR]; [constructor|]. apply path_one. apply via_In. auto.
    - assert (forall a b u v w, (a = i \/ a = N.of_nat k) -> (b = j \/ b = N.of_nat k) ->
        edge_rel (via (N.of_nat k) a b) u v w ->
        edge_rel (via (N.pos (Pos.of_succ_nat k)) i j) u v w) as Hsub.
      { intros a b u v w Ha Hb Hin. apply via_In in Hin as (H1 & H2 & H3). apply via_In.
        split; auto. lia. }
      intros [HD|(W1 & W2 & H1 & H2 & ->)].
      + eapply path_sub; [|apply IH; eauto]. intros u v w. apply Hsub; auto.
      + eapply path_app; (eapply path_sub; [|apply IH; eauto]); intros u v w; apply Hsub; auto.
  Qed.
  Lemma via_D k i j : forall u W, path (edge_rel (via (N.of_nat k) i j)) u j W ->
    exists W', W' <= W /\ D (edge_rel E) k u j W'.
  Proof.
    intros u W HP. remember j as t eqn:Et in HP at 2.
    induction HP as [u|u v t w W Hr Hp IH].
    - exists 0; split; [lia|]. subst. apply D_refl.
    - destruct (IH Et) as (W' & Hle & HD). apply via_In in Hr as (H1 & _ & H3).
      destruct (N.ltb_spec v (N.of_nat k)) as [Hv|Hv].
      + destruct (D_comp (edge_rel E) k v u j w W') as (W2 & Hle2 & HD2); auto.
        * apply D_edge; auto.
        * exists W2; split; auto; lia.
      + assert (v = j) as -> by (destruct H3; [auto|lia]). exists w; split; [lia|]. apply D_edge; auto.
  Qed.

  Lemma walk_weight F : (forall e, In e F -> e_weight e <= M) ->
    forall u v ns W, walk F u v ns W -> 1 <= lenN ns /\ W <= (lenN ns - 1) * M.
  Proof.
    intros HF. induction 1 as [u|u v t w ns W Hin HW (IH1 & IH2)].
    - unfold lenN; simpl. lia.
    - rewrite lenN_cons. apply HF in Hin. simpl in Hin.
      replace (lenN ns + 1 - 1) with (lenN ns - 1 + 1) by lia. lia.
  Qed.
  Lemma walk_nodes F : (forall u v w, In (mkEdge u v w) F -> u < n /\ v < n) ->
    forall u v ns W, walk F u v ns W -> u < n -> forall x, In x ns -> x < n.
  Proof.
    intros HF. induction 1 as [u|u v t w ns W Hin HW IH]; intros Hu x.
    - intros [<-|[]]; auto.
    - apply HF in Hin as (_ & Hv). intros [<-|Hx]; auto.
  Qed.

  (** Every path can be replaced by a simple one that is at most as heavy. *)
  Lemma simple_walk F : (forall u v w, In (mkEdge u v w) F -> 1 <= w) ->
    forall k u v ns W, (N.to_nat W < k)%nat -> walk F u v ns W ->
    exists ns' W', walk F u v ns' W' /\ NoDup ns' /\ W' <= W.
  Proof.
    intros HF. induction k as [|k IH]; intros u v ns W Hk HW; [lia|].
    destruct HW as [u|u x v w ns W Hin HW].
    - exists [u], 0. split; [constructor|]. split; [repeat constructor; auto|lia].
    - pose proof (HF _ _ _ Hin) as Hw.
      destruct (IH x v ns W) as (ns' & W' & HW' & HND & Hle); [lia|auto|].
      destruct (in_dec N.eq_dec u ns') as [Hu|Hu].
      + destruct (In_getN _ _ Hu) as (p & _ & Hp).
        destruct (walk_split _ _ _ _ _ _ _ HW' Hp) as (n1 & n2 & W1 & W2 & _ & H2 & HWW & _ & _).
        destruct (IH u v n2 W2) as (ns'' & W'' & HW'' & HND' & Hle'); [lia|auto|].
        exists ns'', W''. split; auto. split; auto. lia.
      + exists (u :: ns'), (w + W'). split; [econstructor; eauto|]. split; [constructor; auto|lia].
  Qed.

  Lemma D_bounded k i j W : i < n -> D (edge_rel E) k i j W ->
    exists W', W' <= W /\ W' <= (n - 1) * M /\ D (edge_rel E) k i j W'.
  Proof.
    intros Hi HD. apply D_via in HD. apply path_walk in HD as (ns & HW).
    destruct (simple_walk (via (N.of_nat k) i j)) with (k := S (N.to_nat W)) (u := i) (v := j) (ns := ns) (W := W)
      as (ns' & W' & HW' & HND & Hle); auto.
    { intros u v w Hin. apply via_In in Hin as (Hin & _). apply HE in Hin. lia. }
    destruct (walk_weight (via (N.of_nat k) i j)) with (u := i) (v := j) (ns := ns') (W := W') as (Hl & HWl); auto.
    { intros [u v w] Hin. apply via_In in Hin as (Hin & _). apply HE in Hin. simpl. lia. }
    assert (lenN ns' <= n) as Hln.
    { apply NoDup_bounded_len; auto. eapply walk_nodes with (F := via (N.of_nat k) i j); eauto.
      intros u v w Hin. apply via_In in Hin as (Hin & _). apply HE in Hin. lia. }
    apply walk_path, via_D in HW' as (W2 & Hle2 & HD2).
    exists W2. split; [lia|]. split; auto.
    etransitivity; [exact Hle2|]. etransitivity; [exact HWl|]. apply N.mul_le_mono_r. lia.
  Qed.
End Simple.

(** ** The matrix *)
Section FW.
  Variables (c : cfg) (n : N) (E : list Edge) (M : N) (allow : Prop).
  Hypothesis Hdbg : debug_build c = true.
  Hypothesis Hnn : n * n <= umax c.
  Hypothesis Hu0 : 1 <= umax c.
  Hypothesis HE : forall u v w, In (mkEdge u v w) E -> u < n /\ v < n /\ u <> v /\ 1 <= w <= M.
  Hypothesis HEu : forall u v w w', In (mkEdge u v w) E -> In (mkEdge u v w') E -> w = w'.
  Hypothesis HEm : forall u v w, In (mkEdge u v w) E -> w <= umax c.
  Hypothesis Hov : umax c < 2 * n * M -> allow.
  Let R := edge_rel E.

  Definition val (m : list N) (i j : N) : N :=
    match getN m (i * n + j) with Some x => x | None => umax c end.

  Lemma index_lt i j : i < n -> j < n -> i * n + j < n * n.
  Proof.
    clear Hdbg Hnn Hu0 HE HEu HEm Hov R.
    intros Hi Hj. assert ((i + 1) * n <= n * n) by (apply N.mul_le_mono_r; lia). lia.
  Qed.
  Lemma fw_index_ok i j : i < n -> j < n -> fw_index c n i j = Ok (i * n + j).
  Proof.
    clear Hu0 HE HEu HEm Hov R Hdbg.
    intros Hi Hj. pose proof (index_lt i j Hi Hj). unfold fw_index, umul, uadd.
    destruct (N.leb_spec (i * n) (umax c)); [|lia]. cbn [bind].
    destruct (N.leb_spec (i * n + j) (umax c)); [auto|lia].
  Qed.
  Lemma index_inj i j a b : j < n -> b < n -> i * n + j = a * n + b -> i = a /\ j = b.
  Proof.
    clear Hdbg Hnn Hu0 HE HEu HEm Hov R.
    intros Hj Hb He. apply (N.div_mod_unique n i a j b); auto. lia.
  Qed.
  Lemma idx_val m i j : lenN m = n * n -> i < n -> j < n -> idx m (i * n + j) = Ok (val m i j).
  Proof.
    clear Hdbg Hnn Hu0 HE HEu HEm Hov R.
    intros Hl Hi Hj. pose proof (index_lt i j Hi Hj). unfold idx, val.
    destruct (getN_lt m (i * n + j)) as (x & ->); [lia|auto].
  Qed.
  Lemma val_set m i j y a b : lenN m = n * n -> i < n -> j < n -> a < n -> b < n ->
    val (setN m (i * n + j) y) a b = if (a =? i) && (b =? j) then y else val m a b.
  Proof.
    clear Hdbg Hnn Hu0 HE HEu HEm Hov R.
    intros Hl Hi Hj Ha Hb. pose proof (index_lt i j Hi Hj). unfold val. rewrite getN_setN.
    destruct (N.eqb_spec (i * n + j) (a * n + b)) as [He|He].
    - apply index_inj in He as (-> & ->); auto. rewrite !N.eqb_refl. simpl.
      destruct (N.ltb_spec (a * n + b) (lenN m)); [auto|lia].
    - simpl. destruct (N.eqb_spec a i) as [->|]; simpl; auto.
      destruct (N.eqb_spec b j) as [->|]; simpl; auto. congruence.
  Qed.
  Lemma upd_val (m : list N) i j y : lenN m = n * n -> i < n -> j < n ->
    upd m (i * n + j) y = Ok (setN m (i * n + j) y).
  Proof.
    clear Hdbg Hnn Hu0 HE HEu HEm Hov R. intros Hl Hi Hj. apply upd_eq. pose proof (index_lt i j Hi Hj). lia. Qed.

  (** After the stages below [k]. *)
  Record fw_inv (k : nat) (m : list N) : Prop := mk_fw_inv {
    fi_len : lenN m = n * n;
    fi_max : forall i j, i < n -> j < n -> val m i j <= umax c;
    fi_sound : forall i j, i < n -> j < n -> val m i j < umax c ->
      exists W, W <= val m i j /\ D R k i j W;
    fi_diag : forall i, i < n -> val m i i = 0 \/ (k = 0%nat /\ val m i i = umax c);
    fi_compl : forall i j W, i < n -> j < n -> i <> j -> D R k i j W -> W < umax c ->
      val m i j <= W
  }.

  Definition before (i j a b : N) : Prop := a < i \/ (a = i /\ b < j).

  (** Within stage [k], which started with [m0], when all pairs before [(i, j)] are processed. *)
  Record fw_mid (k : nat) (m0 : list N) (i j : N) (m : list N) : Prop := mk_fw_mid {
    fm_len : lenN m = n * n;
    fm_max : forall a b, a < n -> b < n -> val m a b <= umax c;
    fm_sound : forall a b, a < n -> b < n -> val m a b < umax c ->
      exists W, W <= val m a b /\ D R (S k) a b W;
    fm_diag : forall a, a < n -> val m a a = 0 \/ val m a a = umax c;
    fm_mono : forall a b, a < n -> b < n -> val m a b <= val m0 a b;
    fm_col : forall a, a < n -> a <> N.of_nat k -> val m a (N.of_nat k) < umax c ->
      val m0 a (N.of_nat k) < umax c;
    fm_row : forall b, b < n -> b <> N.of_nat k -> val m (N.of_nat k) b < umax c ->
      val m0 (N.of_nat k) b < umax c;
    fm_proc : forall a b, a < n -> b < n -> before i j a b ->
      (a = b -> val m a b = 0) /\
      (val m0 a (N.of_nat k) < umax c -> val m0 (N.of_nat k) b < umax c ->
       val m a b <= val m0 a (N.of_nat k) + val m0 (N.of_nat k) b)
  }.

  Lemma fw_mid_set k m0 i j m y : N.of_nat k < n -> i < n -> j < n ->
    fw_mid k m0 i j m ->
    y <= val m i j ->
    (y < umax c -> exists W, W <= y /\ D R (S k) i j W) ->
    (i = j -> y = 0) ->
    (j = N.of_nat k -> i <> j -> y < umax c -> val m0 i j < umax c) ->
    (i = N.of_nat k -> i <> j -> y < umax c -> val m0 i j < umax c) ->
    (val m0 i (N.of_nat k) < umax c -> val m0 (N.of_nat k) j < umax c ->
       y <= val m0 i (N.of_nat k) + val m0 (N.of_nat k) j) ->
    fw_mid k m0 i (j + 1) (setN m (i * n + j) y).
  Proof.
    intros Hk Hi Hj Hm Hy Hs Hd Hc Hr Hp. destruct Hm as [Hl Hmx Hso Hdi Hmo Hco Hro Hpr].
    constructor.
    - rewrite lenN_setN; auto.
    - intros a b Ha Hb. rewrite val_set by auto. destruct (N.eqb_spec a i); destruct (N.eqb_spec b j); simpl; auto.
      specialize (Hmx i j Hi Hj). lia.
    - intros a b Ha Hb. rewrite val_set by auto.
      destruct (N.eqb_spec a i) as [->|]; destruct (N.eqb_spec b j) as [->|]; cbn [andb]; auto.
    - intros a Ha. rewrite val_set by auto.
      destruct (N.eqb_spec a i) as [Ea|]; destruct (N.eqb_spec a j) as [Eb|]; cbn [andb]; auto.
      left. apply Hd. congruence.
    - intros a b Ha Hb. rewrite val_set by auto.
      destruct (N.eqb_spec a i) as [->|]; destruct (N.eqb_spec b j) as [->|]; cbn [andb]; auto.
      specialize (Hmo i j Hi Hj). lia.
    - intros a Ha Hak. rewrite val_set by auto.
      destruct (N.eqb_spec a i) as [->|]; destruct (N.eqb_spec (N.of_nat k) j) as [Ej|]; cbn [andb]; auto.
      rewrite Ej in *. auto.
    - intros b Hb Hbk. rewrite val_set by auto.
      destruct (N.eqb_spec (N.of_nat k) i) as [Ei|]; destruct (N.eqb_spec b j) as [->|]; cbn [andb]; auto.
      rewrite Ei in *. auto.
    - intros a b Ha Hb Hbef. rewrite val_set by auto.
      destruct (N.eqb_spec a i) as [->|]; destruct (N.eqb_spec b j) as [->|]; cbn [andb]; auto;
        apply Hpr; auto; unfold before in *; lia.
  Qed.

  Lemma fw_step_spec k m0 i j m : N.of_nat k < n -> i < n -> j < n ->
    fw_inv k m0 -> fw_mid k m0 i j m ->
    wp (lim allow) (fw_step c n (N.of_nat k) i m j) (fw_mid k m0 i (j + 1)).
  Proof.
    intros Hk Hi Hj I0 Hm. unfold fw_step.
    assert (exists m1, (if i =? j then p <- fw_index c n i j ;; upd m p 0 else Ok m) = Ok m1 /\
      fw_mid k m0 i j m1 /\ (i = j -> val m1 i j = 0)) as (m1 & -> & Hm1 & Hd1).
    { destruct (N.eqb_spec i j) as [<-|Hij].
      2:{ exists m. split; auto. split; auto. congruence. }
      rewrite fw_index_ok by auto. cbn [bind]. rewrite upd_val by (auto; apply (fm_len _ _ _ _ _ Hm)).
      eexists; split; [reflexivity|]. split.
      - assert (fw_mid k m0 i (i + 1) (setN m (i * n + i) 0)) as [A1 A2 A3 A4 A5 A6 A7 A8].
        { apply fw_mid_set; auto; try lia.
          - intros _. exists 0; split; [lia|apply D_refl]. }
        constructor; auto. intros a b Ha Hb Hbef. apply A8; auto. unfold before in *. lia.
      - intros _. rewrite val_set by (auto; apply (fm_len _ _ _ _ _ Hm)). rewrite !N.eqb_refl. auto. }
    cbn [bind]. rewrite fw_index_ok by auto. cbn [bind].
    assert (lenN m1 = n * n) as Hl1 by apply (fm_len _ _ _ _ _ Hm1).
    rewrite idx_val by auto. cbn [bind]. rewrite fw_index_ok by auto. cbn [bind].
    rewrite idx_val by auto. cbn [bind]. unfold WEIGHT_MAX.
    pose proof (fm_max _ _ _ _ _ Hm1 i (N.of_nat k) Hi Hk) as Mik.
    pose proof (fm_max _ _ _ _ _ Hm1 (N.of_nat k) j Hk Hj) as Mkj.
    pose proof (fm_mono _ _ _ _ _ Hm1 i (N.of_nat k) Hi Hk) as Lik.
    pose proof (fm_mono _ _ _ _ _ Hm1 (N.of_nat k) j Hk Hj) as Lkj.
    destruct ((val m1 i (N.of_nat k) =? umax c) || (val m1 (N.of_nat k) j =? umax c)) eqn:Einf.
    { simpl. destruct Hm1 as [A1 A2 A3 A4 A5 A6 A7 A8]. constructor; auto.
      intros a b Ha Hb Hbef.
      assert (before i j a b \/ (a = i /\ b = j)) as [Hb1|(-> & ->)] by (unfold before in *; lia); auto.
      split; auto. intros H1 H2. apply orb_true_iff in Einf as [Ei|Ei]; apply N.eqb_eq in Ei; lia. }
    apply orb_false_iff in Einf as (Eik & Ekj). apply N.eqb_neq in Eik. apply N.eqb_neq in Ekj.
    rewrite fw_index_ok by auto. cbn [bind]. rewrite idx_val by auto. cbn [bind].
    assert (forall a b, a < n -> b < n -> a = N.of_nat k \/ b = N.of_nat k -> val m1 a b < umax c ->
      val m1 a b <= n * M) as Hbnd.
    { intros a b Ha Hb Hab Hlt. destruct (N.eq_dec a b) as [<-|Hne].
      - destruct (fm_diag _ _ _ _ _ Hm1 a Ha) as [Ed|Ed]; rewrite Ed in *; lia.
      - assert (val m0 a b < umax c) as Hlt0.
        { destruct Hab as [->| ->]; [apply (fm_row _ _ _ _ _ Hm1)|apply (fm_col _ _ _ _ _ Hm1)]; auto. }
        destruct (fi_sound _ _ I0 a b Ha Hb Hlt0) as (W & HW & HD).
        destruct (D_bounded E n M) with (k := k) (i := a) (j := b) (W := W) as (W' & HW' & HWb & HD'); auto.
        { intros u v w Hin. apply HE in Hin. lia. }
        pose proof (fi_compl _ _ I0 a b W' Ha Hb Hne HD') as Hc.
        pose proof (fm_mono _ _ _ _ _ Hm1 a b Ha Hb).
        assert ((n - 1) * M <= n * M) by (apply N.mul_le_mono_r; lia). lia. }
    apply wp_bind, wp_uadd; auto.
    { intros Ho. apply Hov. pose proof (Hbnd i (N.of_nat k) Hi Hk (or_intror eq_refl)).
      pose proof (Hbnd (N.of_nat k) j Hk Hj (or_introl eq_refl)). lia. }
    intros Hsum. rewrite upd_val by auto. simpl wp. apply fw_mid_set; auto.
    - lia.
    - intros Hlt. destruct (N.min_spec (val m1 i j) (val m1 i (N.of_nat k) + val m1 (N.of_nat k) j))
        as [(Hm' & ->)|(Hm' & Emin)].
      + apply (fm_sound _ _ _ _ _ Hm1); auto. lia.
      + rewrite Emin in *.
        destruct (fm_sound _ _ _ _ _ Hm1 i (N.of_nat k)) as (W1 & HW1 & HD1); auto; [lia|].
        destruct (fm_sound _ _ _ _ _ Hm1 (N.of_nat k) j) as (W2 & HW2 & HD2); auto; [lia|].
        destruct (D_comp R (S k) (N.of_nat k) i j W1 W2) as (W' & Hle & HD'); auto; [lia|].
        exists W'; split; auto; lia.
    - intros Hij. rewrite Hd1 by auto. lia.
    - intros -> Hne Hlt. apply (fm_col _ _ _ _ _ Hm1); auto. lia.
    - intros -> Hne Hlt. apply (fm_row _ _ _ _ _ Hm1); auto. lia.
    - intros H1 H2. lia.
  Qed.

  Lemma fw_stage k m0 : N.of_nat k < n -> fw_inv k m0 ->
    wp (lim allow) (foldM (fun m i => foldM (fw_step c n (N.of_nat k) i) (rangeN 0 n) m) (rangeN 0 n) m0)
      (fw_inv (S k)).
  Proof.
    intros Hk I0. eapply wp_mono.
    - apply wp_foldM_range with (I := fun i m => fw_mid k m0 i 0 m).
      + lia.
      + destruct I0 as [A1 A2 A3 A4 A5]. constructor; auto.
        * intros a b Ha Hb Hlt. destruct (A3 a b Ha Hb Hlt) as (W & HW & HD). exists W; split; auto.
          simpl; auto.
        * intros a Ha. destruct (A4 a Ha) as [|(_ & ->)]; auto.
        * intros; lia.
        * intros a b _ _ Hb. unfold before in Hb. lia.
      + intros i m Hi Hm. eapply wp_mono.
        * apply wp_foldM_range with (I := fun j m => fw_mid k m0 i j m); auto; [lia|].
          intros j m' Hj Hm'. apply fw_step_spec; auto; lia.
        * intros m' [A1 A2 A3 A4 A5 A6 A7 A8]. constructor; auto.
          intros a b Ha Hb Hbef. apply A8; auto. unfold before in *. lia.
    - intros m [A1 A2 A3 A4 A5 A6 A7 A8].
      assert (forall a b, a < n -> b < n ->
        (a = b -> val m a b = 0) /\
        (val m0 a (N.of_nat k) < umax c -> val m0 (N.of_nat k) b < umax c ->
         val m a b <= val m0 a (N.of_nat k) + val m0 (N.of_nat k) b)) as Hpr.
      { intros a b Ha Hb. apply A8; auto. left; auto. }
      constructor; auto.
      + intros i Hi. left. apply Hpr; auto.
      + intros i j W Hi Hj Hij [HD|(W1 & W2 & H1 & H2 & ->)] HW.
        * pose proof (fi_compl _ _ I0 i j W Hi Hj Hij HD HW). specialize (A5 i j Hi Hj). lia.
        * destruct (N.eq_dec i (N.of_nat k)) as [Ei|Ei].
          { subst i. pose proof (fi_compl _ _ I0 _ j W2 Hi Hj Hij H2). specialize (A5 _ j Hi Hj). lia. }
          destruct (N.eq_dec j (N.of_nat k)) as [Ej|Ej].
          { subst j. pose proof (fi_compl _ _ I0 i _ W1 Hi Hj Hij H1). specialize (A5 i _ Hi Hj). lia. }
          assert (val m0 i (N.of_nat k) <= W1) as L1 by (apply (fi_compl _ _ I0); auto; lia).
          assert (val m0 (N.of_nat k) j <= W2) as L2 by (apply (fi_compl _ _ I0); auto; lia).
          destruct (Hpr i j Hi Hj) as (_ & Hp). lia.
  Qed.

  (** The matrix after the edges have been written. *)
  Lemma fw_edges m : lenN m = n * n -> (forall i j, i < n -> j < n -> val m i j = umax c) ->
    wp (lim allow) (foldM (fun m e => p <- fw_index c n (e_from e) (e_to e) ;; upd m p (e_weight e)) E m)
      (fw_inv 0).
  Proof.
    intros Hl Hinf. eapply wp_mono.
    - apply wp_foldM with (I := fun pre m => lenN m = n * n /\
        (forall i j, i < n -> j < n ->
          (exists w, In (mkEdge i j w) pre /\ val m i j = w) \/
          ((forall w, ~ In (mkEdge i j w) pre) /\ val m i j = umax c))).
      + split; auto.
      + intros pre [u v w] post m' El (Hl' & HI). cbn [e_from e_to e_weight].
        assert (In (mkEdge u v w) E) as Hin by (rewrite El; apply in_app_iff; right; left; auto).
        destruct (HE _ _ _ Hin) as (Hu & Hv & _). rewrite fw_index_ok by auto. cbn [bind].
        rewrite upd_val by auto. simpl. split; [rewrite lenN_setN; auto|].
        intros i j Hi Hj. rewrite val_set by auto.
        destruct (N.eqb_spec i u) as [->|Hiu]; destruct (N.eqb_spec j v) as [->|Hjv]; simpl.
        * left. exists w. split; auto. apply in_app_iff; right; left; auto.
        * destruct (HI u j Hi Hj) as [(w' & H1 & H2)|(H1 & H2)]; [left; exists w'|right]; split; auto.
          -- apply in_app_iff; auto.
          -- intros w'. rewrite in_app_iff. intros [Hx|[[= ? ?]|[]]]; [eapply H1; eauto|congruence].
        * destruct (HI i v Hi Hj) as [(w' & H1 & H2)|(H1 & H2)]; [left; exists w'|right]; split; auto.
          -- apply in_app_iff; auto.
          -- intros w'. rewrite in_app_iff. intros [Hx|[[= ? ?]|[]]]; [eapply H1; eauto|congruence].
        * destruct (HI i j Hi Hj) as [(w' & H1 & H2)|(H1 & H2)]; [left; exists w'|right]; split; auto.
          -- apply in_app_iff; auto.
          -- intros w'. rewrite in_app_iff. intros [Hx|[[= ? ?]|[]]]; [eapply H1; eauto|congruence].
    - intros m' (Hl' & HI). constructor; auto.
      + intros i j Hi Hj. destruct (HI i j Hi Hj) as [(w & H1 & ->)|(_ & ->)]; [|lia].
        eapply HEm; eauto.
      + intros i j Hi Hj Hlt. destruct (HI i j Hi Hj) as [(w & H1 & Ew)|(_ & Ew)]; [|lia].
        exists w. split; [lia|]. right. exact H1.
      + intros i Hi. right. split; auto. destruct (HI i i Hi Hi) as [(w & H1 & Ew)|(_ & Ew)]; auto.
        apply HE in H1. lia.
      + intros i j W Hi Hj Hij [(He & _)|HD] HW; [congruence|].
        destruct (HI i j Hi Hj) as [(w & H1 & ->)|(H1 & _)].
        * rewrite (HEu _ _ _ _ H1 HD). lia.
        * exfalso. eapply H1; eauto.
  Qed.

  Lemma fw_stages m0 : fw_inv 0 m0 ->
    wp (lim allow)
      (foldM (fun m k => foldM (fun m i => foldM (fw_step c n k i) (rangeN 0 n) m) (rangeN 0 n) m)
         (rangeN 0 n) m0)
      (fw_inv (N.to_nat n)).
  Proof.
    intros I0. apply wp_foldM_range with (I := fun k m => fw_inv (N.to_nat k) m); auto; [lia|].
    intros k m Hk Hm. replace (N.to_nat (k + 1)) with (S (N.to_nat k)) by lia.
    pose proof (fw_stage (N.to_nat k) m) as G. rewrite N2Nat.id in G. apply G; auto. lia.
  Qed.

  (** Reading the final matrix. *)
  Lemma fw_final m s t : fw_inv (N.to_nat n) m -> s < n -> t < n ->
    val m s t <= umax c /\
    (val m s t < umax c -> is_dist E s t (val m s t)) /\
    (val m s t = umax c -> forall ns W, walk E s t ns W -> umax c <= W).
  Proof.
    intros [A1 A2 A3 A4 A5] Hs Ht.
    assert (forall ns W, walk E s t ns W -> val m s t <= W \/ umax c <= W) as Hmin.
    { intros ns W HW. destruct (N.leb_spec (umax c) W) as [|Hlt]; auto. left.
      destruct (N.eq_dec s t) as [<-|Hst].
      - destruct (A4 s Hs) as [->|(Hn0 & _)]; lia.
      - apply walk_path in HW. destruct (path_D R (N.to_nat n)) with (i := s) (j := t) (W := W) as (W' & Hle & HD); auto.
        { intros u v w Hin. apply HE in Hin. lia. }
        specialize (A5 s t W' Hs Ht Hst HD). lia. }
    split; auto. split.
    - intros Hlt. destruct (A3 s t Hs Ht Hlt) as (W & HW & HD).
      apply D_path, path_walk in HD as (ns & HWalk).
      assert (W = val m s t) as -> by (destruct (Hmin _ _ HWalk); lia).
      split; [eauto|]. intros ns' W' HW'. destruct (Hmin _ _ HW'); lia.
    - intros Hinf ns W HW. destruct (Hmin _ _ HW); lia.
  Qed.
End FW.
