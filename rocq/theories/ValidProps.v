(** * ValidProps: proofs about graphs that pass the checks of SpecValid *)
From Verif Require Import SpecValid HeapImpl TermFacts TermProps RelProps PrepareProps ApiFacts UnpackFacts QueryResult Fg32Props ModeMono MetaProps.
Open Scope N_scope.

Lemma NoDup_pos {A} (l : list A) : NoDup l -> forall i j x, getN l i = Some x -> getN l j = Some x -> i = j.
Proof.
  intros Hnd i j x Hi Hj. rewrite getN_nth in Hi, Hj. pose proof (proj1 (NoDup_nth_error l) Hnd) as HN.
  assert (N.to_nat i = N.to_nat j); [|lia]. apply HN; [|congruence]. apply nth_error_Some. congruence.
Qed.

Lemma plain_In c fg e : In e (plain_edges c fg) <-> exists d ed, In ed (fg_edges fg d) /\ fe_replaced_in ed = umax c /\
  e = mkEdge (tail_of d ed) (head_of d ed) (fe_weight ed).
Proof.
  unfold plain_edges, INVALID_EDGE. rewrite in_flat_map. split.
  - intros (d & _ & Hd). apply in_flat_map in Hd as (ed & H1 & H2). exists d, ed.
    destruct (N.eqb_spec (fe_replaced_in ed) (umax c)); [|destruct H2]. destruct H2 as [<-|[]]. auto.
  - intros (d & ed & H1 & H2 & ->). exists d. split; [destruct d; simpl; auto|]. apply in_flat_map. exists ed. split; auto.
    rewrite H2, N.eqb_refl. simpl. auto.
Qed.

Lemma path_inv R u v W : path R u v W -> (u = v /\ W = 0) \/ exists y w W0, R u y w /\ path R y v W0 /\ W = w + W0.
Proof. destruct 1 as [|u v t w W H1 H2]; [left; auto|right]. exists v, w, W. auto. Qed.

Section Valid.
  Variables (c : cfg) (fg : FastGraph).
  Hypothesis Hwf : well_formed c fg.
  Let n := fg_num_nodes fg.

  Lemma v_len : lenN (fg_ranks fg) = n.
  Proof.
    destruct (wf_ranks _ _ Hwf) as [H1 H2].
    assert (incl (fg_ranks fg) (rangeN 0 n)) as A.
    { intros x Hx. apply rangeN_In. apply H2 in Hx. fold n in Hx. lia. }
    assert (incl (rangeN 0 n) (fg_ranks fg)) as B.
    { intros x Hx. apply rangeN_In in Hx. apply H2. fold n. lia. }
    pose proof (NoDup_incl_length H1 A) as LA.
    pose proof (NoDup_incl_length (rangeN_NoDup 0 n) B) as LB.
    pose proof (lenN_rangeN 0 n) as LC. unfold lenN in *. lia.
  Qed.
  Lemma v_get v : v < n -> getN (fg_ranks fg) v = Some (rk fg v).
  Proof. intros Hv. apply (rk_get fg n); auto. apply v_len. Qed.
  Lemma v_get' v r : getN (fg_ranks fg) v = Some r -> v < n /\ r = rk fg v.
  Proof. intros Hv. split; [|unfold rk; rewrite Hv; auto]. apply getN_Some_lt in Hv. rewrite v_len in Hv. auto. Qed.
  Lemma v_rank v : v < n -> rk fg v < n.
  Proof. intros Hv. apply (proj2 (wf_ranks _ _ Hwf)). eapply getN_In. apply v_get; auto. Qed.
  Lemma v_inj u v : u < n -> v < n -> rk fg u = rk fg v -> u = v.
  Proof.
    intros Hu Hv He. apply (NoDup_pos _ (proj1 (wf_ranks _ _ Hwf)) u v (rk fg u)); [apply v_get; auto|].
    rewrite He. apply v_get; auto.
  Qed.
  Lemma v_surj r : r < n -> exists x, x < n /\ rk fg x = r.
  Proof.
    intros Hr. apply (proj2 (wf_ranks _ _ Hwf)) in Hr. apply In_getN in Hr as (x & _ & Hx).
    apply v_get' in Hx as [Hx ->]. eauto.
  Qed.
  Lemma v_first d r : r <= n -> exists b, getN (fg_first_edge_ids fg d) r = Some b.
  Proof. intros Hr. apply getN_lt. rewrite (ewf_first_len _ _ _ (wf_edges _ _ Hwf d)). fold n. lia. Qed.
  Lemma v_mono d k : forall r b e, getN (fg_first_edge_ids fg d) r = Some b -> getN (fg_first_edge_ids fg d) (r + N.of_nat k) = Some e -> b <= e.
  Proof.
    induction k as [|k IH]; intros r b e Hb He; [rewrite N.add_0_r in He; assert (b = e) by congruence; lia|].
    replace (r + N.of_nat (S k)) with (r + N.of_nat k + 1) in He by lia.
    pose proof (getN_Some_lt _ _ _ He) as Hlt. destruct (getN_lt (fg_first_edge_ids fg d) (r + N.of_nat k)) as [m Hm]; [lia|].
    pose proof (IH _ _ _ Hb Hm). pose proof (ewf_sorted _ _ _ (wf_edges _ _ Hwf d) _ _ _ Hm He). lia.
  Qed.
  Lemma v_le d r r' b e : r <= r' -> getN (fg_first_edge_ids fg d) r = Some b -> getN (fg_first_edge_ids fg d) r' = Some e -> b <= e.
  Proof. intros Hr Hb He. apply (v_mono d (N.to_nat (r' - r)) r b e Hb). replace (r + _) with r' by lia. auto. Qed.
  Lemma v_slice d v : v < n -> exists b e, slice fg d v b e /\ b <= e <= lenN (fg_edges fg d).
  Proof.
    intros Hv. pose proof (v_rank v Hv) as Hr. destruct (v_first d (rk fg v)) as [b Hb]; [lia|].
    destruct (v_first d (rk fg v + 1)) as [e He]; [lia|]. exists b, e.
    split; [exists (rk fg v); split; [apply v_get; auto|auto]|].
    split; [apply (v_le d (rk fg v) (rk fg v + 1)); auto; lia|].
    apply (v_le d (rk fg v + 1) n); auto; [lia|]. apply (ewf_last _ _ _ (wf_edges _ _ Hwf d)).
  Qed.
  Lemma v_iff d id ed v b e : getN (fg_edges fg d) id = Some ed -> slice fg d v b e -> (b <= id < e <-> fe_base ed = v).
  Proof.
    intros Hed Hsl. destruct (ewf_group _ _ _ (wf_edges _ _ Hwf d) _ _ Hed) as (r & b' & e' & G1 & G2 & G3 & G4).
    destruct Hsl as (r' & S1 & S2 & S3). split.
    - intros Hid. destruct (v_get' _ _ G1) as [A1 A2]. destruct (v_get' _ _ S1) as [B1 B2].
      apply v_inj; auto. rewrite <- A2, <- B2. destruct (N.lt_trichotomy r r') as [Hlt|[Heq|Hlt]]; auto.
      + pose proof (v_le d (r + 1) r' _ _ ltac:(lia) G3 S2). lia.
      + pose proof (v_le d (r' + 1) r _ _ ltac:(lia) S3 G2). lia.
    - intros <-. replace r' with r in * by congruence. replace b with b' by congruence. replace e with e' by congruence. auto.
  Qed.
  Lemma v_edge d ed : In ed (fg_edges fg d) ->
    fe_base ed < n /\ fe_adj ed < n /\ 1 <= fe_weight ed <= umax c /\ rk fg (fe_base ed) < rk fg (fe_adj ed).
  Proof.
    intros Hed. destruct (ewf_up _ _ _ (wf_edges _ _ Hwf d) _ Hed) as (r & r' & H1 & H2 & H3).
    apply v_get' in H1 as [? ->]. apply v_get' in H2 as [? ->]. pose proof (ewf_weight _ _ _ (wf_edges _ _ Hwf d) _ Hed). auto.
  Qed.
  Lemma v_umax : umax c / 2 < umax c /\ n < umax c.
  Proof.
    pose proof (wf_size _ _ Hwf) as Hs. fold n in Hs. assert (0 < umax c).
    { destruct (umax c); [change (0 / 2) with 0 in Hs; lia|lia]. }
    pose proof (N.div_lt (umax c) 2). lia.
  Qed.
  Lemma v_src d ed : In ed (fg_edges fg d) -> edge_src c (plain_edges c fg) fg d ed.
  Proof.
    intros Hed. pose proof v_umax as [HU _].
    destruct (ewf_replaced _ _ _ (wf_edges _ _ Hwf d) _ Hed) as [[H1 H2]|(ei & eo & H1 & H2 & H3 & H4 & H5 & H6)].
    - left. split; auto. split; auto. apply plain_In. exists d, ed. split; auto.
    - right. exists ei, eo. pose proof (ewf_len _ _ _ (wf_edges _ _ Hwf Bwd)) as LB.
      pose proof (ewf_len _ _ _ (wf_edges _ _ Hwf Fwd)) as LF. simpl in LB, LF.
      pose proof (getN_Some_lt _ _ _ H1). pose proof (getN_Some_lt _ _ _ H2).
      simpl in H3, H4, H5. split; [lia|]. split; [lia|]. split; auto. split; auto. split; auto.
      split; [destruct d; auto|]. split; [destruct d; auto|]. split; auto.
      destruct (v_edge Bwd ei (getN_In _ _ _ H1)) as (_ & _ & _ & R1).
      destruct (v_edge Fwd eo (getN_In _ _ _ H2)) as (_ & _ & _ & R2).
      destruct d; simpl in *; [rewrite <- H3; auto|rewrite H4, <- H5; auto].
  Qed.

  Lemma wf_str : fg_str c (plain_edges c fg) n fg.
  Proof.
    constructor; auto.
    - apply v_umax.
    - apply v_len.
    - apply v_rank.
    - apply v_slice.
    - intros d id ed v b e G1 G2 G3. eapply v_iff; eauto.
    - intros d id ed G. apply getN_In in G. apply v_edge in G. tauto.
    - intros d id ed G. apply getN_In in G. apply v_src in G as [(A1 & A2 & A3)|(ei & eo & A)]; [left; eauto|].
      right. exists ei, eo. tauto.
    - intros d. pose proof (ewf_len _ _ _ (wf_edges _ _ Hwf d)). pose proof v_umax. lia.
  Qed.

  Lemma wf_base : fg_base c (plain_edges c fg) n fg.
  Proof.
    constructor; auto.
    - apply (wf_size _ _ Hwf).
    - apply v_len.
    - apply v_rank.
    - apply v_inj.
    - intros d. apply (ewf_first_len _ _ _ (wf_edges _ _ Hwf d)).
    - intros d. apply (ewf_first _ _ _ (wf_edges _ _ Hwf d)).
    - intros d. apply (ewf_last _ _ _ (wf_edges _ _ Hwf d)).
    - apply v_slice.
    - apply v_iff.
    - intros d id ed G. apply getN_In in G. eapply v_edge; eauto.
    - intros d. apply (ewf_once _ _ _ (wf_edges _ _ Hwf d)).
    - intros d id ed G. apply getN_In in G. apply v_src; auto.
    - intros d. apply (ewf_len _ _ _ (wf_edges _ _ Hwf d)).
  Qed.

  (** *** Up and down *)
  Hypothesis Htri : triangles c fg.

  (** stored edges between nodes of rank at least [m] *)
  Definition conn (m u v w : N) : Prop :=
    (up fg Fwd u v w \/ up fg Bwd v u w) /\ m <= rk fg u /\ m <= rk fg v.

  Lemma up_In d u v w : up fg d u v w <-> exists ed, In ed (fg_edges fg d) /\ fe_base ed = u /\ fe_adj ed = v /\ fe_weight ed = w.
  Proof.
    split.
    - intros (id & ed & H1 & H2). exists ed. split; auto. eapply getN_In; eauto.
    - intros (ed & H1 & H2). apply In_getN in H1 as (id & _ & H1). exists id, ed. auto.
  Qed.
  Lemma up_edge d u v w : up fg d u v w -> u < n /\ v < n /\ rk fg u < rk fg v.
  Proof. intros H. apply up_In in H as (ed & H1 & <- & <- & _). apply v_edge in H1. tauto. Qed.
  Lemma ascent_path d u v W : ascent fg d u v W -> path (up fg d) u v W.
  Proof. induction 1; [constructor|]. econstructor; [|eauto]. apply up_In. eauto. Qed.
  Lemma path_ascent d u v W : path (up fg d) u v W -> ascent fg d u v W.
  Proof. induction 1 as [|u v t w W H]; [constructor|]. apply up_In in H as (ed & H1 & <- & <- & <-). econstructor; eauto. Qed.
  Lemma up_rank d u v W : path (up fg d) u v W -> rk fg u <= rk fg v.
  Proof. induction 1 as [|u v t w W H]; [lia|]. apply up_edge in H. lia. Qed.
  Lemma up_conn d m u v W : path (up fg d) u v W -> m <= rk fg u ->
    match d with Fwd => path (conn m) u v W | Bwd => path (conn m) v u W end.
  Proof.
    induction 1 as [|u v t w W H Hp IH]; intros Hm; [destruct d; constructor|].
    pose proof (up_edge _ _ _ _ H) as (_ & _ & Hr). specialize (IH ltac:(lia)).
    destruct d; [econstructor; eauto; split; auto; lia|].
    rewrite N.add_comm. eapply path_app; [exact IH|]. replace w with (w + 0) by lia. econstructor; [|constructor].
    split; auto. lia.
  Qed.

  Lemma conn_lt k u v w : conn k u v w -> u < n /\ v < n /\ rk fg u <> rk fg v.
  Proof. intros [[H|H] _]; apply up_edge in H; repeat split; try tauto; lia. Qed.

  Section Low.
    Variables (m x : N).
    Hypothesis (Hx : x < n) (Hm : rk fg x = m).

    Lemma conn_up u v w : conn m u v w -> u <> x -> v <> x -> conn (m + 1) u v w.
    Proof.
      intros H Hu Hv. pose proof (conn_lt _ _ _ _ H) as (Lu & Lv & _). destruct H as (A & B & C).
      assert (rk fg u <> m) by (intros E; apply Hu, v_inj; auto; lia).
      assert (rk fg v <> m) by (intros E; apply Hv, v_inj; auto; lia). split; auto. lia.
    Qed.
    Lemma conn_to a w : conn m a x w -> up fg Bwd x a w.
    Proof. intros ([H|H] & B & C); auto. apply up_edge in H. lia. Qed.
    Lemma conn_from a w : conn m x a w -> up fg Fwd x a w.
    Proof. intros ([H|H] & B & C); auto. apply up_edge in H. lia. Qed.

    Lemma valley a b w1 w2 : conn m a x w1 -> conn m x b w2 -> w1 + w2 < umax c ->
      exists W', W' <= w1 + w2 /\ path (conn (m + 1)) a b W'.
    Proof.
      intros H1 H2 Hw. apply conn_to in H1. apply conn_from in H2.
      pose proof (up_edge _ _ _ _ H1) as (_ & La & Ra). pose proof (up_edge _ _ _ _ H2) as (_ & Lb & Rb).
      destruct (N.eq_dec a b) as [->|Hne]; [exists 0; split; [lia|constructor]|].
      apply up_In in H1 as (ei & I1 & I2 & <- & <-). apply up_In in H2 as (eo & O1 & O2 & <- & <-).
      destruct (Htri ei eo I1 O1 ltac:(congruence) Hne Hw) as (p & W1 & W2 & P1 & P2 & P3).
      exists (W1 + W2). split; [auto|]. apply ascent_path in P1, P2.
      eapply path_app; [apply (up_conn Fwd); eauto; lia|apply (up_conn Bwd); eauto; lia].
    Qed.

    Lemma lift_path u v W : path (conn m) u v W -> v <> x -> W < umax c ->
      (u <> x -> exists W', W' <= W /\ path (conn (m + 1)) u v W') /\
      (u = x -> forall a w, conn m a x w -> w + W < umax c -> exists W', W' <= w + W /\ path (conn (m + 1)) a v W').
    Proof.
      induction 1 as [u|u y v w W Hc Hp IH]; intros Hv HW.
      - split; [intros _; exists 0; split; [lia|constructor]|congruence].
      - destruct (IH Hv ltac:(lia)) as [IH1 IH2]. clear IH. split.
        + intros Hu. destruct (N.eq_dec y x) as [->|Hy].
          * destruct (IH2 eq_refl u w Hc) as (W' & A & B); [lia|]. eauto.
          * destruct (IH1 Hy) as (W' & A & B). exists (w + W'). split; [lia|]. econstructor; eauto. apply conn_up; auto.
        + intros -> a w0 Ha Hs.
          assert (y <> x) as Hy by (intros ->; apply conn_lt in Hc; tauto).
          destruct (IH1 Hy) as (W' & A & B). destruct (valley a y w0 w Ha Hc ltac:(lia)) as (W2 & C & D).
          exists (W2 + W'). split; [lia|]. eapply path_app; eauto.
    Qed.

    Lemma first_edge v W : path (conn m) x v W -> v <> x -> W < umax c ->
      exists y w W', conn m x y w /\ path (conn (m + 1)) y v W' /\ w + W' <= W.
    Proof.
      intros Hp Hv HW. destruct (path_inv _ _ _ _ Hp) as [[E _]|(y & w & W0 & Hc & Hp' & ->)]; [congruence|].
      assert (y <> x) as Hy by (intros ->; apply conn_lt in Hc; tauto).
      destruct (proj1 (lift_path _ _ _ Hp' Hv ltac:(lia)) Hy) as (W' & A & B). exists y, w, W'. split; auto. split; auto. lia.
    Qed.
    Lemma last_edge u W : path (conn m) u x W -> u <> x -> W < umax c ->
      exists y w W', path (conn (m + 1)) u y W' /\ conn m y x w /\ W' + w <= W.
    Proof.
      assert (forall u v W, path (conn m) u v W -> v = x -> W < umax c ->
        (u <> x -> exists y w W', path (conn (m + 1)) u y W' /\ conn m y x w /\ W' + w <= W) /\
        (u = x -> forall a w0, conn m a x w0 -> w0 + W < umax c -> exists y w W', path (conn (m + 1)) a y W' /\ conn m y x w /\ W' + w <= w0 + W)) as G.
      { clear u W. induction 1 as [u|u y v w W Hc Hp IH]; intros Hv HW.
        - split; [congruence|]. intros -> a w0 Ha _. exists a, w0, 0. split; [constructor|]. split; auto. lia.
        - destruct (IH Hv ltac:(lia)) as [IH1 IH2]. clear IH. split.
          + intros Hu. destruct (N.eq_dec y x) as [->|Hy].
            * destruct (IH2 eq_refl u w Hc) as (z & w' & W' & A & B & C); [lia|]. exists z, w', W'. auto.
            * destruct (IH1 Hy) as (z & w' & W' & A & B & C). exists z, w', (w + W'). split; [econstructor; eauto; apply conn_up; auto|].
              split; auto. lia.
          + intros -> a w0 Ha Hs.
            assert (y <> x) as Hy by (intros ->; apply conn_lt in Hc; tauto).
            destruct (IH1 Hy) as (z & w' & W' & A & B & C). destruct (valley a y w0 w Ha Hc ltac:(lia)) as (W2 & D & F).
            exists z, w', (W2 + W'). split; [eapply path_app; eauto|]. split; auto. lia. }
      intros Hp Hu HW. exact (proj1 (G _ _ _ Hp eq_refl HW) Hu).
    Qed.
  End Low.

  Lemma up_down k : forall m u v W, n <= m + N.of_nat k -> path (conn m) u v W -> W < umax c ->
    exists p W1 W2, path (up fg Fwd) u p W1 /\ path (up fg Bwd) v p W2 /\ W1 + W2 <= W.
  Proof.
    induction k as [|k IH]; intros m u v W Hk Hp HW.
    - destruct (path_inv _ _ _ _ Hp) as [[-> ->]|(y & w & W0 & Hc & _)].
      + exists v, 0, 0. split; [constructor|]. split; [constructor|lia].
      + pose proof (conn_lt _ _ _ _ Hc) as (Lu & _ & _). destruct Hc as (_ & B & _). pose proof (v_rank u Lu). lia.
    - destruct (N.le_gt_cases n m) as [Hge|Hlt].
      { apply (IH m u v W); auto. lia. }
      destruct (v_surj m Hlt) as (x & Hx & Hm).
      destruct (N.eq_dec u x) as [->|Hu]; destruct (N.eq_dec v x) as [->|Hv].
      + exists x, 0, 0. split; [constructor|]. split; [constructor|lia].
      + destruct (first_edge m x Hx Hm v W Hp Hv HW) as (y & w & W' & A & B & C).
        destruct (IH (m + 1) y v W') as (p & W1 & W2 & D & F & G); [lia|auto|lia|].
        exists p, (w + W1), W2. split; [econstructor; eauto; eapply conn_from; eauto|]. split; auto. lia.
      + destruct (last_edge m x Hx Hm u W Hp Hu HW) as (y & w & W' & A & B & C).
        destruct (IH (m + 1) u y W') as (p & W1 & W2 & D & F & G); [lia|auto|lia|].
        exists p, W1, (w + W2). split; auto. split; [econstructor; eauto; eapply conn_to; eauto|]. lia.
      + destruct (proj1 (lift_path m x Hx Hm _ _ _ Hp Hv HW) Hu) as (W' & A & B).
        destruct (IH (m + 1) u v W') as (p & W1 & W2 & D & F & G); [lia|auto|lia|].
        exists p, W1, W2. split; auto. split; auto. lia.
  Qed.

  Lemma wf_ok : fg_ok c (plain_edges c fg) n fg.
  Proof.
    constructor; [exact wf_base|].
    - intros u v W Hp HW. apply (up_down (N.to_nat n) 0 u v W); [lia| |auto].
      clear HW. induction Hp as [|u v t w W H Hp IH]; [constructor|]. econstructor; [|eauto].
      unfold edge_rel in H. apply plain_In in H as (d & ed & H1 & H2 & [= -> -> ->]). split; [|lia].
      destruct d; [left|right]; apply up_In; exists ed; auto.
  Qed.
End Valid.

Lemma ok_valid c E n fg : fg_ok c E n fg -> well_formed c fg /\ triangles c fg.
Proof.
  intros Hok. pose proof (umax_pos c E n fg Hok) as [HU HU2]. pose proof (ok_n _ _ _ _ Hok) as Hn.
  assert (forall v, v < n -> getN (fg_ranks fg) v = Some (rk fg v)) as Hget by (intros v; apply rk_get; apply (ok_lr _ _ _ _ Hok)).
  split.
  - constructor.
    + rewrite Hn. apply (ok_cap _ _ _ _ Hok).
    + rewrite Hn. split.
      * apply NoDup_getN. intros i j x Hi Hj. pose proof (getN_Some_lt _ _ _ Hi) as Li. pose proof (getN_Some_lt _ _ _ Hj) as Lj.
        rewrite (ok_lr _ _ _ _ Hok) in Li, Lj. rewrite Hget in Hi, Hj by auto. apply (ok_inj _ _ _ _ Hok); auto. congruence.
      * intros r. split.
        -- intros Hr. apply In_getN in Hr as (i & Li & Hi). rewrite (ok_lr _ _ _ _ Hok) in Li. rewrite Hget in Hi by auto.
           injection Hi as <-. apply (ok_rank _ _ _ _ Hok); auto.
        -- intros Hr. destruct (rk_surj _ _ _ _ r (ok_shape _ _ _ _ Hok) Hr) as (v & Hv & <-). eapply getN_In. apply Hget; auto.
    + intros d. constructor.
      * apply (ok_len _ _ _ _ Hok).
      * rewrite Hn. apply (ok_lf _ _ _ _ Hok).
      * apply (ok_first _ _ _ _ Hok).
      * rewrite Hn. apply (ok_last _ _ _ _ Hok).
      * intros r b e Hb He. pose proof (getN_Some_lt _ _ _ He) as Hlt. rewrite (ok_lf _ _ _ _ Hok) in Hlt.
        destruct (rk_surj _ _ _ _ r (ok_shape _ _ _ _ Hok) ltac:(lia)) as (v & Hv & <-).
        destruct (ok_slice _ _ _ _ Hok d v Hv) as (b' & e' & (r & S1 & S2 & S3) & S4). rewrite Hget in S1 by auto.
        injection S1 as <-. replace b with b' by congruence. replace e with e' by congruence. lia.
      * intros id ed Hed. destruct (ok_edge _ _ _ _ Hok d id ed Hed) as (Hb & _).
        destruct (ok_slice _ _ _ _ Hok d _ Hb) as (b' & e' & Hs & _). pose proof Hs as (r & S1 & S2 & S3).
        exists r, b', e'. split; auto. split; auto. split; auto. apply (ok_iff _ _ _ _ Hok d id ed _ _ _ Hed Hs). auto.
      * intros ed Hed. apply In_getN in Hed as (id & _ & Hed). destruct (ok_edge _ _ _ _ Hok d id ed Hed) as (Hb & Ha & _ & Hr).
        exists (rk fg (fe_base ed)), (rk fg (fe_adj ed)). auto.
      * intros ed Hed. apply In_getN in Hed as (id & _ & Hed). apply (ok_edge _ _ _ _ Hok d id ed Hed).
      * apply (ok_uniq _ _ _ _ Hok).
      * intros ed Hed. apply In_getN in Hed as (id & _ & Hed).
        destruct (ok_src _ _ _ _ Hok d id ed Hed) as [(H1 & H2 & _)|(ei & eo & _ & _ & H1 & H2 & H3 & H4 & H5 & H6 & _)]; [auto|].
        right. exists ei, eo. destruct d; simpl in *; repeat split; auto; congruence.
  - intros ei eo Hi Ho Hb Hne HW. apply In_getN in Hi as (i & _ & Hi). apply In_getN in Ho as (o & _ & Ho).
    pose proof (edge_path c E n fg Hok Bwd i ei Hi) as Pi. pose proof (edge_path c E n fg Hok Fwd o eo Ho) as Po. simpl in Pi, Po.
    rewrite <- Hb in Po. destruct (ok_complete _ _ _ _ Hok _ _ _ (path_app _ _ _ _ _ _ Pi Po) HW) as (p & W1 & W2 & A & B & C).
    exists p, W1, W2. split; [|split; auto]; apply path_ascent; auto.
Qed.

Lemma C75_right_proof c fg ss ts r : debug_build c = true -> well_formed c fg -> triangles c fg -> answer_multi c fg ss ts r ->
  match r with
  | Some p =>
      sp_get_weight p < WEIGHT_MAX c /\
      total (plain_edges c fg) ss ts (sp_get_source p) (sp_get_target p) (sp_get_nodes p) (sp_get_weight p) /\
      (forall s t ns W, total (plain_edges c fg) ss ts s t ns W -> sp_get_weight p <= W)
  | None => forall s t ns W, total (plain_edges c fg) ss ts s t ns W -> WEIGHT_MAX c <= W
  end.
Proof.
  intros Hd Hw Ht Ha. pose proof (answer_fg_ok c _ _ _ ss ts r Hd (wf_ok c fg Hw Ht) Ha) as HA.
  destruct r as [p|]; [|exact HA]. destruct HA as (A1 & A2 & A3). split; [exact A2|]. split; [exact A1|exact A3].
Qed.

Lemma C75_safe_proof c fg H hinv pc ss ts : well_formed c fg -> heap_laws H hinv -> calculator c (fg_num_nodes fg) pc ->
  ss <> [] -> ts <> [] -> (forall v w, In (v, w) (ss ++ ts) -> v < fg_num_nodes fg) ->
  match pc_calc_path_multiple c H pc fg ss ts with
  | Ok (_, r) => forall p, r = Some p -> (exists w, In (sp_get_source p, w) ss) /\ (exists w, In (sp_get_target p, w) ts) /\
      exists W, walk (plain_edges c fg) (sp_get_source p) (sp_get_target p) (sp_get_nodes p) W
  | Panic r => debug_build c = true /\ r = POverflow
  | Diverge => False
  end.
Proof.
  intros Hw HL Hc Hs Ht Hv. pose proof (wf_str c fg Hw) as S. set (n := fg_num_nodes fg) in *.
  pose proof (calculator_ok _ _ _ Hc) as Hpc.
  assert (query_ok pc fg ss ts) as Hq.
  { destruct Hpc as (Hpn & _). unfold query_ok. rewrite Hpn. fold n.
    split; auto. split; auto. split; auto. split; intros v w Hi; apply (Hv v w), in_app_iff; auto. }
  assert (debug_build c = false \/ (debug_build c = true /\ POverflow = POverflow)) as HP by (destruct (debug_build c); auto).
  pose proof (calc_term c H hinv HL (plain_edges c fg) n fg (fun r => debug_build c = true /\ r = POverflow) (or_intror (conj HP S)) pc ss ts Hpc (or_intror Hq)
    (or_intror (str_upward _ _ _ _ S)) (str_no_cycle _ _ _ _ S)) as W.
  destruct (pc_calc_path_multiple c H pc fg ss ts) as [[pc' r]|r|]; simpl in W; auto.
  destruct W as [_ W]. intros p ->. exact (W S p eq_refl).
Qed.

Lemma C75_prepared_proof c ops ig fg : debug_build c = true -> frozen_graph c ops ig -> prepared c ig fg ->
  well_formed c fg /\ triangles c fg.
Proof. intros Hd Hf Hp. exact (ok_valid _ _ _ _ (prepared_ok c ops ig fg Hd Hf Hp)). Qed.

Lemma C75_iff_proof c fg M : debug_build c = true -> well_formed c fg ->
  (forall d e, In e (fg_edges fg d) -> fe_weight e <= M) -> 2 * (fg_num_nodes fg * M) <= umax c ->
  (triangles c fg <-> forall s t r, answer c fg s t r ->
     match r with
     | Some p => forall ns W, walk (plain_edges c fg) s t ns W -> sp_get_weight p <= W
     | None => forall ns W, walk (plain_edges c fg) s t ns W -> WEIGHT_MAX c <= W
     end).
Proof.
  intros Hd Hw HM Hn. set (n := fg_num_nodes fg) in *. split.
  - intros Ht s t r Ha. apply answer_as_multi in Ha. pose proof (C75_right_proof c fg _ _ r Hd Hw Ht Ha) as G.
    assert (forall ns W, walk (plain_edges c fg) s t ns W -> total (plain_edges c fg) [(s, 0)] [(t, 0)] s t ns W) as T.
    { intros ns W HW. exists 0, 0, W. simpl. repeat split; auto. lia. }
    destruct r as [p|]; [destruct G as (_ & _ & G)|]; intros ns W HW; eapply G; eauto.
  - intros HA ei eo Hi Ho Hb Hne HW. pose proof (wf_base c fg Hw) as Hbase. fold n in Hbase.
    apply In_getN in Hi as (i & _ & Hi). apply In_getN in Ho as (o & _ & Ho).
    pose proof (edge_path c _ n fg Hbase Bwd i ei Hi) as Pi. pose proof (edge_path c _ n fg Hbase Fwd o eo Ho) as Po. simpl in Pi, Po.
    rewrite <- Hb in Po. destruct (path_walk _ _ _ _ (path_app _ _ _ _ _ _ Pi Po)) as (ns & Hwalk).
    destruct (ok_edge _ _ _ _ Hbase Bwd i ei Hi) as (_ & Lu & _). destruct (ok_edge _ _ _ _ Hbase Fwd o eo Ho) as (_ & Lv & _).
    set (u := fe_adj ei) in *. set (v := fe_adj eo) in *.
    assert (wp (ovf False) (pc_calc_path_multiple c list_heap (create_calculator c fg) fg [(u, 0)] [(v, 0)])
      (fun '(pc', r) => pc_ok n pc' /\ (fg_ok c (plain_edges c fg) n fg -> answer_ok c (plain_edges c fg) [(u, 0)] [(v, 0)] r) /\
          forall sp, r = Some sp -> climbs fg [(u, 0)] [(v, 0)] (sp_weight sp))) as HC.
    { apply (calc_base c list_heap (fun _ => True) list_heap_laws Hd _ n fg Hbase [(u, 0)] [(v, 0)] (fun _ => 0) (fun r => r * M) (n * M) False); try discriminate.
      - intros [] x w [[= <- <-]|[]]; auto.
      - intros [] x w [[= <- <-]|[]] _; lia.
      - intros d id ed HG. pose proof (HM d ed (getN_In _ _ _ HG)). destruct (ok_edge _ _ _ _ Hbase d id ed HG) as (_ & _ & _ & Hr). nia.
      - intros x Hx. pose proof (ok_rank _ _ _ _ Hbase x Hx). nia.
      - lia.
      - apply pc_new_ok. }
    destruct (wp_ovf_false _ _ HC) as ([pc' r] & HE & _ & _ & Hcl).
    assert (answer c fg u v r) as Ha.
    { exists list_heap, (fun _ => True). split; [exact list_heap_laws|]. right. exists n, (create_calculator c fg), pc'.
      split; [constructor; reflexivity|exact HE]. }
    specialize (HA u v r Ha). destruct r as [p|].
    + destruct (Hcl p eq_refl) as (s & sw & t & tw & m & W1 & W2 & [[= <- <-]|[]] & [[= <- <-]|[]] & P1 & P2 & P3).
      exists m, W1, W2. split; [apply path_ascent; auto|]. split; [apply path_ascent; auto|].
      specialize (HA ns _ Hwalk). unfold sp_get_weight in HA. lia.
    + specialize (HA ns _ Hwalk). unfold WEIGHT_MAX in *. lia.
Qed.
