(** * OracleReuse: FloydWarshall objects that are prepared more than once *)
From Verif Require Export OracleProps.
From Coq Require Import ZArith Lia.
Open Scope N_scope.

Record fw_base (c : cfg) (n : N) (fw : FloydWarshall) : Prop := mk_fw_base {
  fb_nn : n * n <= umax c;
  fb_n : fw_num_nodes fw = n;
  fb_len : lenN (fw_matrix fw) = n * n;
  fb_max : forall i j, i < n -> j < n -> val c n (fw_matrix fw) i j <= umax c;
  fb_diag : forall i, i < n -> val c n (fw_matrix fw) i i = 0 \/ val c n (fw_matrix fw) i i = umax c;
  fb_pos : forall i j, i < n -> j < n -> i <> j -> 1 <= val c n (fw_matrix fw) i j
}.

Lemma fw_write c n E m : debug_build c = true -> n * n <= umax c ->
  (forall u v w, In (mkEdge u v w) E -> u < n /\ v < n) -> lenN m = n * n ->
  wp (lim True) (foldM (fun m e => p <- fw_index c n (e_from e) (e_to e) ;; upd m p (e_weight e)) E m)
    (fun m' => lenN m' = n * n /\ forall i j, i < n -> j < n ->
      (exists w, In (mkEdge i j w) E /\ val c n m' i j = w) \/
      ((forall w, ~ In (mkEdge i j w) E) /\ val c n m' i j = val c n m i j)).
Proof.
  intros Hd Hnn HE Hl.
  apply wp_foldM with (I := fun pre m' => lenN m' = n * n /\ forall i j, i < n -> j < n ->
      (exists w, In (mkEdge i j w) pre /\ val c n m' i j = w) \/
      ((forall w, ~ In (mkEdge i j w) pre) /\ val c n m' i j = val c n m i j)).
  - split; auto.
  - intros pre [u v w] post m' El (Hl' & HI). cbn [e_from e_to e_weight].
    assert (In (mkEdge u v w) E) as Hin by (rewrite El; apply in_app_iff; right; left; auto).
    destruct (HE _ _ _ Hin) as (Hu & Hv). rewrite fw_index_ok by auto. cbn [bind].
    rewrite (upd_val n) by auto. simpl. split; [rewrite lenN_setN; auto|].
    intros i j Hi Hj. rewrite val_set by auto.
    destruct (N.eqb_spec i u) as [->|Hiu]; destruct (N.eqb_spec j v) as [->|Hjv]; simpl.
    + left. exists w. split; auto. apply in_app_iff; right; left; auto.
    + destruct (HI u j Hi Hj) as [(w' & H1 & H2)|(H1 & H2)]; [left; exists w'|right]; split; auto.
      * apply in_app_iff; auto.
      * intros w'. rewrite in_app_iff. intros [Hx|[[= ? ?]|[]]]; [eapply H1; eauto|congruence].
    + destruct (HI i v Hi Hj) as [(w' & H1 & H2)|(H1 & H2)]; [left; exists w'|right]; split; auto.
      * apply in_app_iff; auto.
      * intros w'. rewrite in_app_iff. intros [Hx|[[= ? ?]|[]]]; [eapply H1; eauto|congruence].
    + destruct (HI i j Hi Hj) as [(w' & H1 & H2)|(H1 & H2)]; [left; exists w'|right]; split; auto.
      * apply in_app_iff; auto.
      * intros w'. rewrite in_app_iff. intros [Hx|[[= ? ?]|[]]]; [eapply H1; eauto|congruence].
Qed.

Lemma In_earlier c n fw ig u v w : debug_build c = true -> fw_base c n fw -> ig_num_nodes ig = n ->
  In (mkEdge u v w) (with_earlier_paths c fw ig) <->
  In (mkEdge u v w) (ig_edges ig) \/
  (u < n /\ v < n /\ u <> v /\ (forall w', ~ In (mkEdge u v w') (ig_edges ig)) /\
   w = val c n (fw_matrix fw) u v /\ w < umax c).
Proof.
  intros Hd B Hn. unfold with_earlier_paths. rewrite in_app_iff. apply or_iff_compat_l. rewrite in_flat_map.
  assert (forall x, In x (rangeN 0 (ig_num_nodes ig)) <-> x < n) as HR by (intros x; rewrite rangeN_In; lia).
  assert (forall u v, existsb (fun e => (e_from e =? u) && (e_to e =? v)) (ig_edges ig) = false <->
    forall w', ~ In (mkEdge u v w') (ig_edges ig)) as HX.
  { intros a b. destruct (existsb _ _) eqn:Ex.
    - split; [discriminate|]. intros Hno. exfalso. apply existsb_exists in Ex as ([a' b' w'] & Hin & Heq).
      apply andb_true_iff in Heq as (H1 & H2). simpl in H1, H2. apply N.eqb_eq in H1, H2. subst. eapply Hno; eauto.
    - split; auto. intros _ w' Hin. assert (existsb (fun e => (e_from e =? a) && (e_to e =? b)) (ig_edges ig) = true); [|congruence].
      apply existsb_exists. eexists; split; [exact Hin|]. simpl. rewrite !N.eqb_refl. auto. }
  split.
  - intros (a & Ha & Hin). apply HR in Ha. apply in_flat_map in Hin as (b & Hb & Hin). apply HR in Hb.
    rewrite (fw_calc_ok c n) in Hin by (auto; apply B).
    destruct (_ || _ || _) eqn:Eb; [destruct Hin|]. destruct Hin as [[= <- <- <-]|[]].
    apply orb_false_iff in Eb as (Eb & E3). apply orb_false_iff in Eb as (E1 & E2).
    apply N.eqb_neq in E1. apply N.leb_gt in E2. pose proof (proj1 (HX _ _) E3). unfold WEIGHT_MAX in E2. auto 8.
  - intros (Hu & Hv & Huv & Hno & -> & Hlt). exists u. split; [apply HR; auto|]. apply in_flat_map. exists v. split; [apply HR; auto|].
    rewrite (fw_calc_ok c n) by (auto; apply B). rewrite (proj2 (HX u v) Hno).
    destruct (N.eqb_spec u v); [congruence|]. unfold WEIGHT_MAX. destruct (N.leb_spec (umax c) (val c n (fw_matrix fw) u v)); [lia|].
    left. auto.
Qed.

Lemma earlier_inv c ops ig n fw fw' : debug_build c = true -> frozen_graph c ops ig -> fw_base c n fw -> 1 <= n ->
  fw_prepare c fw ig = Ok fw' ->
  ig_num_nodes ig = n /\ fw_num_nodes fw' = n /\
  (forall u v w, In (mkEdge u v w) (with_earlier_paths c fw ig) -> u < n /\ v < n /\ u <> v /\ 1 <= w <= umax c) /\
  fw_inv c n (with_earlier_paths c fw ig) (N.to_nat n) (fw_matrix fw').
Proof.
  intros Hd Hf B Hn1 Hprep.
  assert (ig_ok c ig) as Hok by (apply (frozen_graph_ok c ops); auto; left; auto).
  unfold fw_prepare, ig_get_num_nodes, ig_get_edges, ig_check_frozen in Hprep.
  rewrite (ig_ok_frozen _ _ Hok) in Hprep. cbn [bind] in Hprep.
  apply bind_Ok in Hprep as (u0 & Ha & Hprep). apply assert_Ok, N.eqb_eq in Ha. rewrite (fb_n _ _ _ B) in *.
  apply bind_Ok in Hprep as (m0 & H0 & Hprep). apply bind_Ok in Hprep as (m & Hm & Hprep). injection Hprep as <-.
  split; auto. split; auto.
  assert (forall u v w, In (mkEdge u v w) (ig_edges ig) -> u < n /\ v < n /\ u <> v /\ 1 <= w <= umax c) as HE0.
  { intros u v w Hin. apply (ig_ok_edge _ _ Hok) in Hin. simpl in *. lia. }
  assert (forall u v w, In (mkEdge u v w) (with_earlier_paths c fw ig) -> u < n /\ v < n /\ u <> v /\ 1 <= w <= umax c) as HE.
  { intros u v w Hin. apply (In_earlier c n) in Hin; auto. destruct Hin as [Hin|(Hu & Hv & Huv & _ & -> & Hlt)]; auto.
    pose proof (fb_pos _ _ _ B u v Hu Hv Huv). repeat split; auto; lia. }
  split; auto.
  assert (1 <= umax c) as Hu0.
  { assert (1 * 1 <= n * n) by (apply N.mul_le_mono; auto). pose proof (fb_nn _ _ _ B). lia. }
  pose proof (fw_write c n (ig_edges ig) (fw_matrix fw) Hd (fb_nn _ _ _ B)) as HW0.
  rewrite H0 in HW0. simpl in HW0. destruct HW0 as (Hl & HI).
  { intros u v w Hin. apply HE0 in Hin. tauto. }
  { apply B. }
  assert (fw_inv c n (with_earlier_paths c fw ig) 0 m0) as I0.
  { constructor; auto.
    - intros i j Hi Hj. destruct (HI i j Hi Hj) as [(w & H1 & ->)|(_ & ->)]; [apply HE0 in H1; lia|apply B; auto].
    - intros i j Hi Hj Hlt. destruct (N.eq_dec i j) as [<-|Hij].
      { exists 0. split; [lia|]. left. auto. }
      exists (val c n m0 i j). split; [lia|]. right. apply (In_earlier c n); auto.
      destruct (HI i j Hi Hj) as [(w & H1 & Ew)|(H1 & Ew)]; [left; rewrite Ew; auto|right]. auto 7.
    - intros i Hi. destruct (HI i i Hi Hi) as [(w & H1 & Ew)|(H1 & ->)].
      + apply HE0 in H1. lia.
      + destruct (fb_diag _ _ _ B i Hi); auto.
    - intros i j W Hi Hj Hij [(He & _)|HD] HW; [congruence|]. apply (In_earlier c n) in HD; auto.
      destruct (HI i j Hi Hj) as [(w & H1 & Ew)|(H1 & Ew)]; destruct HD as [HD|(_ & _ & _ & H3 & H4 & _)].
      + rewrite Ew. rewrite (ig_edges_unique _ _ _ _ _ _ Hok H1 HD). lia.
      + exfalso. eapply H3; eauto.
      + exfalso. eapply H1; eauto.
      + rewrite Ew, H4. lia. }
  pose proof (fw_stages c n (with_earlier_paths c fw ig) (umax c) True Hd (fb_nn _ _ _ B) Hu0 HE) as HS.
  assert (forall u v w w', In (mkEdge u v w) (with_earlier_paths c fw ig) -> In (mkEdge u v w') (with_earlier_paths c fw ig) -> w = w') as HEu.
  { intros u v w w' H1 H2. apply (In_earlier c n) in H1; auto. apply (In_earlier c n) in H2; auto.
    destruct H1 as [H1|(_ & _ & _ & H3 & H4 & _)]; destruct H2 as [H2|(_ & _ & _ & H5 & H6 & _)].
    - eapply ig_edges_unique; eauto.
    - exfalso. eapply H5; eauto.
    - exfalso. eapply H3; eauto.
    - congruence. }
  assert (wp (lim True) (foldM (fun m k => foldM (fun m i => foldM (fw_step c n k i) (rangeN 0 n) m) (rangeN 0 n) m) (rangeN 0 n) m0)
    (fw_inv c n (with_earlier_paths c fw ig) (N.to_nat n))) as HS' by (apply HS; auto; intros u v w Hin; apply HE in Hin; lia).
  rewrite Hm in HS'. exact HS'.
Qed.

Lemma walk_pos E s t ns W : (forall u v w, In (mkEdge u v w) E -> 1 <= w) -> walk E s t ns W -> s <> t -> 1 <= W.
Proof. intros HE HW Hst. destruct HW as [|u v t w ns W Hin HW]; [congruence|]. apply HE in Hin. lia. Qed.

Lemma earlier_read c ops ig n fw fw' s t : debug_build c = true -> frozen_graph c ops ig -> fw_base c n fw ->
  s < n -> t < n -> fw_prepare c fw ig = Ok fw' ->
  val c n (fw_matrix fw') s t <= umax c /\
  (val c n (fw_matrix fw') s t < umax c -> is_dist (with_earlier_paths c fw ig) s t (val c n (fw_matrix fw') s t)) /\
  (val c n (fw_matrix fw') s t = umax c -> forall ns W, walk (with_earlier_paths c fw ig) s t ns W -> umax c <= W).
Proof.
  intros Hd Hf B Hs Ht Hprep. assert (1 <= n) as Hn1 by lia.
  destruct (earlier_inv c ops ig n fw fw' Hd Hf B Hn1 Hprep) as (Hn & Hn' & HE & Hinv).
  assert (1 <= umax c) as Hu0.
  { assert (1 * 1 <= n * n) by (apply N.mul_le_mono; auto). pose proof (fb_nn _ _ _ B). lia. }
  apply (fw_final c n (with_earlier_paths c fw ig) (umax c) True Hd (fb_nn _ _ _ B) Hu0 HE); auto.
Qed.

Lemma fw_object_base c n fw : debug_build c = true -> 1 <= n -> floyd_warshall_object c n fw -> fw_base c n fw.
Proof.
  intros Hd Hn1. induction 1 as [fw Hnew|ops ig fw fw' Ho B Hf Hprep].
  - destruct (fw_new_facts _ _ _ Hd Hnew) as (Hnn & Hn0 & Hm0).
    assert (1 * 1 <= n * n) as H1 by (apply N.mul_le_mono; auto).
    assert (forall i j, i < n -> j < n -> val c n (fw_matrix fw) i j = umax c) as HV.
    { intros i j Hi Hj. unfold val. rewrite Hm0, getN_repeat; auto. apply index_lt; auto. }
    constructor; auto.
    + rewrite Hm0. apply lenN_repeat.
    + intros i j Hi Hj. rewrite HV; auto. lia.
    + intros i j Hi Hj _. rewrite HV; auto. lia.
  - destruct (earlier_inv c ops ig n fw fw' Hd Hf B Hn1 Hprep) as (Hn & Hn' & HE & Hinv).
    constructor; auto; try apply B; try apply Hinv.
    + intros i Hi. destruct (fi_diag _ _ _ _ _ Hinv i Hi) as [|(_ & ?)]; auto.
    + intros i j Hi Hj Hij. destruct (earlier_read c ops ig n fw fw' i j Hd Hf B Hi Hj Hprep) as (H1 & H2 & _).
      destruct (N.ltb_spec (val c n (fw_matrix fw') i j) (umax c)) as [Hlt|Hge].
      * destruct (H2 Hlt) as ((ns & HW) & _). eapply walk_pos; [|exact HW|auto]. intros u v w Hin. apply HE in Hin. lia.
      * assert (1 * 1 <= n * n) by (apply N.mul_le_mono; auto). pose proof (fb_nn _ _ _ B). lia.
Qed.

Lemma C43_reuse_exact_proof : forall c ops ig n fw fw' s t,
  debug_build c = true -> frozen_graph c ops ig -> floyd_warshall_object c n fw -> fw_prepare c fw ig = Ok fw' ->
  s < n -> t < n ->
  exists w, fw_calc_weight c fw' s t = Ok w /\ w <= WEIGHT_MAX c /\
    (w < WEIGHT_MAX c -> is_dist (with_earlier_paths c fw ig) s t w) /\
    (w = WEIGHT_MAX c -> forall ns W, walk (with_earlier_paths c fw ig) s t ns W -> WEIGHT_MAX c <= W).
Proof.
  intros c ops ig n fw fw' s t Hd Hf Ho Hprep Hs Ht. assert (1 <= n) as Hn1 by lia.
  pose proof (fw_object_base c n fw Hd Hn1 Ho) as B.
  assert (fw_base c n fw') as B' by (apply fw_object_base; auto; econstructor; eauto).
  exists (val c n (fw_matrix fw') s t). split; [apply (fw_calc_ok c n); auto; apply B'|].
  apply (earlier_read c ops ig n fw fw' s t); auto.
Qed.

(** ** Preparing for the same graph again *)
Lemma path_subst (R R' : N -> N -> N -> Prop) : (forall u v w, R u v w -> exists w', w' <= w /\ path R' u v w') ->
  forall s t W, path R s t W -> exists W', W' <= W /\ path R' s t W'.
Proof.
  intros Hsub. induction 1 as [|u v t w W Hr Hp (W' & Hle & HP)].
  - exists 0. split; [lia|constructor].
  - destruct (Hsub _ _ _ Hr) as (w' & Hle' & HP'). exists (w' + W'). split; [lia|]. eapply path_app; eauto.
Qed.
Lemma C43_again_proof : forall c ops ig n fw fw1 fw2 s t,
  debug_build c = true -> frozen_graph c ops ig -> floyd_warshall_object c n fw ->
  fw_prepare c fw ig = Ok fw1 -> fw_prepare c fw1 ig = Ok fw2 -> s < n -> t < n ->
  fw_calc_weight c fw2 s t = fw_calc_weight c fw1 s t.
Proof.
  intros c ops ig n fw fw1 fw2 s t Hd Hf Ho H1 H2 Hs Ht. assert (1 <= n) as Hn1 by lia.
  pose proof (fw_object_base c n fw Hd Hn1 Ho) as B.
  assert (floyd_warshall_object c n fw1) as Ho1 by (econstructor; eauto).
  assert (floyd_warshall_object c n fw2) as Ho2 by (econstructor; eauto).
  pose proof (fw_object_base c n fw1 Hd Hn1 Ho1) as B1.
  pose proof (fw_object_base c n fw2 Hd Hn1 Ho2) as B2.
  rewrite !(fw_calc_ok c n) by (auto; first [apply B1|apply B2]). f_equal.
  destruct (earlier_inv c ops ig n fw fw1 Hd Hf B Hn1 H1) as (Hn & _ & _ & _).
  destruct (earlier_read c ops ig n fw fw1 s t Hd Hf B Hs Ht H1) as (A1 & A2 & A3).
  destruct (earlier_read c ops ig n fw1 fw2 s t Hd Hf B1 Hs Ht H2) as (C1 & C2 & C3).
  set (E1 := with_earlier_paths c fw ig) in *. set (E2 := with_earlier_paths c fw1 ig) in *.
  assert (forall W ns, walk E2 s t ns W -> exists W' ns', W' <= W /\ walk E1 s t ns' W') as T21.
  { intros W ns HW. apply walk_path in HW.
    apply (path_subst _ (edge_rel E1)) in HW as (W' & Hle & HP).
    - apply path_walk in HP as (ns' & HP). eauto.
    - intros u v w Hin. apply (In_earlier c n) in Hin; auto. destruct Hin as [Hin|(Hu & Hv & Huv & Hno & -> & Hlt)].
      + exists w. split; [lia|]. apply path_one. apply (In_earlier c n); auto.
      + destruct (earlier_read c ops ig n fw fw1 u v Hd Hf B Hu Hv H1) as (_ & D2 & _).
        destruct (D2 Hlt) as ((ns' & HW') & _). eexists. split; [|apply walk_path in HW'; exact HW']. lia. }
  assert (forall W ns, W < umax c -> walk E1 s t ns W -> exists W' ns', W' <= W /\ walk E2 s t ns' W') as T12.
  { intros W ns HWl HW. apply walk_path in HW.
    assert (forall s t W, path (edge_rel E1) s t W -> W < umax c -> exists W', W' <= W /\ path (edge_rel E2) s t W') as G.
    { clear - Hd Hf B B1 H1 Hn. induction 1 as [|u v t w W Hr Hp IH]; intros HWl.
      - exists 0. split; [lia|constructor].
      - destruct IH as (W' & Hle & HP); [lia|]. apply (In_earlier c n) in Hr; auto.
        destruct Hr as [Hr|(Hu & Hv & Huv & Hno & Hw & Hlt)].
        + exists (w + W'). split; [lia|]. econstructor; [|exact HP]. apply (In_earlier c n); auto.
        + destruct (earlier_read c ops ig n fw fw1 u v Hd Hf B Hu Hv H1) as (_ & D2 & D3).
          assert (walk (with_earlier_paths c fw ig) u v [u; v] (w + 0)) as HE1.
          { econstructor; [|constructor]. apply (In_earlier c n); auto. right. auto 7. }
          assert (val c n (fw_matrix fw1) u v < umax c) as Hlt1.
          { destruct (N.ltb_spec (val c n (fw_matrix fw1) u v) (umax c)); auto.
            destruct (earlier_read c ops ig n fw fw1 u v Hd Hf B Hu Hv H1) as (D1 & _ & _).
            assert (val c n (fw_matrix fw1) u v = umax c) as Eq by lia. apply D3 in HE1; auto. lia. }
          destruct (D2 Hlt1) as (_ & Hmin). apply Hmin in HE1.
          exists (val c n (fw_matrix fw1) u v + W'). split; [lia|]. econstructor; [|exact HP].
          apply (In_earlier c n); auto. right. auto 7. }
    destruct (G _ _ _ HW HWl) as (W' & Hle & HP). apply path_walk in HP as (ns' & HP). eauto. }
  destruct (N.ltb_spec (val c n (fw_matrix fw1) s t) (umax c)) as [L1|L1];
    destruct (N.ltb_spec (val c n (fw_matrix fw2) s t) (umax c)) as [L2|L2].
  - destruct (A2 L1) as ((n1 & W1) & M1). destruct (C2 L2) as ((n2 & W2) & M2).
    destruct (T21 _ _ W2) as (x & nx & Hx & Wx). destruct (T12 _ _ L1 W1) as (y & ny & Hy & Wy).
    apply M1 in Wx. apply M2 in Wy. lia.
  - destruct (A2 L1) as ((n1 & W1) & _). destruct (T12 _ _ L1 W1) as (y & ny & Hy & Wy).
    apply C3 in Wy; lia.
  - destruct (C2 L2) as ((n2 & W2) & _). destruct (T21 _ _ W2) as (x & nx & Hx & Wx). apply A3 in Wx; lia.
  - lia.
Qed.

Lemma C43_size_proof c n fw : fw_new c n = Ok fw ->
  lenN (fw_matrix fw) = n * n \/
  (debug_build c = false /\ umax c < n * n /\ lenN (fw_matrix fw) = (n * n) mod (umax c + 1)).
Proof.
  unfold fw_new, umul. destruct (N.leb_spec (n * n) (umax c)) as [H|H]; cbn [bind].
  - destruct (n * n <=? umax c / 2); [|discriminate]. intros [= <-]. left. apply lenN_repeat.
  - destruct (debug_build c); [discriminate|]. cbn [bind]. destruct (_ <=? umax c / 2); [|discriminate].
    intros [= <-]. right. split; auto. split; auto. apply lenN_repeat.
Qed.
