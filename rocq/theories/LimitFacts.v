(** * LimitFacts: what witness searches with a limit on settled nodes miss and what they find *)
From Verif Require Export OverlayFacts.
From Coq Require Import Permutation.
Open Scope N_scope.

Section LimSearch.
  Variables (c : cfg) (H : heap_ops) (hinv : list HeapItem -> Prop).
  Hypothesis HL : heap_laws H hinv.
  Hypothesis Hdbg : debug_build c = true.
  Variable n : N.
  Hypothesis Hn : n <= umax c.

  Local Notation ws_inv := (ws_inv c hinv n).
  Local Notation ws_cmp := (ws_cmp c n).
  Local Notation heap_pop_spec := (heap_pop_spec c H hinv HL Hdbg n Hn).
  Let allow := True.

  (** Every settled node is counted, and every label but that of the start comes from a settled node. *)
  Record ws_ext (gr : PrepGraph) (s x : N) (ws : WitnessSearch) : Prop := mk_ws_ext {
    we_count : exists L, lenN L = ws_settled ws /\ forall v, wset ws v = true -> In v L;
    we_from : forall v d, wl ws v = Some d -> v <> s ->
      exists m dm w, wl ws m = Some dm /\ wd_settled dm = true /\ arelx gr x m v w /\ wd_weight d = wd_weight dm + w
  }.

  Lemma relax_ext g gr s x curr target limit ws1 arcs :
    pg_wf n g ->
    (forall v w, arel g (hi_node curr) v w -> arel gr (hi_node curr) v w) ->
    ws_inv gr s x ws1 -> hi_node curr < n -> hi_node curr <> x ->
    outs g (hi_node curr) = arcs ->
    wp (lim allow) (foldM (ws_relax c H curr target limit) arcs (ws1, false))
      (fun '(ws2, _) => ws_settled ws2 = ws_settled ws1 /\
         (forall v d, wl ws2 v = Some d -> wl ws1 v = Some d \/
            exists w, arelx gr x (hi_node curr) v w /\ d = mkWData false (hi_weight curr + w)) /\
         (forall v d, wl ws1 v = Some d -> exists d', wl ws2 v = Some d' /\ wd_weight d' <= wd_weight d)).
  Proof.
    intros W Hgr I0 Hcn Hcx Harcs.
    eapply wp_mono.
    - apply wp_foldM with (I := fun pre '(ws2, _) => ws_base n ws2 /\ ws_avoid ws2 = x /\
         ws_settled ws2 = ws_settled ws1 /\
         (forall v d, wl ws2 v = Some d -> wl ws1 v = Some d \/
            exists w, arelx gr x (hi_node curr) v w /\ d = mkWData false (hi_weight curr + w)) /\
         (forall v d, wl ws1 v = Some d -> exists d', wl ws2 v = Some d' /\ wd_weight d' <= wd_weight d)).
      + split; [apply (wi_base _ _ _ _ _ _ _ I0)|]. split; [apply (wi_avoid _ _ _ _ _ _ _ I0)|]. split; auto. split; auto.
        intros v d Hd. exists d. split; auto. lia.
      + intros pre a post (ws2, fnd) E (I1 & I3 & I4 & I5 & I6).
        assert (In a (outs g (hi_node curr))) as Hin.
        { rewrite Harcs, E. apply in_app_iff; right; left; auto. }
        destruct a as [v w ctr]. pose proof (wf_arc _ _ W _ _ _ _ Hin) as (Hv & Hne & Hw).
        unfold ws_relax. simpl. destruct (N.eqb_spec v (ws_avoid ws2)) as [Ev|Ev]; [simpl; auto|].
        rewrite I3 in Ev.
        apply wp_bind, wp_uadd; auto; [intros _; exact I|].
        intros Hsum. rewrite (get_current_weight_ok c n _ _ I1 Hv). simpl.
        destruct (N.ltb_spec (hi_weight curr + w)
                    match wl ws2 v with Some d => wd_weight d | None => umax c end) as [Hlt|Hge']; [|simpl; auto].
        destruct (update_node_ok n ws2 v (hi_weight curr + w) I1 Hv)
          as (ws3 & Hup & Hb3 & (Hh3 & Hs3 & Ha3) & Hl3). rewrite Hup. simpl.
        apply update_node_settled in Hup.
        split; [apply ws_base_set_heap; auto|]. split; [congruence|]. split; [congruence|]. split.
        * intros u d. rewrite wl_set_heap, Hl3. destruct (N.eqb_spec u v) as [->|]; [|apply I5].
          intros [= <-]. right. exists w. split; auto. split; [apply Hgr; exists ctr; auto|auto].
        * intros u d Hd. rewrite wl_set_heap, Hl3. destruct (I6 u d Hd) as (d' & Hd' & Hl).
          destruct (N.eqb_spec u v) as [->|]; [|eauto].
          eexists; split; [reflexivity|]. simpl. rewrite Hd' in Hlt. lia.
    - intros (ws2, fnd) (_ & _ & I4 & I5 & I6). auto.
  Qed.

  Lemma ws_loop_lim g gr gb s x B target limit maxs fuel : forall ws,
    pg_wf n g -> pg_bnd B g -> pg_le gb g -> x < n ->
    (forall u v w, u <> s \/ wset ws s = false -> arel g u v w -> arel gr u v w) ->
    ws_inv gr s x ws -> ws_cmp gb s x (fun _ => False) ws -> ws_ext gr s x ws -> (mu g ws < fsize fuel)%nat ->
    wp (lim allow) (ws_loop fuel c H ws g target limit maxs)
       (fun ws' => ws_inv gr s x ws' /\ ws_cmp gb s x (fun _ => False) ws' /\ ws_done target limit maxs ws' /\
          (forall v, wset ws v = true -> wset ws' v = true) /\ ws_ext gr s x ws' /\ ws_settled ws' <= N.max maxs (ws_settled ws)).
  Proof.
    induction fuel as [|rest IH]; [|specialize (IH tt)]; intros ws W HB Hle Hx Hgr I C X Hf; cbn [fsize] in Hf; [lia|]. cbn [ws_loop].
    destruct (ws_heap ws) as [|h0 hs] eqn:Eh.
    { simpl. split; auto. split; auto. split; [|split; [auto|split; [auto|lia]]]. intros _. left. rewrite Eh. intros h []. }
    rewrite <- Eh in *. destruct (N.leb_spec maxs (ws_settled ws)).
    { simpl. split; auto. split; auto. split; [|split; [auto|split; [auto|lia]]]. intros Hm. lia. }
    destruct (heap_pop_spec (ws_heap ws)) as (curr & h' & -> & -> & Hh' & Hperm & Hmin).
    { apply (wi_heap _ _ _ _ _ _ _ I). } { congruence. }
    destruct (N.ltb_spec limit (hi_weight curr)) as [|Hlim].
    { simpl. split; auto. split; auto. split; [|split; [auto|split; [auto|lia]]]. intros _. left. intros h Hh. specialize (Hmin h Hh). lia. }
    assert (In curr (ws_heap ws)) as Hcin.
    { eapply Permutation_in; [apply Permutation_sym, Hperm|left; auto]. }
    assert (forall h, In h h' -> In h (ws_heap ws)) as Hsub.
    { intros h Hh. eapply Permutation_in; [apply Permutation_sym, Hperm|right; auto]. }
    destruct (wi_items _ _ _ _ _ _ _ I curr Hcin) as (Hcn & Hcx & Hcr & Hlab).
    assert (ws_inv gr s x (ws_set_heap ws h')) as I1.
    { destruct I as [I1 I2 I3 I4 I5 I6 I7 I8 I9 I10]. constructor; simpl; auto.
      - apply ws_base_set_heap; auto.
      - intros h Hh. apply I9. auto.
      - intros v d h Hd Hs Hh. eapply I10; eauto. }
    assert (List.length (ws_heap ws) = S (List.length h')) as Elen.
    { apply Permutation_length in Hperm. simpl in Hperm. auto. }
    rewrite (is_settled_ok n _ _ (wi_base _ _ _ _ _ _ _ I1) Hcn). cbn [bind].
    assert (forall v d, wl ws v = Some d -> wd_settled d = false ->
              In (mkHeapItem (wd_weight d) v) (curr :: h')) as Hq.
    { intros v d Hd Hs. eapply Permutation_in; [exact Hperm|]. apply (wc_queued _ _ _ _ _ _ _ C); auto. }
    destruct Hlab as (dc & Hdc & Hdcw).
    destruct (wset (ws_set_heap ws h') (hi_node curr)) eqn:Eset.
    { apply (IH (ws_set_heap ws h')); auto.
      - destruct C as [C1 C2 C3 C4]. constructor; auto.
        intros v d Hd Hs _. destruct (Hq v d Hd Hs) as [E|E]; auto. exfalso.
        unfold wset in Eset. rewrite E in Eset. simpl in Eset. change (wl (ws_set_heap ws h') v) with (wl ws v) in Eset.
        change (wl ws v = Some d) in Hd. rewrite Hd in Eset. congruence.
      - destruct X as [X1 X2]. constructor; auto.
      - unfold mu in *. simpl. rewrite (udeg_ext _ (wset ws)) by reflexivity. lia. }
    assert (wd_weight dc = hi_weight curr) as Edc.
    { assert (wd_settled dc = false) as Es.
      { unfold wset in Eset. change (wl (ws_set_heap ws h')) with (wl ws) in Eset. rewrite Hdc in Eset. auto. }
      pose proof (Hmin _ (wc_queued _ _ _ _ _ _ _ C _ _ Hdc Es (fun H => H))) as G. simpl in G. lia. }
    assert (ws_cmp gb s x (eq (hi_node curr)) (ws_set_heap ws h')) as C1.
    { destruct C as [C1 C2 C3 C4]. constructor; auto.
      intros v d Hd Hs Hne. destruct (Hq v d Hd Hs) as [E|E]; auto. exfalso. apply Hne. rewrite E. reflexivity. }
    rewrite (outs_idx _ _ _ W Hcn). cbn [bind].
    eapply wp_bind_mono.
    { apply wp_and; [apply wp_and|].
      - eapply (relax_spec c H hinv HL Hdbg n allow Hn) with (B := B) (g := g) (gr := gr) (s := s); eauto.
        + intros v w Har. apply Hgr; auto. destruct (N.eq_dec (hi_node curr) s) as [<-|]; auto.
        + intros _. exact Logic.I.
        + intros v d Hd Hs. eapply (wi_mono _ _ _ _ _ _ _ I); eauto.
      - eapply (relax_cmp c H hinv HL Hdbg n allow Hn) with (B := B) (gb := gb) (g := g) (gr := gr) (s := s); eauto.
        + intros _. exact Logic.I.
        + intros v d Hd Hs. eapply (wi_mono _ _ _ _ _ _ _ I); eauto.
      - apply (relax_ext g gr s x); auto.
        intros v w Har. apply Hgr; auto. destruct (N.eq_dec (hi_node curr) s) as [<-|]; auto. }
    intros (ws2, fnd) (((I2 & Hst2 & Hge2 & (d2 & Hd2 & Hdw2) & Hlen2) & (C2 & Hlc & Hrel & Hfnd)) & (Xs & Xl & Xm)).
    change (wl (ws_set_heap ws h')) with (wl ws) in Xl, Xm. change (ws_settled (ws_set_heap ws h')) with (ws_settled ws) in Xs.
    change (wl (ws_set_heap ws h')) with (wl ws) in Hlc.
    assert (d2 = dc) by congruence. subst d2.
    destruct (settle_ok n ws2 (hi_node curr) (wi_base _ _ _ _ _ _ _ I2) Hcn)
      as (ws3 & Hse3 & Hb3 & (Hh3 & Hs3 & Ha3) & Hl3). rewrite Hse3. cbn [bind].
    apply settle_settled in Hse3.
    rewrite Hd2 in Hl3. simpl in Hl3.
    assert (forall u B', (exists d, wl ws2 u = Some d /\ wd_weight d <= B') ->
              exists d, wl ws3 u = Some d /\ wd_weight d <= B') as Hkeep.
    { intros u B' (d & Hd & HB'). rewrite Hl3. destruct (N.eqb_spec u (hi_node curr)) as [->|]; [|eauto].
      eexists; split; [reflexivity|]. simpl. congruence. }
    assert (ws_cmp gb s x (fun _ => False) ws3) as C3.
    { constructor.
      - destruct (wc_zero _ _ _ _ _ _ _ C2) as (d & Hd & Hz). rewrite Hl3. destruct (N.eqb_spec s (hi_node curr)) as [E|]; [|eauto].
        eexists; split; [reflexivity|]. simpl. congruence.
      - intros v d u w Hd Hs Hr. rewrite Hl3 in Hd. destruct (N.eqb_spec v (hi_node curr)) as [->|].
        + injection Hd as <-. simpl. rewrite Edc. destruct (Hrel u w Hr); auto.
        + destruct (wc_relaxed _ _ _ _ _ _ _ C2 _ _ _ _ Hd Hs Hr); auto.
      - intros v d Hd Hs _. rewrite Hh3. rewrite Hl3 in Hd. destruct (N.eqb_spec v (hi_node curr)) as [->|].
        + injection Hd as <-. discriminate.
        + apply (wc_queued _ _ _ _ _ _ _ C2); auto.
      - destruct (wc_count _ _ _ _ _ _ _ C2) as (L & L1 & L2 & L3). exists (hi_node curr :: L).
        assert (wset ws2 (hi_node curr) = false) as Hns by (rewrite Hst2; exact Eset).
        split; [constructor; auto; intros Hin; apply L3 in Hin as (_ & _ & Hin); congruence|].
        split; [rewrite lenN_cons; lia|]. intros v [<-|Hv].
        + split; auto. split; auto. unfold wset. rewrite Hl3, N.eqb_refl. reflexivity.
        + destruct (L3 v Hv) as (L4 & L5 & L6). split; auto. split; auto. unfold wset. rewrite Hl3.
          destruct (N.eqb_spec v (hi_node curr)); [congruence|exact L6]. }
    assert (ws_inv gr s x ws3) as I3.
    { constructor; auto.
      - rewrite Hh3; apply (wi_heap _ _ _ _ _ _ _ I2).
      - rewrite Hs3; apply (wi_start _ _ _ _ _ _ _ I2).
      - rewrite Ha3; apply (wi_avoid _ _ _ _ _ _ _ I2).
      - apply (wi_s _ _ _ _ _ _ _ I).
      - apply (wi_sx _ _ _ _ _ _ _ I).
      - intros v d. rewrite Hl3. destruct (N.eqb_spec v (hi_node curr)) as [->|Hv].
        + intros [= <-]. simpl. apply (wi_label _ _ _ _ _ _ _ I2 _ _ Hd2).
        + apply (wi_label _ _ _ _ _ _ _ I2).
      - intros v d. rewrite Hl3. destruct (N.eqb_spec v (hi_node curr)) as [->|Hv].
        + intros [= <-]. simpl. apply (wi_max _ _ _ _ _ _ _ I2 _ _ Hd2).
        + apply (wi_max _ _ _ _ _ _ _ I2).
      - intros h Hh. rewrite Hh3 in Hh.
        destruct (wi_items _ _ _ _ _ _ _ I2 h Hh) as (H1 & H2 & H3 & d & H4 & H5).
        repeat split; auto. rewrite Hl3. destruct (N.eqb_spec (hi_node h) (hi_node curr)) as [Ev|Hv].
        + eexists; split; [reflexivity|]. simpl. rewrite Ev in H4. congruence.
        + eauto.
      - intros v d h. rewrite Hl3, Hh3. destruct (N.eqb_spec v (hi_node curr)) as [->|Hv].
        + intros [= <-] _ Hh. simpl. specialize (Hge2 h Hh). lia.
        + apply (wi_mono _ _ _ _ _ _ _ I2). }
    assert (forall v, wset ws v = true -> wset ws3 v = true) as Hset3.
    { intros v Hv. unfold wset. rewrite Hl3. destruct (N.eqb_spec v (hi_node curr)); auto.
      change (wset ws2 v = true). rewrite Hst2. exact Hv. }
    assert (ws_ext gr s x ws3) as X3.
    { destruct X as [(L & L1 & L2) X2]. constructor.
      - exists (hi_node curr :: L). split; [rewrite lenN_cons; lia|]. intros v. unfold wset. rewrite Hl3.
        destruct (N.eqb_spec v (hi_node curr)) as [->|]; [left; auto|]. intros Hv. right. apply L2.
        change (wset (ws_set_heap ws h') v = true). rewrite <- Hst2. exact Hv.
      - assert (forall m dm, wl ws m = Some dm -> wd_settled dm = true -> m <> hi_node curr -> wl ws3 m = Some dm) as Hst.
        { intros m dm Hm Hsm Hmc. rewrite Hl3. destruct (N.eqb_spec m (hi_node curr)); [congruence|].
          assert (wset ws2 m = true) as G.
          { rewrite Hst2. unfold wset. change (wl (ws_set_heap ws h') m) with (wl ws m). rewrite Hm. auto. }
          unfold wset in G. destruct (wl ws2 m) as [d'|] eqn:E; [|discriminate].
          destruct (Xl m d' E) as [Y|(w & _ & ->)]; [congruence|discriminate]. }
        assert (wset ws (hi_node curr) = false) as Huns by exact Eset.
        assert (forall v d, wl ws v = Some d -> v <> s ->
          exists m dm w, wl ws3 m = Some dm /\ wd_settled dm = true /\ arelx gr x m v w /\ wd_weight d = wd_weight dm + w) as Hold.
        { intros v d Hd Hv. destruct (X2 v d Hd Hv) as (m & dm & w & Hm & Hsm & Ha & Hw). exists m, dm, w. split; auto.
          apply Hst; auto. intros ->. unfold wset in Huns. rewrite Hm in Huns. congruence. }
        intros v d Hd Hv. rewrite Hl3 in Hd. destruct (N.eqb_spec v (hi_node curr)) as [->|Hvc].
        + injection Hd as <-. simpl. apply Hold; auto.
        + destruct (Xl v d Hd) as [Y|(w & Ha & ->)]; [apply Hold; auto|].
          exists (hi_node curr), (mkWData true (wd_weight dc)), w. rewrite Hl3, N.eqb_refl. simpl.
          split; auto. split; auto. split; auto. lia. }
    assert (ws_settled ws3 <= N.max maxs (ws_settled ws)) as Hs3' by lia.
    destruct (fnd || (hi_node curr =? target)) eqn:Efin.
    { simpl. split; auto. split; auto. split; [|auto]. intros _. right. apply orb_true_iff in Efin as [->|Et].
      - apply Hkeep. auto.
      - apply N.eqb_eq in Et. rewrite <- Et. apply Hkeep. exists dc. split; auto. lia. }
    eapply wp_mono; [apply IH; auto|].
    { intros u v w Hu Har. apply Hgr; auto. destruct Hu as [Hu|Hu]; auto. right.
      destruct (wset ws s) eqn:Es; auto. apply Hset3 in Es. congruence. }
    2:{ intros ws' (J1 & J2 & J3 & J4 & J5 & J6). do 5 (split; auto). lia. }
    unfold mu in *. rewrite Hh3. simpl in Hlen2.
    assert (udeg (wset ws3) (pg_out g) 0 + List.length (outs g (hi_node curr)) =
            udeg (wset ws) (pg_out g) 0)%nat as Hu.
    { apply udeg_settle with (v := hi_node curr); auto; try lia.
      - intros u Hu. transitivity (wset ws2 u); [|rewrite Hst2; auto].
        unfold wset. rewrite Hl3. destruct (N.eqb_spec u (hi_node curr)); [congruence|auto].
      - unfold wset. rewrite Hl3, N.eqb_refl. auto.
      - rewrite N.sub_0_r. apply outs_get. rewrite (wf_lo _ _ W). auto. }
    lia.
  Qed.


  (** The search state in a row: [gr] is the graph at the start of the row, [g] the present one. *)
  Definition rowlim (maxs : N) (gr g : PrepGraph) (s x : N) (ws : WitnessSearch) : Prop :=
    ws_inv gr s x ws /\ ws_cmp gr s x (fun _ => False) ws /\ ws_ext gr s x ws /\ ws_settled ws <= maxs /\
    (forall u v w, u <> s \/ wset ws s = false -> arel g u v w -> arel gr u v w).

  Lemma rowlim_init maxs g s x ws :
    ws_base n ws -> s < n -> s <> x ->
    exists ws', ws_init c H ws s x = Ok ws' /\ rowlim maxs g g s x ws'.
  Proof.
    intros Hb Hs Hsx. destruct (ws_init_spec c H hinv HL Hdbg n Hn g g s x ws Hb Hs Hsx) as (ws' & E & I1 & C1).
    exists ws'. split; auto. split; auto. split; auto.
    unfold ws_init, INVALID_NODE in E. destruct (N.eqb_spec s (umax c)) as [|_]; [discriminate|].
    destruct (N.eqb_spec s x) as [|_]; [discriminate|]. cbn [negb assert bind] in E.
    set (ws1 := mkWS _ _ _ _ _ _ _) in E.
    assert (ws_base n ws1) as B1.
    { destruct Hb as [Hn' Hd Hf]. destruct (vf_invalidate_ok n _ Hf) as (Hf' & _). constructor; auto. }
    destruct (update_node_ok n ws1 s 0 B1 Hs) as (ws2 & E2 & B2 & (Hh2 & Hs2 & Ha2) & Hl2).
    rewrite E2 in E. cbn [bind] in E. injection E as <-.
    assert (forall u, wl ws1 u = None) as Hn1.
    { destruct Hb as [Hn' Hd Hf]. destruct (vf_invalidate_ok n _ Hf) as (_ & Hvb).
      intros u. unfold wl, view, ws1; simpl. rewrite Hvb; auto. }
    set (ws3 := mkWS _ _ _ _ _ _ _).
    assert (forall u, wl ws3 u = if u =? s then Some (mkWData false 0) else None) as Hl3.
    { intros u. change (wl ws3 u) with (wl ws2 u). rewrite Hl2, Hn1. reflexivity. }
    split; [|split; [simpl; lia|auto]]. constructor.
    - exists []. split; auto. intros v. unfold wset. rewrite Hl3. destruct (v =? s); discriminate.
    - intros v d. rewrite Hl3. destruct (N.eqb_spec v s); [congruence|discriminate].
  Qed.

  Lemma settled_order gr s x ws v dv z W : ws_inv gr s x ws -> ws_cmp gr s x (fun _ => False) ws ->
    wl ws v = Some dv -> wd_settled dv = true -> path (arelx gr x) s z W -> W < umax c -> W < wd_weight dv ->
    exists dz, wl ws z = Some dz /\ wd_settled dz = true /\ wd_weight dz <= W.
  Proof.
    intros I0 C0 Hv Hs Hp HW Hlt. destruct (cmp_path c Hdbg n Hn _ _ _ _ _ _ C0 Hp HW) as [(d & Hd & Hle)|(h & Hh & Hle)].
    - exists d. split; auto. split; auto. destruct (wd_settled d) eqn:E; auto.
      pose proof (wi_mono _ _ _ _ _ _ _ I0 _ _ _ Hv Hs (wc_queued _ _ _ _ _ _ _ C0 _ _ Hd E (fun F => F))) as G.
      simpl in G. lia.
    - pose proof (wi_mono _ _ _ _ _ _ _ I0 _ _ _ Hv Hs Hh). lia.
  Qed.

  Lemma arelx_pos gr x u v w : pg_wf n gr -> arelx gr x u v w -> u <> v /\ 1 <= w /\ v < n.
  Proof. intros W ((k & Ha) & _). apply (wf_arc _ _ W) in Ha. tauto. Qed.

  Lemma path_pos gr x u v W : pg_wf n gr -> path (arelx gr x) u v W -> u = v \/ 1 <= W.
  Proof. intros Wg Hp. destruct Hp as [|u y v w W Ha Hp]; auto. apply (arelx_pos _ _ _ _ _ Wg) in Ha. right. lia. Qed.

  (** once a node is settled, so is the start *)
  Lemma start_settled gr s x ws v : pg_wf n gr -> ws_inv gr s x ws -> ws_cmp gr s x (fun _ => False) ws ->
    0 < umax c -> wset ws v = true -> wset ws s = true.
  Proof.
    intros W I0 C0 Hu Hv. unfold wset in Hv. destruct (wl ws v) as [dv|] eqn:Ev; [|discriminate].
    destruct (wi_label _ _ _ _ _ _ _ I0 _ _ Ev) as (W' & HW & Hp).
    destruct (path_pos _ _ _ _ _ W Hp) as [->|Hpos]; [unfold wset; rewrite Ev; auto|].
    destruct (settled_order _ _ _ _ _ _ s 0 I0 C0 Ev Hv (path_nil _ _) Hu) as (d & Hd & Hs & _); [lia|].
    unfold wset. rewrite Hd. auto.
  Qed.

  Lemma find_lim gr g s x target limit maxs ws ws' mw :
    pg_wf n gr -> pg_wf n g -> pg_le gr g -> x < n -> 1 <= maxs -> limit <= umax c ->
    rowlim maxs gr g s x ws -> target < n -> target <> x ->
    ws_find_max_weight c H ws g target limit maxs = Ok (ws', mw) ->
    rowlim maxs gr g s x ws' /\ (limit < mw -> wset ws' s = true /\ target <> s) /\
    mw = (if target =? s then 0 else match wl ws' target with Some d => wd_weight d | None => umax c end) /\
    (limit < mw -> ws_settled ws' < maxs -> forall W, path (arelx gr x) s target W -> W < umax c -> limit < W).
  Proof.
    intros Wr W Hle Hx Hm Hlim (I0 & C0 & X0 & Hset & Hgr) Ht Htx HE. unfold ws_find_max_weight in HE.
    assert (0 < umax c) as Hu by lia.
    destruct (wi_base _ _ _ _ _ _ _ I0) as [Hn' Hd Hf].
    rewrite (wf_n _ _ W), Hn', N.eqb_refl in HE. cbn [assert bind] in HE.
    rewrite (wi_start _ _ _ _ _ _ _ I0), (wi_avoid _ _ _ _ _ _ _ I0) in HE. unfold INVALID_NODE in HE.
    pose proof (wi_s _ _ _ _ _ _ _ I0). pose proof (wi_sx _ _ _ _ _ _ _ I0).
    destruct (N.eqb_spec s (umax c)) as [|_]; [lia|]. cbn [negb assert bind] in HE.
    destruct (N.eqb_spec s x) as [|_]; [lia|]. destruct (N.eqb_spec target x) as [|_]; [lia|].
    cbn [negb andb assert bind] in HE.
    destruct (N.eqb_spec target s) as [->|Hts].
    { injection HE as <- <-. unfold WEIGHT_ZERO. split; [split; [auto|split; [auto|split; [auto|split; auto]]]|]. split; [intros G; lia|].
      split; [auto|]. intros G; lia. }
    rewrite (vf_is_valid_ok n _ _ Hf Ht) in HE. cbn [bind] in HE.
    destruct (getN_lt (ws_data ws) target) as [d Hd']; [lia|]. rewrite (idx_Some _ _ _ Hd') in HE. cbn [bind] in HE.
    destruct (vfb (ws_flags ws) target && (wd_settled d || (wd_weight d <=? limit))) eqn:Ec.
    { injection HE as <- <-. apply andb_true_iff in Ec as [Ev Ec].
      assert (wl ws target = Some d) as Hw by (unfold wl, view; rewrite Ev; auto).
      split; [split; [auto|split; [auto|split; [auto|split; auto]]]|]. rewrite Hw.
      assert (limit < wd_weight d -> wd_settled d = true) as Hsd.
      { intros G. apply orb_true_iff in Ec as [Es|El]; auto. apply N.leb_le in El. lia. }
      split; [|split; auto].
      - intros G. split; auto. apply (start_settled gr s x ws target); auto. unfold wset. rewrite Hw. auto.
      - intros G _ W' Hp HWm. destruct (cmp_path c Hdbg n Hn _ _ _ _ _ _ C0 Hp HWm) as [(d' & Hd'' & G')|(h & Hh & G')].
        + assert (d' = d) by congruence. subst. lia.
        + pose proof (wi_mono _ _ _ _ _ _ _ I0 _ _ _ Hw (Hsd G) Hh). lia. }
    apply bind_Ok in HE as (ws2 & EL & HE).
    destruct (exists_bnd g) as (B & HB).
    pose proof (ws_loop_lim g gr gr s x B target limit maxs (ws_fuel c ws g) ws W HB Hle Hx Hgr I0 C0 X0) as G.
    rewrite EL in G. cbn [wp] in G. destruct G as (I' & C' & Hdone & Hset' & X' & Hs').
    { unfold mu, ws_fuel. rewrite fsize_of. unfold lenN. pose proof (udeg_le (wset ws) (pg_out g) 0). lia. }
    rewrite (get_current_weight_ok c n _ _ (wi_base _ _ _ _ _ _ _ I') Ht) in HE. cbn [bind] in HE. injection HE as <- <-.
    set (mw := match wl ws2 target with Some d => wd_weight d | None => umax c end).
    split; [|split; [|split; auto]].
    - split; auto. split; auto. split; auto. split; [lia|].
      intros u v w Hu'. apply Hgr. destruct Hu' as [Hu'|Hu']; auto. right.
      destruct (wset ws s) eqn:Es; auto. apply Hset' in Es. congruence.
    - intros Hgt. split; auto. destruct (N.lt_ge_cases (ws_settled ws2) maxs) as [Hlt|Hge].
      + destruct (Hdone Hlt) as [Hall|(d' & Hd0 & G)]; [|unfold mw in Hgt; rewrite Hd0 in Hgt; lia].
        destruct (wc_zero _ _ _ _ _ _ _ C') as (d0 & Hd0 & Hz). unfold wset. rewrite Hd0.
        destruct (wd_settled d0) eqn:E0; auto.
        pose proof (Hall _ (wc_queued _ _ _ _ _ _ _ C' _ _ Hd0 E0 (fun F => F))) as G. simpl in G. lia.
      + destruct (wc_count _ _ _ _ _ _ _ C') as (L & _ & L2 & L3). destruct L as [|v L]; [change (lenN (@nil N)) with 0 in L2; lia|].
        apply (start_settled gr s x ws2 v); auto. apply L3. left; auto.
    - intros Hgt Hlt W' Hp HWm. destruct (Hdone Hlt) as [Hall|(d' & Hd0 & G)]; [|unfold mw in Hgt; rewrite Hd0 in Hgt; lia].
      destruct (cmp_path c Hdbg n Hn _ _ _ _ _ _ C' Hp HWm) as [(d' & Hd0 & G)|(h & Hh & G)].
      + unfold mw in Hgt. rewrite Hd0 in Hgt. lia.
      + specialize (Hall h Hh). lia.
  Qed.

  (** No path is found to a node that can only be reached over heavy or far arcs. *)
  Definition hidden (maxs : N) (gr : PrepGraph) (s x target limit : N) : Prop :=
    forall m w, arelx gr x m target w ->
      (forall W, path (arelx gr x) s m W -> limit < W + w) \/
      (exists D Z, NoDup Z /\ maxs <= lenN Z /\ D < umax c /\ (forall z, In z Z -> reach gr x s z D) /\
         forall W, path (arelx gr x) s m W -> D < W).

  Lemma miss_lim maxs gr g s x target limit ws : rowlim maxs gr g s x ws -> target <> s -> limit < umax c ->
    hidden maxs gr s x target limit ->
    limit < match wl ws target with Some d => wd_weight d | None => umax c end.
  Proof.
    intros (I0 & C0 & X0 & Hset & _) Hts Hlim Hh. destruct (wl ws target) as [d|] eqn:E; auto.
    destruct (we_from _ _ _ _ X0 _ _ E Hts) as (m & dm & w & Hm & Hsm & Ha & Hw).
    destruct (wi_label _ _ _ _ _ _ _ I0 _ _ Hm) as (W & HW & Hp).
    destruct (Hh m w Ha) as [G|(D & Z & Hd & Hl & HD & HZ & G)]; specialize (G W Hp); [lia|]. exfalso.
    destruct (we_count _ _ _ _ X0) as (L & HL1 & HL2).
    assert (NoDup (m :: Z) /\ forall v, In v (m :: Z) -> In v L) as (Hnd & Hin).
    { assert (forall z, In z Z -> exists dz, wl ws z = Some dz /\ wd_settled dz = true /\ wd_weight dz <= D) as G2.
      { intros z Hz. destruct (HZ z Hz) as (W' & HW' & Hp').
        destruct (settled_order _ _ _ _ _ _ z W' I0 C0 Hm Hsm Hp') as (dz & A & B & Q); [lia|lia|]. exists dz. split; auto. split; auto. lia. }
      split.
      - constructor; auto. intros Hz. destruct (G2 m Hz) as (dz & A & _ & B). assert (dz = dm) by congruence. subst. lia.
      - intros v [<-|Hv]; apply HL2; unfold wset; [rewrite Hm; auto|]. destruct (G2 v Hv) as (dz & -> & B & _). auto. }
    pose proof (NoDup_incl_length Hnd Hin) as G3. unfold lenN in *. cbn [List.length] in G3. lia.
  Qed.

  (** The second node to be settled is the nearest neighbour of the start. *)
  Definition near (gr : PrepGraph) (s x target limit : N) : Prop :=
    exists y a b, arelx gr x s y a /\ arelx gr x y target b /\ a + b <= limit /\
      forall m W, path (arelx gr x) s m W -> m = s \/ m = y \/ a < W.

  Lemma hit_lim maxs gr g s x target limit ws : rowlim maxs gr g s x ws -> target <> s -> limit < umax c -> 2 <= maxs ->
    near gr s x target limit ->
    (ws_settled ws < maxs -> forall W, path (arelx gr x) s target W -> W < umax c -> limit < W) ->
    match wl ws target with Some d => wd_weight d | None => umax c end <= limit.
  Proof.
    intros (I0 & C0 & X0 & Hset & _) Hts Hlim Hm (y & a & b & A1 & A2 & Hab & Hnear) Hdone.
    assert (path (arelx gr x) s y a) as Py by (rewrite <- (N.add_0_r a); econstructor; [exact A1|constructor]).
    destruct (N.lt_ge_cases (ws_settled ws) maxs) as [Hlt|Hge].
    { exfalso. assert (path (arelx gr x) s target (a + b)) as P.
      { econstructor; [exact A1|]. rewrite <- (N.add_0_r b). econstructor; [exact A2|constructor]. }
      specialize (Hdone Hlt _ P). lia. }
    assert (exists dy, wl ws y = Some dy /\ wd_settled dy = true /\ wd_weight dy <= a) as (dy & Hy & Hsy & Hly).
    { destruct (wc_count _ _ _ _ _ _ _ C0) as (L & L1 & L2 & L3).
      assert (exists v, In v L /\ v <> s) as (v & Hv & Hvs).
      { destruct L as [|p [|q L]]; try (rewrite ?lenN_cons in L2; change (lenN (@nil N)) with 0 in L2; lia). destruct (N.eq_dec p s) as [->|]; [|exists p; simpl; auto].
        exists q. split; [simpl; auto|]. intros ->. inversion L1 as [|? ? Hni _]; subst. apply Hni. simpl; auto. }
      destruct (L3 v Hv) as (_ & _ & Hvset). unfold wset in Hvset. destruct (wl ws v) as [dv|] eqn:Ev; [|discriminate].
      destruct (wi_label _ _ _ _ _ _ _ I0 _ _ Ev) as (W & HW & Hp).
      destruct (Hnear v W Hp) as [|[->|Hlt]]; [contradiction| |].
      - exists dv. split; auto. split; auto.
        destruct (N.le_gt_cases (wd_weight dv) a) as [|Hgt]; auto.
        destruct (settled_order _ _ _ _ _ _ y a I0 C0 Ev Hvset Py) as (dz & B1 & B2 & B3); [lia|lia|]. congruence.
      - destruct (settled_order _ _ _ _ _ _ y a I0 C0 Ev Hvset Py) as (dz & B1 & B2 & B3); [lia|lia|]. eauto. }
    destruct (wc_relaxed _ _ _ _ _ _ _ C0 _ _ _ _ Hy Hsy A2) as [G|(d & -> & G)]; lia.
  Qed.
End LimSearch.

(** ** Contracting a node with limited searches *)
Lemma nth_error_Some_lt {A} (l : list A) i a : nth_error l i = Some a -> (i < List.length l)%nat.
Proof. intros E. apply nth_error_Some. congruence. Qed.
Lemma nth_error_firstn' {A} (l : list A) : forall i j, (j < i)%nat -> nth_error (firstn i l) j = nth_error l j.
Proof.
  induction l as [|a l IH]; intros i j Hj; [rewrite firstn_nil; auto|].
  destruct i; [lia|]. destruct j; simpl; auto. apply IH. lia.
Qed.

Section LimContract.
  Variables (c : cfg) (H : heap_ops) (hinv : list HeapItem -> Prop).
  Hypothesis HL : heap_laws H hinv.
  Hypothesis Hdbg : debug_build c = true.
  Variable n : N.
  Hypothesis Hn : n <= umax c.
  Variable maxs : N.
  Hypothesis Hmaxs : 2 <= maxs.
  Variables (g0 : PrepGraph) (x : N).

  Definition via (u v w : N) : Prop := exists w1 w2, arel g0 u x w1 /\ arel g0 x v w2 /\ w = w1 + w2.

  (** what is known of the graph when the searches from [p] start *)
  Definition rowgraph0 (p : N) (gr : PrepGraph) : Prop :=
    pg_wf n gr /\ pg_le g0 gr /\ forall u v w, arel gr u v w -> arel g0 u v w \/ (u <> p /\ via u v w).
  Definition always_missed0 (p q : N) : Prop := exists wp wq, arel g0 p x wp /\ arel g0 x q wq /\ p <> q /\
    wp + wq < umax c /\ forall gr, rowgraph0 p gr -> hidden c maxs gr p x q (wp + wq).

  (** moreover, the searches from another node have not begun or are complete *)
  Definition rowgraph (p : N) (gr : PrepGraph) : Prop :=
    rowgraph0 p gr /\ forall u, (forall v w, arel gr u v w -> arel g0 u v w) \/
      (forall q, always_missed0 u q -> exists w wp wq, arel gr u q w /\ arel g0 u x wp /\ arel g0 x q wq /\ w <= wp + wq).

  Definition always_missed (p q : N) : Prop := exists wp wq, arel g0 p x wp /\ arel g0 x q wq /\ p <> q /\
    wp + wq < umax c /\ forall gr, rowgraph p gr -> hidden c maxs gr p x q (wp + wq).
  Definition always_found (p q : N) : Prop := exists wp wq, arel g0 p x wp /\ arel g0 x q wq /\ p <> q /\
    wp + wq < umax c /\ forall gr, rowgraph p gr -> near gr p x q (wp + wq).

  Lemma missed0_missed p q : always_missed0 p q -> always_missed p q.
  Proof.
    intros (wp & wq & A & B & Hne & Hlt & Hh). exists wp, wq. do 4 (split; auto). intros gr (Hr & _). auto.
  Qed.

  Lemma handle_lim ws u1 g1 ws1 : pg_wf n g0 -> ws_base n ws ->
    handle_shortcuts c H add_shortcut tt g0 ws x maxs = Ok (u1, g1, ws1) ->
    pg_wf n g1 /\ ws_base n ws1 /\ pg_le g0 g1 /\
    (forall u v w, arel g1 u v w -> arel g0 u v w \/ via u v w) /\
    (forall p q, always_missed p q -> exists w wp wq, arel g1 p q w /\ arel g0 p x wp /\ arel g0 x q wq /\ w <= wp + wq) /\
    (forall p q w, always_found p q -> arel g1 p q w -> arel g0 p q w) /\
    (forall p q wp wq, arel g0 p x wp -> arel g0 x q wq -> wp + wq <= umax c).
  Proof.
    intros W0 Hb E. unfold handle_shortcuts in E.
    apply bind_Ok in E as (ins0 & Ei & E).
    assert (x < n) as Hx.
    { apply idx_Ok, getN_Some_lt in Ei. rewrite (wf_li _ _ W0) in Ei. auto. }
    rewrite (ins_idx _ _ _ W0 Hx) in Ei. injection Ei as <-.
    refine ((fun X => _) (foldM_range_ok _ (fun i '(_, g, ws) => pg_wf n g /\
      outs g x = outs g0 x /\ ins g x = ins g0 x /\ ws_base n ws /\ pg_le g0 g /\
      (forall u v w, arel g u v w -> arel g0 u v w \/ (among (ins g0 x) i u /\ via u v w)) /\
      (forall p q, among (ins g0 x) i p -> always_missed p q ->
         exists w wp wq, arel g p q w /\ arel g0 p x wp /\ arel g0 x q wq /\ w <= wp + wq) /\
      (forall p q w, always_found p q -> arel g p q w -> arel g0 p q w) /\
      (forall p q wp wq, among (ins g0 x) i p -> arel g0 p x wp -> arel g0 x q wq -> wp + wq <= umax c))
      _ _ _ _ _ eq_refl _ _ _ E)).
    { destruct X as (X1 & X2 & X3 & X4 & X5 & X6 & X7 & X8 & X9).
      assert (forall p w, arel g0 p x w -> among (ins g0 x) (lenN (ins g0 x)) p) as Hall.
      { intros p w (k & A). apply among_all. apply (wf_sym _ _ W0) in A. apply (in_map a_adj) in A. auto. }
      split; auto. split; auto. split; auto. split; [|split; [|split; auto]].
      - intros u v w A. destruct (X6 u v w A) as [|(_ & ?)]; auto.
      - intros p q Hm. apply X7; auto. destruct Hm as (wp & wq & A & _). eauto.
      - intros p q wp wq A B. apply (X9 p q); eauto. }
    - lia.
    - repeat (split; auto).
      + apply pg_le_refl.
      + intros p q A. destruct (among_0 c Hdbg n Hn _ _ A).
      + intros p q wp wq A. destruct (among_0 c Hdbg n Hn _ _ A).
    - clear E u1 g1 ws1 ws Hb. intros i [[s g] ws] [[s1 g1] ws1] Hi (W & Ho & Hii & B & Hle & Hor & Hmi & Hfo & Hov) F.
      rewrite (ins_idx _ _ _ W Hx) in F. cbn [bind] in F. rewrite Hii in F.
      apply bind_Ok in F as (ie & Eie & F).
      apply idx_Ok in Eie. pose proof (getN_In _ _ _ Eie) as Hie.
      assert (a_adj ie < n /\ a_adj ie <> x /\ 1 <= a_weight ie) as (Hien & Hiex & Hiew).
      { destruct ie as [u w k]; simpl. apply (wf_sym _ _ W0) in Hie.
        split; [exact (outs_src _ _ _ _ _ _ W0 Hie)|]. apply (wf_arc _ _ W0) in Hie as (_ & Hne & Hw). auto. }
      assert (arel g0 (a_adj ie) x (a_weight ie)) as Aie.
      { exists (a_center ie). apply (wf_sym _ _ W0). rewrite <- arc_eta. auto. }
      assert (~ among (ins g0 x) i (a_adj ie)) as Hnew by (apply (among_new c Hdbg n Hn); auto; apply (wf_ndi _ _ W0)).
      assert (rowgraph (a_adj ie) g) as Hrow.
      { split.
        - split; auto. split; auto. intros u v w A. destruct (Hor u v w A) as [|(Q & V)]; auto. right. split; auto.
          intros ->. auto.
        - intros u. destruct (in_dec N.eq_dec u (map a_adj (firstn (N.to_nat i) (ins g0 x)))) as [Hin|Hni].
          + right. intros q Hq. apply Hmi; [|apply missed0_missed; auto].
            apply in_map_iff in Hin as (e & <- & Hin). apply In_getN in Hin as (j & Hj & Ej). exists j, e.
            rewrite getN_nth in Ej. pose proof Ej as Ej'. assert (N.to_nat j < N.to_nat i)%nat as Hlt.
            { apply nth_error_Some_lt in Ej. rewrite firstn_length in Ej. lia. }
            split; [lia|]. split; auto. rewrite getN_nth. rewrite nth_error_firstn' in Ej'; auto.
          + left. intros v w A. destruct (Hor u v w A) as [|(Q & V)]; auto. exfalso. apply Hni.
            destruct Q as (j & e & Hj & Ej & <-). apply in_map. rewrite getN_nth in Ej.
            apply (nth_error_In _ (N.to_nat j)). rewrite nth_error_firstn'; auto. lia. }
      destruct (rowlim_init c H hinv HL Hdbg n Hn maxs g (a_adj ie) x ws B Hien Hiex) as (w1 & G1 & J1).
      rewrite G1 in F. cbn [bind] in F. rewrite (outs_idx _ _ _ W Hx) in F. cbn [bind] in F. rewrite Ho in F.
      refine ((fun X => _) (foldM_range_ok _ (fun j '(_, g', ws) =>
        pg_wf n g' /\ pg_le g g' /\ outs g' x = outs g0 x /\ ins g' x = ins g0 x /\
        rowlim c hinv n maxs g g' (a_adj ie) x ws /\
        (forall u v w, arel g' u v w -> arel g u v w \/ (u = a_adj ie /\ via u v w)) /\
        (forall q, among (outs g0 x) j q -> always_missed (a_adj ie) q ->
           exists w wp wq, arel g' (a_adj ie) q w /\ arel g0 (a_adj ie) x wp /\ arel g0 x q wq /\ w <= wp + wq) /\
        (forall q w, always_found (a_adj ie) q -> arel g' (a_adj ie) q w -> arel g (a_adj ie) q w) /\
        (forall q wp wq, among (outs g0 x) j q -> arel g0 (a_adj ie) x wp -> arel g0 x q wq -> wp + wq <= umax c))
        _ _ _ _ _ eq_refl _ _ _ F)).
      { destruct X as (X1 & X2 & X3 & X4 & X5 & X6 & X7 & X8 & X9).
        split; auto. split; auto. split; auto. split; [destruct X5 as (X5 & _); apply (wi_base _ _ _ _ _ _ _ X5)|].
        split; [eapply pg_le_trans; eauto|]. split; [|split; [|split]].
        - intros u v w A. destruct (X6 u v w A) as [A'|(-> & V)].
          + destruct (Hor _ _ _ A') as [|(Q & V)]; auto. right. split; auto. apply (among_next c Hdbg n Hn _ _ _ _ Eie). auto.
          + right. split; auto. apply (among_next c Hdbg n Hn _ _ _ _ Eie). auto.
        - intros p q A M. apply (among_next c Hdbg n Hn _ _ _ _ Eie) in A as [A| ->].
          + destruct (Hmi p q A M) as (w & wp & wq & B1 & B2 & B3 & B4).
            destruct (X2 _ _ _ B1) as (w' & B1' & Hw'). exists w', wp, wq. repeat (split; auto). lia.
          + apply X7; auto. apply among_all. destruct M as (wp & wq & _ & (k & M) & _). apply (in_map a_adj) in M. auto.
        - intros p q w M A. destruct (N.eq_dec p (a_adj ie)) as [->|Hp].
          + apply (Hfo _ _ _ M). apply X8; auto.
          + apply (Hfo _ _ _ M). destruct (X6 _ _ _ A) as [|(? & _)]; auto. congruence.
        - intros p q wp wq A P Q. apply (among_next c Hdbg n Hn _ _ _ _ Eie) in A as [A| ->]; [eauto|].
          apply (X9 q); auto. apply among_all. destruct Q as (k & Q). apply (in_map a_adj) in Q. auto. }
      + lia.
      + split; auto. split; [apply pg_le_refl|]. do 5 (split; auto).
        * intros q A. destruct (among_0 c Hdbg n Hn _ _ A).
        * split; auto. intros q wp wq A. destruct (among_0 c Hdbg n Hn _ _ A).
      + clear F G1 J1 w1. intros j [[sa ga] wa] [[sb gb] wb] Hj (Wa & Hlea & Hoa & Hia & Ra & Oa & Ma & Fa & Va) F.
        rewrite (ins_idx _ _ _ Wa Hx) in F. cbn [bind] in F. rewrite Hia, (idx_Some _ _ _ Eie) in F.
        cbn [bind] in F. rewrite (outs_idx _ _ _ Wa Hx) in F. cbn [bind] in F. rewrite Hoa in F.
        apply bind_Ok in F as (oe & Eoe & F).
        apply idx_Ok in Eoe. pose proof (getN_In _ _ _ Eoe) as Hoe.
        assert (a_adj oe < n /\ a_adj oe <> x) as (Hoen & Hoex).
        { destruct oe as [u w k]; simpl. apply (wf_arc _ _ W0) in Hoe as (Hlt & Hne & _). auto. }
        apply bind_Ok in F as (wt & Ewt & F).
        assert (wt <= umax c /\ wt = a_weight ie + a_weight oe) as [Hwt Hwe].
        { unfold uadd in Ewt. rewrite Hdbg in Ewt. destruct (N.leb_spec (a_weight ie + a_weight oe) (umax c)); [|discriminate].
          injection Ewt as <-. auto. }
        apply bind_Ok in F as ([wa' mwa] & Efa & F).
        destruct (find_lim c H hinv HL Hdbg n Hn g ga (a_adj ie) x (a_adj oe) wt maxs wa wa' mwa) as (Ra' & Sa & Da & Na); auto; [lia|].
        assert (arel g0 x (a_adj oe) (a_weight oe)) as Aoe.
        { exists (a_center oe). rewrite <- arc_eta. auto. }
        assert (always_missed (a_adj ie) (a_adj oe) -> wt < mwa) as Hmiss.
        { intros (wp & wq & B1 & B2 & Hne & Hlt & Hh).
          rewrite (arel_fun _ _ _ _ _ _ W0 B1 Aie), (arel_fun _ _ _ _ _ _ W0 B2 Aoe), <- Hwe in *.
          rewrite Da. destruct (N.eqb_spec (a_adj oe) (a_adj ie)) as [E|_]; [congruence|].
          apply (miss_lim c hinv Hdbg n Hn maxs g ga (a_adj ie) x); auto. }
        assert (always_found (a_adj ie) (a_adj oe) -> mwa <= wt) as Hhit.
        { intros (wp & wq & B1 & B2 & Hne & Hlt & Hh).
          rewrite (arel_fun _ _ _ _ _ _ W0 B1 Aie), (arel_fun _ _ _ _ _ _ W0 B2 Aoe), <- Hwe in *.
          destruct (N.le_gt_cases mwa wt) as [|Hgt]; auto.
          rewrite Da. destruct (N.eqb_spec (a_adj oe) (a_adj ie)) as [E|_]; [lia|].
          apply (hit_lim c hinv Hdbg n Hn maxs g ga (a_adj ie) x); auto. }
        assert (forall q wp wq, among (outs g0 x) (j + 1) q -> arel g0 (a_adj ie) x wp -> arel g0 x q wq -> wp + wq <= umax c) as Va'.
        { intros q wp wq A P Q. apply (among_next c Hdbg n Hn _ _ _ _ Eoe) in A as [A| ->]; [eauto|].
          rewrite (arel_fun _ _ _ _ _ _ W0 P Aie), (arel_fun _ _ _ _ _ _ W0 Q Aoe). lia. }
        destruct (N.leb_spec mwa wt) as [La|La].
        * injection F as <- <- <-. do 6 (split; auto). split; auto. intros q A M.
          apply (among_next c Hdbg n Hn _ _ _ _ Eoe) in A as [A| ->]; auto. specialize (Hmiss M). lia.
        * apply bind_Ok in F as ([se ge] & Eha & F). injection F as <- <- <-.
          destruct (Sa La) as (Sa1 & Sa2).
          assert (1 <= wt) as Hw1 by lia.
          destruct (add_shortcut_ok n x _ _ (mkShortcut (a_adj ie) (a_adj oe) x wt) _ _ Wa Hien Hoen
            (fun E => Sa2 (eq_sym E)) Hiex Hoex Hw1 Eha) as (We & Hlee & Hoe' & Hie' & Hun).
          simpl in Hun. unfold add_shortcut in Eha. simpl in Eha. apply bind_Ok in Eha as (g2 & Eha & EE). injection EE as <- <-.
          destruct (add_or_reduce_spec n ga (a_adj ie) (a_adj oe) wt x Wa Hien Hoen (fun E => Sa2 (eq_sym E)) Hw1)
            as (g3 & E3 & _ & Ho3 & _ & Hor3 & _ & (w2 & k2 & Hin2 & Hl2)).
          rewrite Eha in E3. injection E3 as <-.
          split; auto. split; [eapply pg_le_trans; eauto|]. split; [congruence|]. split; [congruence|]. split; [|split; [|split; [|split; auto]]].
          -- destruct Ra' as (P1 & P2 & P3 & P4 & P5). split; [auto|split; [auto|split; [auto|split; [auto|]]]].
             intros u v w [Hu|Hu] Har; [|congruence]. apply P5; auto.
          -- intros u v w A. destruct (N.eq_dec u (a_adj ie)) as [->|Hu].
             ++ destruct A as (k & A). apply Hor3 in A as [A|(_ & -> & -> & _)]; [apply Oa; exists k; auto|].
                right. split; auto. exists (a_weight ie), (a_weight oe). auto.
             ++ apply Oa, Hun; auto.
          -- intros q A M. apply (among_next c Hdbg n Hn _ _ _ _ Eoe) in A as [A| ->].
             ++ destruct (Ma q A M) as (w & wp & wq & B1 & B2 & B3 & B4).
                destruct (Hlee _ _ _ B1) as (w' & B1' & Hw'). exists w', wp, wq. repeat (split; auto). lia.
             ++ exists w2, (a_weight ie), (a_weight oe). split; [exists k2; auto|]. split; auto. split; auto. lia.
          -- intros q w M A. apply Fa; auto. destruct A as (k & A). apply Hor3 in A as [A|(_ & -> & -> & _)]; [exists k; auto|].
             specialize (Hhit M). lia.
  Qed.

  Lemma contract_lim ws g' ws' : pg_wf n g0 -> ws_base n ws ->
    contract_node c H g0 ws x maxs = Ok (g', ws') ->
    pg_wf n g' /\ ws_base n ws' /\
    (forall u v w, arel g0 u v w -> u <> x -> v <> x -> exists w', arel g' u v w' /\ w' <= w) /\
    (forall u v w, arel g' u v w -> u <> x /\ v <> x /\ (arel g0 u v w \/ via u v w)) /\
    (forall p q, always_missed p q -> exists w wp wq, arel g' p q w /\ arel g0 p x wp /\ arel g0 x q wq /\ w <= wp + wq) /\
    (forall p q w, always_found p q -> arel g' p q w -> arel g0 p q w) /\
    (forall p q wp wq, arel g0 p x wp -> arel g0 x q wq -> wp + wq <= umax c).
  Proof.
    intros W Hb E. unfold contract_node in E. apply bind_Ok in E as ([[u1 g1] ws1] & F & E).
    assert (x < n) as Hx.
    { unfold handle_shortcuts in F. apply bind_Ok in F as (ins0 & Ei & _). apply idx_Ok, getN_Some_lt in Ei.
      rewrite (wf_li _ _ W) in Ei. auto. }
    destruct (handle_lim _ _ _ _ W Hb F) as (W1 & B1 & Hle & Hor & Hmi & Hfo & Hov).
    destruct (disconnect_spec n g1 x W1 Hx) as (g2 & D & W2 & Ho2 & Hi2). rewrite D in E. cbn [bind] in E.
    injection E as <- <-.
    assert (forall p q w, arel g2 p q w <-> arel g1 p q w /\ p <> x /\ q <> x) as Hd.
    { intros p q w. unfold arel. rewrite Ho2. destruct (N.eqb_spec p x) as [->|Hp].
      + split; [intros (? & [])|tauto].
      + split.
        * intros (k & Ha). apply without_In in Ha as [Ha Hq]. simpl in Hq. split; eauto.
        * intros ((k & Ha) & _ & Hq). exists k. apply without_In. auto. }
    split; auto. split; auto. split; [|split; [|split; [|split; auto]]].
    - intros u v w A Hu Hv. destruct (Hle _ _ _ A) as (w' & A' & Hw). exists w'. split; auto. apply Hd. auto.
    - intros u v w A. apply Hd in A as (A & Hu & Hv). auto.
    - intros p q M. destruct (Hmi p q M) as (w & wp & wq & A & A1 & A2 & Hw). exists w, wp, wq. split; auto. apply Hd. split; auto.
      destruct A1 as (k1 & A1). destruct A2 as (k2 & A2). apply (wf_arc _ _ W) in A1. apply (wf_arc _ _ W) in A2.
      split; [|intros ->]; intuition.
    - intros p q w M A. apply Hd in A as (A & _). eauto.
  Qed.
End LimContract.
