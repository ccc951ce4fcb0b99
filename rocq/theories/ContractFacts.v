(** * ContractFacts: contracting a node keeps all distances between the other nodes *)
From Verif Require Export WitnessFacts Contractor.
From Coq Require Import ZArith.
Open Scope N_scope.

(** The effect of contracting [x]: it is isolated, new arcs are shortcuts over [x], and
    all paths between other nodes lighter than WEIGHT_MAX are kept, up to weight. *)
Record cstep (c : cfg) (n : N) (g : PrepGraph) (x : N) (g' : PrepGraph) : Prop := mk_cstep {
  cs_wf : pg_wf n g';
  cs_out : outs g' x = [];
  cs_in : ins g' x = [];
  cs_origin : forall u v w k, In (mkArc v w k) (outs g' u) -> u <> x /\ v <> x /\
    (In (mkArc v w k) (outs g u) \/
     (k = x /\ w < umax c /\ exists w1 k1 w2 k2,
        In (mkArc x w1 k1) (outs g u) /\ In (mkArc v w2 k2) (outs g x) /\ w = w1 + w2));
  cs_pres : forall u v W, path (arel g) u v W -> u <> x -> v <> x -> W < umax c ->
    exists W', W' <= W /\ path (arel g') u v W'
}.

(** Contracting [x] keeps the arcs between other nodes, up to weight, and in case of [full] it
    adds only shortcuts that are lighter than every path around [x]. *)
Record csmin (full : Prop) (g : PrepGraph) (x : N) (g' : PrepGraph) : Prop := mk_csmin {
  cm_keep : forall u v w, arel g u v w -> u <> x -> v <> x -> exists w', arel g' u v w' /\ w' <= w;
  cm_new : forall u v w k, In (mkArc v w k) (outs g' u) ->
    In (mkArc v w k) (outs g u) \/
    (k = x /\ u <> x /\ v <> x /\ (full -> forall W, path (arelx g x) u v W -> w < W))
}.

Section Contract.
  Variables (c : cfg) (H : heap_ops) (hinv : list HeapItem -> Prop).
  Hypothesis HL : heap_laws H hinv.
  Hypothesis Hdbg : debug_build c = true.
  Variables (n : N) (allow : Prop).
  Hypothesis Hn : n <= umax c.

  Lemma handle_shortcuts_spec {S : Type}
    (handler : S -> PrepGraph -> Shortcut -> res (S * PrepGraph))
    (x B maxs : N) (g0 : PrepGraph) (ws0 : WitnessSearch) (s0 : S)
    (J : N -> N -> S -> PrepGraph -> Prop) :
    x < n -> ws_base n ws0 ->
    (forall i j s g, J i j s g -> pg_wf n g /\ pg_bnd B g /\
        outs g x = outs g0 x /\ ins g x = ins g0 x /\ pg_le g0 g) ->
    (forall ie oe, In ie (ins g0 x) -> In oe (outs g0 x) ->
        umax c < a_weight ie + a_weight oe + B -> allow) ->
    J 0 0 s0 g0 ->
    (forall i s g, i < lenN (ins g0 x) -> J i (lenN (outs g0 x)) s g -> J (i + 1) 0 s g) ->
    (forall i j s g ie oe, getN (ins g0 x) i = Some ie -> getN (outs g0 x) j = Some oe ->
        J i j s g ->
        (a_weight ie + a_weight oe < umax c ->
           reach g x (a_adj ie) (a_adj oe) (a_weight ie + a_weight oe)) ->
        J i (j + 1) s g) ->
    (forall i j s g ie oe, getN (ins g0 x) i = Some ie -> getN (outs g0 x) j = Some oe ->
        J i j s g -> a_weight ie + a_weight oe < umax c -> a_adj ie <> a_adj oe ->
        (n <= maxs -> forall W, path (arelx g0 x) (a_adj ie) (a_adj oe) W -> a_weight ie + a_weight oe < W) ->
        wp (lim allow)
           (handler s g (mkShortcut (a_adj ie) (a_adj oe) x (a_weight ie + a_weight oe)))
           (fun '(s', g') => J i (j + 1) s' g' /\ pg_le g g')) ->
    wp (lim allow) (handle_shortcuts c H handler s0 g0 ws0 x maxs)
       (fun '(s', g', ws') => J (lenN (ins g0 x)) 0 s' g' /\ ws_base n ws').
  Proof.
    intros Hx Hb0 HJ Hov J0 Jrow Jskip Jshort. unfold handle_shortcuts.
    destruct (HJ _ _ _ _ J0) as (W0 & _ & _ & _ & _).
    rewrite (ins_idx _ _ _ W0 Hx). cbn [bind].
    apply (wp_foldM_range _ _ (fun i '(s, g, ws) => J i 0 s g /\ ws_base n ws)); [lia|auto|].
    intros i [[s g] ws] Hi (Ji & Hb). destruct (HJ _ _ _ _ Ji) as (W & HB & Ho & Hin & _).
    rewrite (ins_idx _ _ _ W Hx). cbn [bind]. rewrite Hin.
    destruct (getN_lt (ins g0 x) i) as [ie Hie]; [lia|]. rewrite (idx_Some _ _ _ Hie). cbn [bind].
    assert (In ie (ins g0 x)) as Hie' by (eapply getN_In; eauto).
    assert (a_adj ie < n /\ a_adj ie <> x) as (Hien & Hiex).
    { destruct ie as [u w k]; simpl. apply (wf_sym _ _ W0) in Hie'.
      split; [exact (outs_src _ _ _ _ _ _ W0 Hie')|]. apply (wf_arc _ _ W0) in Hie' as (_ & Hne & _). auto. }
    destruct (ws_init_spec c H hinv HL Hdbg n Hn g g0 (a_adj ie) x ws Hb Hien Hiex) as (ws1 & -> & I1).
    cbn [bind]. rewrite (outs_idx _ _ _ W Hx). cbn [bind]. rewrite Ho.
    eapply wp_mono.
    - apply (wp_foldM_range _ _ (fun j '(s, g, ws) => J i j s g /\
               (ws_inv c hinv n g (a_adj ie) x ws /\ ws_cmp c n g0 (a_adj ie) x (fun _ => False) ws)));
        [lia|auto|].
      intros j [[s2 g2] ws2] Hj (Jij & I2 & C2). destruct (HJ _ _ _ _ Jij) as (W2 & HB2 & Ho2 & Hin2 & Hle2).
      rewrite (ins_idx _ _ _ W2 Hx). cbn [bind]. rewrite Hin2, (idx_Some _ _ _ Hie). cbn [bind].
      rewrite (outs_idx _ _ _ W2 Hx). cbn [bind]. rewrite Ho2.
      destruct (getN_lt (outs g0 x) j) as [oe Hoe]; [lia|]. rewrite (idx_Some _ _ _ Hoe). cbn [bind].
      assert (In oe (outs g0 x)) as Hoe' by (eapply getN_In; eauto).
      assert (a_adj oe < n /\ a_adj oe <> x) as (Hoen & Hoex).
      { destruct oe as [u w k]; simpl. apply (wf_arc _ _ W0) in Hoe' as (Hlt & Hne & _). auto. }
      apply wp_bind, wp_uadd; auto.
      { intros Hgt. apply (Hov ie oe); auto. lia. }
      intros Hsum. eapply wp_bind_mono.
      { eapply (find_max_weight_spec c H hinv HL Hdbg n allow) with (B := B) (gr := g2) (gb := g0) (s := a_adj ie) (x := x); eauto. }
      intros [ws3 mw] ((I3 & C3) & Hreach & Hmax & Hst & Hcmp & _).
      destruct (N.leb_spec mw (a_weight ie + a_weight oe)) as [Hle|Hgt].
      + simpl. split; auto. eapply Jskip; eauto.
      + eapply wp_bind_mono.
        { eapply Jshort; eauto; [lia| |].
          - intros E. symmetry in E. specialize (Hst E). lia.
          - intros Hm W' Hp. destruct (N.lt_ge_cases (a_weight ie + a_weight oe) W') as [|G]; auto.
            specialize (Hcmp Hm W' Hp G). lia. }
        intros [s3 g3] (J3 & Hle3). simpl. split; auto. split; auto. eapply ws_inv_le; eauto.
    - intros [[s2 g2] ws2] (J2 & I2 & _). split.
      + apply Jrow; auto. lia.
      + apply (wi_base _ _ _ _ _ _ _ I2).
  Qed.

  Definition origin1 (g0 : PrepGraph) (x : N) (g : PrepGraph) : Prop :=
    forall u v w k, In (mkArc v w k) (outs g u) ->
      In (mkArc v w k) (outs g0 u) \/
      (k = x /\ w < umax c /\ exists w1 k1 w2 k2,
         In (mkArc x w1 k1) (outs g0 u) /\ In (mkArc v w2 k2) (outs g0 x) /\ w = w1 + w2).

  (** paths over [x] have a replacement *)
  Definition bridged (g0 : PrepGraph) (x : N) (g : PrepGraph) : Prop :=
    forall u w1 v w2, arel g0 u x w1 -> arel g0 x v w2 -> w1 + w2 < umax c ->
      reach g x u v (w1 + w2).

  Lemma path_avoid g0 x g u v W :
    pg_wf n g0 -> pg_le g0 g -> bridged g0 x g ->
    path (arel g0) u v W -> v <> x -> W < umax c ->
    (u <> x -> reach g x u v W) /\
    (u = x -> forall p w1, arel g0 p x w1 -> w1 + W < umax c -> reach g x p v (w1 + W)).
  Proof.
    intros W0 Hle Hbr Hp Hv. revert Hv. induction Hp as [u|u y v w W Hr Hp IH]; intros Hv HW.
    - split; [intros; apply reach_refl|congruence].
    - destruct IH as [IH1 IH2]; auto; [lia|]. split.
      + intros Hu. destruct (N.eq_dec y x) as [->|Hy].
        * apply (IH2 eq_refl u w Hr). auto.
        * destruct (Hle _ _ _ Hr) as (w' & Hr' & Hw'). destruct (IH1 Hy) as (W' & HW' & Hp').
          exists (w' + W'). split; [lia|]. econstructor; eauto. split; auto.
      + intros -> p w1 Hpx Hs.
        assert (y <> x) as Hy. { destruct Hr as [k Hk]. apply (wf_arc _ _ W0) in Hk as (_ & Hne & _). auto. }
        destruct (IH1 Hy) as (W2 & HW2 & Hp2).
        destruct (Hbr _ _ _ _ Hpx Hr) as (W3 & HW3 & Hp3); [lia|].
        exists (W3 + W2). split; [lia|]. eapply path_app; eauto.
  Qed.

  Lemma contract_node_spec g0 ws x maxs B :
    x < n -> pg_wf n g0 -> pg_bnd B g0 -> ws_base n ws ->
    (umax c < 4 * B -> allow) ->
    wp (lim allow) (contract_node c H g0 ws x maxs)
       (fun '(g', ws') => (cstep c n g0 x g' /\ csmin (n <= maxs) g0 x g') /\ ws_base n ws' /\ pg_bnd (2 * B) g').
  Proof.
    intros Hx W0 HB0 Hb Hov. unfold contract_node.
    set (J := fun (i j : N) (_ : unit) (g : PrepGraph) =>
      pg_wf n g /\ pg_bnd (2 * B) g /\ outs g x = outs g0 x /\ ins g x = ins g0 x /\
      pg_le g0 g /\ (origin1 g0 x g /\
        forall u v w k, In (mkArc v w k) (outs g u) -> In (mkArc v w k) (outs g0 u) \/
          (k = x /\ u <> x /\ v <> x /\ (n <= maxs -> forall W, path (arelx g0 x) u v W -> w < W))) /\
      (forall i' j' ie oe, getN (ins g0 x) i' = Some ie -> getN (outs g0 x) j' = Some oe ->
         (i' < i \/ (i' = i /\ j' < j)) -> a_weight ie + a_weight oe < umax c ->
         reach g x (a_adj ie) (a_adj oe) (a_weight ie + a_weight oe))).
    assert (forall ie, In ie (ins g0 x) -> a_weight ie <= B) as HBi.
    { intros [u w k] Hi. apply (wf_sym _ _ W0) in Hi. simpl. eapply HB0; eauto. }
    assert (forall oe, In oe (outs g0 x) -> a_weight oe <= B) as HBo.
    { intros [u w k] Hi. simpl. eapply HB0; eauto. }
    eapply wp_bind_mono.
    - apply (handle_shortcuts_spec add_shortcut x (2 * B) maxs g0 ws tt J); auto.
      + intros i j s g (H1 & H2 & H3 & H4 & H5 & _). auto.
      + intros ie oe Hi Ho Hlt. apply Hov. apply HBi in Hi. apply HBo in Ho. lia.
      + unfold J. split; auto. split. { intros u v w k Hin. apply HB0 in Hin. lia. }
        split; auto. split; auto. split; [apply pg_le_refl|]. split.
        * split; intros u v w k Hin; auto.
        * intros i' j' ie oe _ _ Hlt. exfalso. lia.
      + intros i s g Hi (H1 & H2 & H3 & H4 & H5 & H6 & H7).
        unfold J. do 6 (split; auto). intros i' j' ie oe Hi' Hj' Hlt. apply (H7 i' j'); auto.
        apply getN_Some_lt in Hj'. lia.
      + intros i j s g ie oe Hi Hj (H1 & H2 & H3 & H4 & H5 & H6 & H7) Hr.
        unfold J. do 6 (split; auto). intros i' j' ie' oe' Hi' Hj' Hlt Hs.
        assert (i' < i \/ i' = i /\ j' < j \/ (i' = i /\ j' = j)) as [Hc|[Hc|[-> ->]]] by lia.
        * apply (H7 i' j'); auto.
        * apply (H7 i' j'); auto.
        * replace ie' with ie in * by congruence. replace oe' with oe in * by congruence. auto.
      + intros i j s g [p w1 k1] [q w2 k2] Hi Hj (H1 & H2 & H3 & H4 & H5 & (H6 & H6') & H7) Hs Hne Hmin.
        simpl in *. unfold add_shortcut; simpl.
        pose proof (getN_In _ _ _ Hi) as Hii. pose proof (getN_In _ _ _ Hj) as Hjj.
        assert (In (mkArc x w1 k1) (outs g0 p)) as Hpo by (apply (wf_sym _ _ W0); auto).
        pose proof (wf_arc _ _ W0 _ _ _ _ Hpo) as (_ & Hpx & Hw1).
        pose proof (outs_src _ _ _ _ _ _ W0 Hpo) as Hpn.
        pose proof (wf_arc _ _ W0 _ _ _ _ Hjj) as (Hqn & Hqx & Hw2).
        destruct (add_or_reduce_spec n g p q (w1 + w2) x H1) as
          (g' & -> & W' & Ho' & Hi' & Horig' & Hle' & (w3 & k3 & Hnew & Hnw)); auto; try lia.
        simpl. assert (pg_le g g') as Hleg.
        { intros u v w (k & Hin). destruct (Hle' _ _ _ _ Hin) as (w' & k' & Hin' & Hw').
          exists w'; split; auto. exists k'; auto. }
        split; auto. unfold J. split; auto. split; [|split; [|split; [|split; [|split]]]].
        * intros u v w k Hin. apply Horig' in Hin as [Hin|(-> & -> & -> & ->)].
          -- eapply H2; eauto.
          -- specialize (HB0 _ _ _ _ Hpo). specialize (HBo _ Hjj). simpl in HBo. lia.
        * rewrite Ho' by auto. auto.
        * rewrite Hi' by auto. auto.
        * eapply pg_le_trans; eauto.
        * split; intros u v w k Hin; apply Horig' in Hin as [Hin|(-> & -> & -> & ->)]; [auto| |auto|].
          -- right. split; auto. split; auto. exists w1, k1, w2, k2. auto.
          -- right. auto.
        * intros i' j' ie' oe' Hi'' Hj'' Hlt Hs'.
          assert (i' < i \/ i' = i /\ j' < j \/ (i' = i /\ j' = j)) as [Hc|[Hc|[-> ->]]] by lia.
          -- eapply reach_mono; [eauto|apply (H7 i' j'); auto|lia].
          -- eapply reach_mono; [eauto|apply (H7 i' j'); auto|lia].
          -- rewrite Hi in Hi''. injection Hi'' as <-. rewrite Hj in Hj''. injection Hj'' as <-.
             simpl. exists w3. split; auto. apply path_one. split; [exists k3; auto|auto].
    - intros [[s g1] ws1] ((W1 & HB1 & Ho1 & Hi1 & Hle1 & (Hor1 & Hmin1) & Hdone) & Hb1).
      destruct (disconnect_spec n g1 x W1 Hx) as (g2 & -> & W2 & Ho2 & Hi2). simpl.
      assert (bridged g0 x g1) as Hbr.
      { intros u w1 v w2 (k1 & H1) (k2 & H2) Hs. apply (wf_sym _ _ W0) in H1.
        apply In_getN in H1 as (i & Hil & Hi). apply In_getN in H2 as (j & Hjl & Hj).
        apply (Hdone i j _ _ Hi Hj); auto. }
      split; [split|split; auto].
      2:{ constructor.
          - intros u v w Hr Hu Hv. destruct (Hle1 _ _ _ Hr) as (w' & (k & Hk) & Hw'). exists w'. split; auto.
            exists k. rewrite Ho2. destruct (N.eqb_spec u x); [congruence|]. apply without_In; auto.
          - intros u v w k Hin. rewrite Ho2 in Hin. destruct (N.eqb_spec u x) as [->|Hu]; [destruct Hin|].
            apply without_In in Hin as [Hin Hv]. auto. }
      + constructor; auto.
        * rewrite Ho2, N.eqb_refl; auto.
        * rewrite Hi2, N.eqb_refl; auto.
        * intros u v w k Hin. rewrite Ho2 in Hin. destruct (N.eqb_spec u x) as [->|Hu]; [destruct Hin|].
          apply without_In in Hin as [Hin Hv]. simpl in Hv. split; auto.
        * intros u v W Hp Hu Hv HW.
          destruct (path_avoid g0 x g1 u v W W0 Hle1 Hbr Hp Hv HW) as [Hav _].
          destruct (Hav Hu) as (W' & HW' & Hp'). exists W'. split; auto.
          eapply path_sub; [|exact Hp']. intros a b w ((k & Hin) & Ha & Hb'). exists k.
          rewrite Ho2. destruct (N.eqb_spec a x); [congruence|]. apply without_In; auto.
      + intros u v w k Hin. rewrite Ho2 in Hin. destruct (N.eqb_spec u x) as [->|Hu]; [destruct Hin|].
        apply without_In in Hin as [Hin Hv]. eapply HB1; eauto.
  Qed.

  Lemma outs_len g u : pg_wf n g -> lenN (outs g u) <= n.
  Proof.
    intros W. rewrite <- (lenN_map a_adj). apply NoDup_bounded_len; [apply (wf_ndo _ _ W)|].
    intros v Hv. apply in_map_iff in Hv as ([v' w k] & <- & Hin). apply (wf_arc _ _ W) in Hin. tauto.
  Qed.
  Lemma ins_len g u : pg_wf n g -> lenN (ins g u) <= n.
  Proof.
    intros W. rewrite <- (lenN_map a_adj). apply NoDup_bounded_len; [apply (wf_ndi _ _ W)|].
    intros v Hv. apply in_map_iff in Hv as ([v' w k] & <- & Hin). apply (wf_sym _ _ W) in Hin.
    eapply outs_src; eauto.
  Qed.

  (** Computing the relevance of a node changes nothing but the witness search. *)
  Lemma calc_relevance_spec g ws params x level maxs B :
    x < n -> pg_wf n g -> pg_bnd B g -> ws_base n ws ->
    (umax c < 4 * B -> allow) -> (2147483647 < n * n -> allow) ->
    wp (lim allow) (calc_relevance c H g params ws x level maxs)
       (fun '(_, g', ws') => g' = g /\ ws_base n ws').
  Proof.
    intros Hx W HB Hb Hov Hov2. unfold calc_relevance.
    eapply wp_bind_mono.
    - apply (handle_shortcuts_spec (count_shortcut c) x B maxs g ws 0%Z
        (fun i j s g' => g' = g /\ (0 <= s <= Z.of_N (i * lenN (outs g x) + j))%Z)); auto.
      + intros i j s g' (-> & _). repeat (split; auto). apply pg_le_refl.
      + intros ie oe Hi Ho Hlt. apply Hov.
        assert (a_weight ie <= B).
        { destruct ie as [u w k]. apply (wf_sym _ _ W) in Hi. eapply HB; eauto. }
        assert (a_weight oe <= B). { destruct oe as [u w k]. eapply HB; eauto. }
        lia.
      + split; auto. lia.
      + intros i s g' Hi (-> & Hs). split; auto. lia.
      + intros i j s g' ie oe Hi Hj (-> & Hs) _. split; auto. lia.
      + intros i j s g' ie oe Hi Hj (-> & Hs) _ _ _. unfold count_shortcut.
        destruct (Z.ltb_spec s 2147483647) as [Hlt|Hge]; simpl.
        * repeat split; try lia. apply pg_le_refl.
        * rewrite Hdbg. simpl. apply Hov2.
          apply getN_Some_lt in Hi. apply getN_Some_lt in Hj.
          pose proof (outs_len g x W). pose proof (ins_len g x W).
          assert (i * lenN (outs g x) + j < n * n) by nia. lia.
    - intros [[s g'] ws'] ((-> & Hs) & Hb').
      rewrite (outs_idx _ _ _ W Hx). cbn [bind]. rewrite (ins_idx _ _ _ W Hx). cbn [bind].
      simpl. auto.
  Qed.
End Contract.
