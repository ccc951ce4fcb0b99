(** * ExactFacts: with unlimited witness searches the outcome of preparation does not depend on how
    the heap breaks ties *)
From Verif Require Export BuilderFacts.
From Coq Require Import ZArith.
Open Scope N_scope.

Lemma foldM_rel {S1 S2 A} (f1 : S1 -> A -> res S1) (f2 : S2 -> A -> res S2) (R : S1 -> S2 -> Prop) :
  forall l, (forall a s1 s2 s1' s2', In a l -> R s1 s2 -> f1 s1 a = Ok s1' -> f2 s2 a = Ok s2' -> R s1' s2') ->
  forall s1 s2 r1 r2, R s1 s2 -> foldM f1 l s1 = Ok r1 -> foldM f2 l s2 = Ok r2 -> R r1 r2.
Proof.
  induction l as [|a l IH]; intros Hstep s1 s2 r1 r2 HR E1 E2; simpl in *.
  - injection E1 as <-. injection E2 as <-. auto.
  - apply bind_Ok in E1 as (t1 & F1 & E1). apply bind_Ok in E2 as (t2 & F2 & E2).
    eapply (IH (fun a' s s' t t' Hin => Hstep a' s s' t t' (or_intror Hin)) t1 t2); [|eauto|eauto].
    eapply (Hstep a s1 s2 t1 t2); [left; auto|auto|auto|auto].
Qed.

Lemma wp_run {A} (P : panic_reason -> Prop) (m : res A) Q a : wp P m Q -> m = Ok a -> Q a.
Proof. intros H ->. exact H. Qed.

Lemma exists_bnd g : exists B, pg_bnd B g.
Proof.
  assert (forall l : list (list Arc), exists B, forall arcs a, In arcs l -> In a arcs -> a_weight a <= B) as G.
  { induction l as [|x l (B & IH)]; [exists 0; intros arcs a []|].
    assert (exists B', forall a, In a x -> a_weight a <= B') as (B' & HB').
    { clear. induction x as [|y x (B & IH)]; [exists 0; intros a []|].
      exists (N.max B (a_weight y)). intros a [<-|Ha]; [lia|]. specialize (IH a Ha). lia. }
    exists (N.max B B'). intros arcs a [<-|Hin] Ha.
    - specialize (HB' a Ha). lia.
    - specialize (IH arcs a Hin Ha). lia. }
  destruct (G (pg_out g)) as (B & HB). exists B. intros u v w k Hin. unfold outs in Hin.
  destruct (getN (pg_out g) u) as [arcs|] eqn:E; [|destruct Hin].
  apply getN_In in E. apply (HB arcs (mkArc v w k) E Hin).
Qed.

Section Exact.
  Variable c : cfg.
  Hypothesis Hdbg : debug_build c = true.
  Variable n : N.
  Hypothesis Hn : n <= umax c.

  (** the search state in a row, for the graph [gr] at the start of the row and the present graph [g] *)
  Definition rowst (hinv : list HeapItem -> Prop) (gr g : PrepGraph) (s x : N) (ws : WitnessSearch) : Prop :=
    ws_inv c hinv n gr s x ws /\ ws_cmp c n gr s x (fun _ => False) ws /\
    (forall u v w, u <> s \/ wset ws s = false -> arel g u v w -> arel gr u v w).

  Lemma find_exact H hinv gr g s x target limit maxs ws ws' mw :
    heap_laws H hinv -> pg_wf n g -> pg_le gr g -> x < n -> n <= maxs -> limit <= umax c ->
    rowst hinv gr g s x ws -> target < n -> target <> x ->
    ws_find_max_weight c H ws g target limit maxs = Ok (ws', mw) ->
    rowst hinv gr g s x ws' /\ (limit < mw -> wset ws' s = true /\ target <> s /\ limit < umax c) /\
    (mw <= limit <-> limit = umax c \/ reach gr x s target limit).
  Proof.
    intros HL W Hle Hx Hm Hlim (I & C & Hgr) Ht Htx HE.
    destruct (exists_bnd g) as (B & HB).
    pose proof (find_max_weight_spec c H hinv HL Hdbg n True Hn g gr gr s x B target limit maxs ws
      W HB Hle Hx (fun _ => Logic.I) Hgr I C Ht Htx) as G.
    rewrite HE in G. cbn [wp] in G. destruct G as ((I' & C') & Hr & Hmx & Hts & Hcm & Hset & Hss).
    split; [|split].
    - split; auto. split; auto. intros u v w Hu. apply Hgr. destruct Hu as [Hu|Hu]; auto. right.
      destruct (wset ws s) eqn:Es; auto. apply Hset in Es. congruence.
    - intros Hgt. split; auto. split; [|lia]. intros E. specialize (Hts E). lia.
    - split.
      + intros Hl. destruct (N.eq_dec limit (umax c)) as [|Hne]; auto. right. apply Hr; auto. lia.
      + intros [->|(W' & HW' & Hp)]; [auto|].
        destruct (N.lt_ge_cases W' (umax c)) as [Hlt|Hge]; [|lia].
        eapply Hcm; eauto.
  Qed.

  (** what is needed of the closure that handles a shortcut *)
  Definition handler_ok {S : Type} (x : N) (handler : S -> PrepGraph -> Shortcut -> res (S * PrepGraph)) : Prop :=
    forall s g sc s' g', pg_wf n g -> sc_from sc < n -> sc_to sc < n -> sc_from sc <> sc_to sc ->
      sc_from sc <> x -> sc_to sc <> x -> 1 <= sc_weight sc ->
      handler s g sc = Ok (s', g') ->
      pg_wf n g' /\ pg_le g g' /\ outs g' x = outs g x /\ ins g' x = ins g x /\
      (forall u v w, u <> sc_from sc -> arel g' u v w -> arel g u v w).

  Lemma add_shortcut_ok x : handler_ok x add_shortcut.
  Proof.
    intros s g [p q k w] s' g' W Hp Hq Hne Hpx Hqx Hw HE. simpl in *. unfold add_shortcut in HE. simpl in HE.
    destruct (add_or_reduce_spec n g p q w k W Hp Hq Hne Hw) as (g'' & E & W' & Ho & Hi & Hor & Hle & _).
    rewrite E in HE. cbn [bind] in HE. injection HE as <- <-.
    split; auto. split; [|split; [apply Ho; auto|split; [apply Hi; auto|]]].
    - intros u v w0 (k0 & Hin). destruct (Hle _ _ _ _ Hin) as (w2 & k2 & Hin' & Hl). exists w2. split; auto. exists k2; auto.
    - intros u v w0 Hu (k0 & Hin). exists k0. rewrite Ho in Hin by auto. auto.
  Qed.
  Lemma count_shortcut_ok x : handler_ok x (count_shortcut c).
  Proof.
    intros s g sc s' g' W _ _ _ _ _ _ HE. unfold count_shortcut in HE.
    assert (g' = g) as ->.
    { destruct (s <? 2147483647)%Z; [injection HE as <- <-; auto|]. destruct (debug_build c); [discriminate|].
      injection HE as <- <-. auto. }
    split; auto. split; [apply pg_le_refl|]. auto.
  Qed.

  (** the parameters differ in the limits on settled nodes only *)
  Definition same_factors (p q : Params) : Prop :=
    p_hierarchy_depth_factor p = p_hierarchy_depth_factor q /\ p_edge_quotient_factor p = p_edge_quotient_factor q.

  Section Two.
  Variables (H1 H2 : heap_ops) (hinv1 hinv2 : list HeapItem -> Prop).
  Hypothesis HL1 : heap_laws H1 hinv1.
  Hypothesis HL2 : heap_laws H2 hinv2.

  Lemma handle_det {S : Type} (handler : S -> PrepGraph -> Shortcut -> res (S * PrepGraph)) x maxs maxs' s0 g0 ws1 ws2
    s1 g1 ws1' s2 g2 ws2' :
    handler_ok x handler -> pg_wf n g0 -> ws_base n ws1 -> ws_base n ws2 -> n <= maxs -> n <= maxs' ->
    handle_shortcuts c H1 handler s0 g0 ws1 x maxs = Ok (s1, g1, ws1') ->
    handle_shortcuts c H2 handler s0 g0 ws2 x maxs' = Ok (s2, g2, ws2') ->
    s1 = s2 /\ g1 = g2 /\ ws_base n ws1' /\ ws_base n ws2'.
  Proof.
    intros Hh W0 Hb1 Hb2 Hm Hm' E1 E2. unfold handle_shortcuts in E1, E2.
    apply bind_Ok in E1 as (ins0 & Ei & E1). rewrite Ei in E2. cbn [bind] in E2.
    assert (x < n) as Hx.
    { apply idx_Ok, getN_Some_lt in Ei. rewrite (wf_li _ _ W0) in Ei. auto. }
    rewrite (ins_idx _ _ _ W0 Hx) in Ei. injection Ei as <-.
    refine ((fun X => _) (foldM_rel _ _ (fun '(s, g, ws) '(s', g', ws') => s = s' /\ g = g' /\
      pg_wf n g /\ pg_le g0 g /\ outs g x = outs g0 x /\ ins g x = ins g0 x /\ ws_base n ws /\ ws_base n ws')
      _ _ (s0, g0, ws1) (s0, g0, ws2) _ _ _ E1 E2)).
    { tauto. }
    - clear E1 E2. intros i [[s g] ws] [[s' g'] ws'] [[r1 r2] r3] [[t1 t2] t3] Hi
        (<- & <- & W & Hle & Ho & Hii & B1 & B2) F1 F2.
      rewrite (ins_idx _ _ _ W Hx) in F1, F2. cbn [bind] in F1, F2. rewrite Hii in F1, F2.
      apply bind_Ok in F1 as (ie & Eie & F1). rewrite Eie in F2. cbn [bind] in F2.
      apply idx_Ok in Eie. pose proof (getN_In _ _ _ Eie) as Hie.
      assert (a_adj ie < n /\ a_adj ie <> x /\ 1 <= a_weight ie) as (Hien & Hiex & Hiew).
      { destruct ie as [u w k]; simpl. apply (wf_sym _ _ W0) in Hie.
        split; [exact (outs_src _ _ _ _ _ _ W0 Hie)|]. apply (wf_arc _ _ W0) in Hie as (_ & Hne & Hw). auto. }
      destruct (ws_init_spec c H1 hinv1 HL1 Hdbg n Hn g g (a_adj ie) x ws B1 Hien Hiex) as (w1 & G1 & J1 & K1).
      destruct (ws_init_spec c H2 hinv2 HL2 Hdbg n Hn g g (a_adj ie) x ws' B2 Hien Hiex) as (w2 & G2 & J2 & K2).
      rewrite G1 in F1. rewrite G2 in F2. cbn [bind] in F1, F2.
      rewrite (outs_idx _ _ _ W Hx) in F1, F2. cbn [bind] in F1, F2. rewrite Ho in F1, F2.
      refine ((fun X => _) (foldM_rel _ _ (fun '(s, g', ws) '(s', g'', ws') => s = s' /\ g' = g'' /\
        pg_wf n g' /\ pg_le g0 g' /\ pg_le g g' /\ outs g' x = outs g0 x /\ ins g' x = ins g0 x /\
        rowst hinv1 g g' (a_adj ie) x ws /\ rowst hinv2 g g' (a_adj ie) x ws')
        _ _ (s, g, w1) (s, g, w2) _ _ _ F1 F2)).
      { destruct X as (X1 & X2 & X3 & X4 & X5 & X6 & X7 & (X8 & _) & (X9 & _)).
        split; auto. split; auto. split; auto. split; auto. split; auto. split; auto.
        split; [apply (wi_base _ _ _ _ _ _ _ X8)|apply (wi_base _ _ _ _ _ _ _ X9)]. }
      + clear F1 F2 G1 G2 J1 J2 K1 K2 w1 w2.
        intros j [[sa ga] wa] [[sb gb] wb] [[sc' gc] wc'] [[sd gd] wd'] Hj
          (<- & <- & Wa & Hlea & Hlea' & Hoa & Hia & Ra & Rb) F1 F2.
        rewrite (ins_idx _ _ _ Wa Hx) in F1, F2. cbn [bind] in F1, F2. rewrite Hia, (idx_Some _ _ _ Eie) in F1, F2.
        cbn [bind] in F1, F2. rewrite (outs_idx _ _ _ Wa Hx) in F1, F2. cbn [bind] in F1, F2. rewrite Hoa in F1, F2.
        apply bind_Ok in F1 as (oe & Eoe & F1). rewrite Eoe in F2. cbn [bind] in F2.
        apply idx_Ok in Eoe. pose proof (getN_In _ _ _ Eoe) as Hoe.
        assert (a_adj oe < n /\ a_adj oe <> x) as (Hoen & Hoex).
        { destruct oe as [u w k]; simpl. apply (wf_arc _ _ W0) in Hoe as (Hlt & Hne & _). auto. }
        apply bind_Ok in F1 as (wt & Ewt & F1). rewrite Ewt in F2. cbn [bind] in F2.
        assert (wt <= umax c /\ wt = a_weight ie + a_weight oe) as [Hwt Hwe].
        { unfold uadd in Ewt. rewrite Hdbg in Ewt. destruct (N.leb_spec (a_weight ie + a_weight oe) (umax c)); [|discriminate].
          injection Ewt as <-. auto. }
        apply bind_Ok in F1 as ([wa' mwa] & Efa & F1). apply bind_Ok in F2 as ([wb' mwb] & Efb & F2).
        destruct (find_exact H1 hinv1 g ga (a_adj ie) x (a_adj oe) wt maxs wa wa' mwa) as (Ra' & Sa & Da); auto.
        destruct (find_exact H2 hinv2 g ga (a_adj ie) x (a_adj oe) wt maxs' wb wb' mwb) as (Rb' & Sb & Db); auto.
        rewrite <- Db in Da. clear Db.
        destruct (N.leb_spec mwa wt) as [La|La]; destruct (N.leb_spec mwb wt) as [Lb|Lb]; try (exfalso; lia).
        * injection F1 as <- <- <-. injection F2 as <- <- <-. repeat (split; auto).
        * apply bind_Ok in F1 as ([se ge] & Eha & F1). rewrite Eha in F2. cbn [bind] in F2.
          injection F1 as <- <- <-. injection F2 as <- <- <-.
          destruct (Sa La) as (Sa1 & Sa2 & Sa3). destruct (Sb Lb) as (Sb1 & _).
          assert (1 <= wt) as Hw1 by lia.
          destruct (Hh _ _ (mkShortcut (a_adj ie) (a_adj oe) x wt) _ _ Wa Hien Hoen
            (fun E => Sa2 (eq_sym E)) Hiex Hoex Hw1 Eha) as (We & Hlee & Hoe' & Hie' & Hun).
          simpl in Hun.
          split; auto. split; auto. split; auto. split; [eapply pg_le_trans; eauto|].
          split; [eapply pg_le_trans; eauto|]. split; [congruence|]. split; [congruence|].
          destruct Ra' as (P1 & P2 & P3). destruct Rb' as (Q1 & Q2 & Q3).
          split; (split; [auto|split; [auto|]]); intros u v w [Hu|Hu] Har; try congruence.
          -- apply P3; auto.
          -- apply Q3; auto.
      + split; auto. split; auto. split; auto. split; auto. split; [apply pg_le_refl|]. split; auto. split; auto.
        split; (split; [auto|split; [auto|auto]]).
    - split; auto. split; auto. split; auto. split; [apply pg_le_refl|]. auto.
  Qed.

  Lemma contract_det g ws1 ws2 x maxs maxs' g1 ws1' g2 ws2' :
    pg_wf n g -> ws_base n ws1 -> ws_base n ws2 -> n <= maxs -> n <= maxs' ->
    contract_node c H1 g ws1 x maxs = Ok (g1, ws1') -> contract_node c H2 g ws2 x maxs' = Ok (g2, ws2') ->
    g1 = g2 /\ pg_wf n g1 /\ ws_base n ws1' /\ ws_base n ws2'.
  Proof.
    intros W B1 B2 Hm Hm' E1 E2.
    assert (pg_wf n g1) as W1.
    { assert (x < n) as Hx.
      { unfold contract_node, handle_shortcuts in E1. apply bind_Ok in E1 as (y & E1 & _).
        apply bind_Ok in E1 as (ins0 & Ei & _). apply idx_Ok, getN_Some_lt in Ei. rewrite (wf_li _ _ W) in Ei. auto. }
      destruct (exists_bnd g) as (B & HB).
      pose proof (contract_node_spec c H1 hinv1 HL1 Hdbg n True Hn g ws1 x maxs B Hx W HB B1 (fun _ => Logic.I)) as G.
      rewrite E1 in G. cbn [wp] in G. destruct G as ((G & _) & _). apply (cs_wf _ _ _ _ _ G). }
    unfold contract_node in E1, E2.
    apply bind_Ok in E1 as ([[u1 a1] b1] & F1 & E1). apply bind_Ok in E2 as ([[u2 a2] b2] & F2 & E2).
    destruct (handle_det add_shortcut x maxs maxs' tt g ws1 ws2 _ _ _ _ _ _ (add_shortcut_ok x) W B1 B2 Hm Hm' F1 F2)
      as (_ & <- & B1' & B2').
    apply bind_Ok in E1 as (d1 & D1 & E1). rewrite D1 in E2. cbn [bind] in E2.
    injection E1 as <- <-. injection E2 as <- <-. auto.
  Qed.

  Lemma relevance_det g params params' ws1 ws2 x level maxs maxs' r1 g1 ws1' r2 g2 ws2' : same_factors params params' ->
    pg_wf n g -> ws_base n ws1 -> ws_base n ws2 -> n <= maxs -> n <= maxs' ->
    calc_relevance c H1 g params ws1 x level maxs = Ok (r1, g1, ws1') ->
    calc_relevance c H2 g params' ws2 x level maxs' = Ok (r2, g2, ws2') ->
    r1 = r2 /\ g1 = g2 /\ pg_wf n g1 /\ ws_base n ws1' /\ ws_base n ws2'.
  Proof.
    intros [Hf1 Hf2] W B1 B2 Hm Hm' E1 E2.
    assert (pg_wf n g1) as W1.
    { assert (x < n) as Hx.
      { unfold calc_relevance, handle_shortcuts in E1. apply bind_Ok in E1 as (y & E1 & _).
        apply bind_Ok in E1 as (ins0 & Ei & _). apply idx_Ok, getN_Some_lt in Ei. rewrite (wf_li _ _ W) in Ei. auto. }
      destruct (exists_bnd g) as (B & HB).
      pose proof (calc_relevance_spec c H1 hinv1 HL1 Hdbg n True Hn g ws1 params x level maxs B Hx W HB B1
        (fun _ => Logic.I) (fun _ => Logic.I)) as G.
      rewrite E1 in G. cbn [wp] in G. destruct G as (-> & _). auto. }
    unfold calc_relevance in E1, E2.
    apply bind_Ok in E1 as ([[u1 a1] b1] & F1 & E1). apply bind_Ok in E2 as ([[u2 a2] b2] & F2 & E2).
    destruct (handle_det (count_shortcut c) x maxs maxs' 0%Z g ws1 ws2 _ _ _ _ _ _ (count_shortcut_ok x) W B1 B2 Hm Hm' F1 F2)
      as (<- & <- & B1' & B2').
    apply bind_Ok in E1 as (o1 & O1 & E1). rewrite O1 in E2. cbn [bind] in E2.
    apply bind_Ok in E1 as (i1 & I1 & E1). rewrite I1 in E2. cbn [bind] in E2.
    rewrite <- Hf1, <- Hf2 in E2. injection E1 as <- <- <-. injection E2 as <- <- <-. auto.
  Qed.
  End Two.
End Exact.

Section ExactBuild.
  Variables (c : cfg) (H1 H2 : heap_ops) (hinv1 hinv2 : list HeapItem -> Prop).
  Hypothesis HL1 : heap_laws H1 hinv1.
  Hypothesis HL2 : heap_laws H2 hinv2.
  Hypothesis Hdbg : debug_build c = true.
  Variable ig : InputGraph.
  Hypothesis Hig : ig_ok c ig.
  Let n := ig_num_nodes ig.

  Lemma fg_new_cap fg0 : fg_new c n = Ok fg0 -> n <= umax c.
  Proof.
    intros E. pose proof (fg_new_spec c n True (fun _ => I) (fun _ => I) Hdbg) as G. rewrite E in G. cbn [wp] in G.
    destruct G as (_ & G). assert (umax c / 2 <= umax c) by (apply N.div_le_upper_bound; lia). lia.
  Qed.

  Lemma run_order_det fg0 order params params' r1 r2 : n <= umax c ->
    n <= po_max_settled_nodes_contraction_with_order params ->
    n <= po_max_settled_nodes_contraction_with_order params' ->
    run_contraction_with_order c H1 n fg0 ig order params = Ok r1 ->
    run_contraction_with_order c H2 n fg0 ig order params' = Ok r2 -> r1 = r2.
  Proof.
    intros Hn Hm Hm' E1 E2. unfold run_contraction_with_order in E1, E2.
    destruct (from_input_ok c ig Hig) as (g0 & Eg & W & _). rewrite Eg in E1, E2. cbn [bind] in E1, E2.
    apply bind_Ok in E1 as ([[[f1 g1] w1] k1] & F1 & E1). apply bind_Ok in E2 as ([[[f2 g2] w2] k2] & F2 & E2).
    refine ((fun X => _) (foldM_rel _ _ (fun '(f, g, w, k) '(f', g', w', k') => f = f' /\ g = g' /\ k = k' /\
      pg_wf n g /\ ws_base n w /\ ws_base n w') _ _ (fg0, g0, ws_new c n, 0) (fg0, g0, ws_new c n, 0) _ _ _ F1 F2)).
    { destruct X as (<- & _). congruence. }
    - intros x [[[fa ga] wa] ka] [[[fb gb] wb] kb] [[[fc gc] wc'] kc] [[[fd gd] wd'] kd] _
        (<- & <- & <- & Wg & B1 & B2) G1 G2.
      destruct (n <=? x); [discriminate|].
      apply bind_Ok in G1 as (fe & Es & G1). rewrite Es in G2. cbn [bind] in G2.
      apply bind_Ok in G1 as ([gx wx] & C1 & G1). apply bind_Ok in G2 as ([gy wy] & C2 & G2).
      injection G1 as <- <- <- <-. injection G2 as <- <- <- <-.
      destruct (contract_det c Hdbg n Hn H1 H2 hinv1 hinv2 HL1 HL2 _ _ _ _ _ _ _ _ _ _ Wg B1 B2 Hm Hm' C1 C2) as (<- & ? & ? & ?).
      auto 7.
    - repeat (split; auto); apply ws_new_base.
  Qed.

  Lemma build_order_det order params params' r1 r2 :
    n <= po_max_settled_nodes_contraction_with_order params ->
    n <= po_max_settled_nodes_contraction_with_order params' ->
    build_with_order_with_params c H1 ig order params = Ok r1 ->
    build_with_order_with_params c H2 ig order params' = Ok r2 -> r1 = r2.
  Proof.
    intros Hm Hm' E1 E2. unfold build_with_order_with_params, ig_get_num_nodes, ig_check_frozen in E1, E2.
    rewrite (ig_ok_frozen _ _ Hig) in E1, E2. cbn [bind] in E1, E2.
    destruct (negb _); [congruence|].
    apply bind_Ok in E1 as (f0 & En & E1). rewrite En in E2. cbn [bind] in E2.
    apply bind_Ok in E1 as (f1 & R1 & E1). apply bind_Ok in E2 as (f2 & R2 & E2).
    injection E1 as <-. injection E2 as <-. f_equal.
    exact (run_order_det _ _ _ _ _ _ (fg_new_cap _ En) Hm Hm' R1 R2).
  Qed.

  Variable Q : pq_ops.

  (** the two runs differ only in the state of the witness search *)
  Definition bsame (s t : BState) : Prop :=
    bs_fg s = bs_fg t /\ bs_pg s = bs_pg t /\ bs_levels s = bs_levels t /\ bs_queue s = bs_queue t /\
    bs_rank s = bs_rank t /\ pg_wf n (bs_pg s) /\ ws_base n (bs_ws s) /\ ws_base n (bs_ws t).

  Lemma loop_det params params' : n <= umax c -> same_factors params params' ->
    n <= p_max_settled_nodes_neighbor_relevance params -> n <= p_max_settled_nodes_contraction params ->
    n <= p_max_settled_nodes_neighbor_relevance params' -> n <= p_max_settled_nodes_contraction params' ->
    forall fuel s t s' t', bsame s t ->
    contraction_loop fuel c H1 Q params s = Ok s' -> contraction_loop fuel c H2 Q params' t = Ok t' -> bsame s' t'.
  Proof.
    intros Hn Hsf Hm1 Hm2 Hm1' Hm2'. induction fuel as [|fuel IH]; intros s t s' t' Hb E1 E2; [discriminate|].
    cbn [contraction_loop] in E1, E2. pose proof Hb as (X1 & X2 & X3 & X4 & X5 & Wg & B1 & B2).
    rewrite <- X4 in E2. destruct (pq_pop Q (bs_queue s)) as [[[x p] q]|].
    2:{ injection E1 as <-. injection E2 as <-. auto. }
    rewrite <- X1, <- X2, <- X3, <- X5 in E2.
    apply bind_Ok in E1 as (nbs & En & E1). rewrite En in E2. cbn [bind] in E2.
    apply bind_Ok in E1 as (fg' & Es & E1). rewrite Es in E2. cbn [bind] in E2.
    apply bind_Ok in E1 as ([gx wx] & C1 & E1). apply bind_Ok in E2 as ([gy wy] & C2 & E2).
    destruct (contract_det c Hdbg n Hn H1 H2 hinv1 hinv2 HL1 HL2 _ _ _ _ _ _ _ _ _ _ Wg B1 B2 Hm2 Hm2' C1 C2) as (<- & Wx & Bx & By).
    apply bind_Ok in E1 as (s1 & F1 & E1). apply bind_Ok in E2 as (t1 & F2 & E2).
    assert (bsame s1 t1) as Hb1.
    { refine (foldM_rel _ _ bsame _ _ _ _ _ _ _ F1 F2).
      - clear - HL1 HL2 Hdbg Hn Hsf Hm1 Hm1'. intros y a b a' b' _ (X1 & X2 & X3 & X4 & X5 & Wg & B1 & B2) G1 G2. unfold update_neighbor in G1, G2.
        rewrite <- X1, <- X2, <- X3, <- X4, <- X5 in G2.
        apply bind_Ok in G1 as (ln & L1 & G1). rewrite L1 in G2. cbn [bind] in G2.
        apply bind_Ok in G1 as (lx & L2 & G1). rewrite L2 in G2. cbn [bind] in G2.
        apply bind_Ok in G1 as (lv & L3 & G1). rewrite L3 in G2. cbn [bind] in G2.
        apply bind_Ok in G1 as ([[ra ga] wa] & R1 & G1). apply bind_Ok in G2 as ([[rb gb] wb] & R2 & G2).
        destruct (relevance_det c Hdbg n Hn H1 H2 hinv1 hinv2 HL1 HL2 _ _ _ _ _ _ _ _ _ _ _ _ _ _ _ Hsf Wg B1 B2 Hm1 Hm1' R1 R2)
          as (<- & <- & ? & ? & ?).
        injection G1 as <-. injection G2 as <-. unfold bsame; simpl. auto 10.
      - unfold bsame; simpl. auto 10. }
    eapply IH; [|exact E1|exact E2]. destruct Hb1 as (Y1 & Y2 & Y3 & Y4 & Y5 & Y6 & Y7 & Y8).
    unfold bsame; simpl. rewrite Y5. auto 10.
  Qed.

  Lemma build_params_det params params' r1 r2 : same_factors params params' ->
    n <= p_max_settled_nodes_initial_relevance params ->
    n <= p_max_settled_nodes_neighbor_relevance params -> n <= p_max_settled_nodes_contraction params ->
    n <= p_max_settled_nodes_initial_relevance params' ->
    n <= p_max_settled_nodes_neighbor_relevance params' -> n <= p_max_settled_nodes_contraction params' ->
    build_with_params c H1 Q ig params = Ok r1 -> build_with_params c H2 Q ig params' = Ok r2 -> r1 = r2.
  Proof.
    intros Hsf Hm0 Hm1 Hm2 Hm0' Hm1' Hm2' E1 E2. unfold build_with_params, ig_get_num_nodes, ig_check_frozen in E1, E2.
    rewrite (ig_ok_frozen _ _ Hig) in E1, E2. cbn [bind] in E1, E2.
    apply bind_Ok in E1 as (f0 & En & E1). rewrite En in E2. cbn [bind] in E2.
    pose proof (fg_new_cap _ En) as Hn. unfold run_contraction in E1, E2.
    destruct (from_input_ok c ig Hig) as (g0 & Eg & W & _). rewrite Eg in E1, E2. cbn [bind] in E1, E2.
    apply bind_Ok in E1 as (s0 & F1 & E1). apply bind_Ok in E2 as (t0 & F2 & E2).
    apply bind_Ok in E1 as (s1 & L1 & E1). apply bind_Ok in E2 as (t1 & L2 & E2).
    assert (bsame s0 t0) as Hb0.
    { refine (foldM_rel _ _ bsame _ _ _ _ _ _ _ F1 F2).
      - clear - HL1 HL2 Hdbg Hn Hsf Hm0 Hm0'. intros y a b a' b' _ (X1 & X2 & X3 & X4 & X5 & Wg & B1 & B2) G1 G2. unfold init_queue_step in G1, G2.
        rewrite <- X1, <- X2, <- X3, <- X4, <- X5 in G2.
        apply bind_Ok in G1 as ([[ra ga] wa] & R1 & G1). apply bind_Ok in G2 as ([[rb gb] wb] & R2 & G2).
        destruct (relevance_det c Hdbg n Hn H1 H2 hinv1 hinv2 HL1 HL2 _ _ _ _ _ _ _ _ _ _ _ _ _ _ _ Hsf Wg B1 B2 Hm0 Hm0' R1 R2)
          as (<- & <- & ? & ? & ?).
        injection G1 as <-. injection G2 as <-. unfold bsame; simpl. auto 10.
      - unfold bsame; simpl. pose proof (ws_new_base c n). auto 10. }
    destruct (loop_det params params' Hn Hsf Hm1 Hm2 Hm1' Hm2' _ _ _ _ _ Hb0 L1 L2) as (Y1 & _). congruence.
  Qed.
End ExactBuild.
