(** * OverlayFacts: preparation with unlimited searches is the textbook algorithm *)
From Verif Require Export SpecOverlay ExactFacts ReplayFacts.
From Coq Require Import Permutation ZArith.
Open Scope N_scope.

Lemma foldM_range_ok {S} (f : S -> N -> res S) (I : N -> S -> Prop) e s' : forall k b s,
  N.to_nat (e - b) = k -> b <= e -> I b s ->
  (forall i s s', b <= i < e -> I i s -> f s i = Ok s' -> I (i + 1) s') ->
  foldM f (rangeN b e) s = Ok s' -> I e s'.
Proof.
  induction k as [|k IH]; intros b s Hk Hbe H0 Hs HE.
  - assert (b = e) as -> by lia. rewrite rangeN_nil in HE by lia. injection HE as <-. auto.
  - rewrite rangeN_cons in HE by lia. cbn [foldM] in HE. apply bind_Ok in HE as (t & F & HE).
    apply (IH (b + 1) t); auto; try lia.
    + apply (Hs b s); auto; lia.
    + intros i s1 s2 Hi. apply Hs. lia.
Qed.

Lemma NoDup_app_intro {A} (l1 l2 : list A) : NoDup l1 -> NoDup l2 -> (forall a, In a l1 -> ~ In a l2) -> NoDup (l1 ++ l2).
Proof.
  induction l1 as [|x l1 IH]; intros H1 H2 Hd; simpl; auto. inversion H1; subst. constructor.
  - rewrite in_app_iff. intros [X|X]; [auto|]. apply (Hd x); simpl; auto.
  - apply IH; auto. intros a Ha. apply Hd. simpl; auto.
Qed.

Lemma way_path g x u v W : u <> x -> way_around (arel g) x u v W <-> path (arelx g x) u v W.
Proof.
  intros Hu. split.
  - intros Hw. clear Hu. induction Hw as [u Hu|u v t w w' Hu Ha Hw IH]; [constructor|].
    econstructor; [|exact IH]. split; auto. split; auto. inversion Hw; auto.
  - intros Hp. induction Hp as [u|u v t w W (Ha & _ & Hv) Hp IH]; [constructor; auto|].
    econstructor; eauto.
Qed.

Lemma arel_fun n g u v w w' : pg_wf n g -> arel g u v w -> arel g u v w' -> w = w'.
Proof.
  intros W (k & H) (k' & H'). pose proof (NoDup_adj_inj _ _ _ (wf_ndo _ _ W u) H H' eq_refl) as E. congruence.
Qed.

Lemma shortcut_fun n c g x u v w w' : pg_wf n g -> shortcut c (arel g) x u v w -> shortcut c (arel g) x u v w' -> w = w'.
Proof.
  intros W ((a & b & A & B & ->) & _) ((a' & b' & A' & B' & ->) & _).
  f_equal; eapply arel_fun; eauto.
Qed.

Section Handle.
  Variables (c : cfg) (H : heap_ops) (hinv : list HeapItem -> Prop).
  Hypothesis Hdbg : debug_build c = true.
  Hypothesis HL : heap_laws H hinv.
  Variable n : N.
  Hypothesis Hn : n <= umax c.

  Lemma handle_run {S : Type} (handler : S -> PrepGraph -> Shortcut -> res (S * PrepGraph)) x maxs s0 g0 ws s1 g1 ws1
    (RI : N -> S -> PrepGraph -> Prop) (CI : N -> PrepGraph -> N -> S -> PrepGraph -> Prop) :
    handler_ok n x handler -> pg_wf n g0 -> ws_base n ws -> n <= maxs ->
    RI 0 s0 g0 ->
    (forall i s g ie, getN (ins g0 x) i = Some ie -> pg_wf n g -> outs g x = outs g0 x -> ins g x = ins g0 x ->
       RI i s g -> CI i g 0 s g) ->
    (forall i j gr s g s' g' ie oe, getN (ins g0 x) i = Some ie -> getN (outs g0 x) j = Some oe ->
       pg_wf n gr -> pg_wf n g -> outs gr x = outs g0 x -> ins gr x = ins g0 x ->
       shortcut c (arel gr) x (a_adj ie) (a_adj oe) (a_weight ie + a_weight oe) ->
       CI i gr j s g ->
       handler s g (mkShortcut (a_adj ie) (a_adj oe) x (a_weight ie + a_weight oe)) = Ok (s', g') ->
       CI i gr (j + 1) s' g') ->
    (forall i j gr s g ie oe, getN (ins g0 x) i = Some ie -> getN (outs g0 x) j = Some oe ->
       pg_wf n gr -> pg_wf n g -> outs gr x = outs g0 x -> ins gr x = ins g0 x ->
       (forall w, ~ shortcut c (arel gr) x (a_adj ie) (a_adj oe) w) ->
       CI i gr j s g -> CI i gr (j + 1) s g) ->
    (forall i gr s g ie, getN (ins g0 x) i = Some ie -> pg_wf n gr -> pg_wf n g -> outs gr x = outs g0 x ->
       CI i gr (lenN (outs g0 x)) s g -> RI (i + 1) s g) ->
    handle_shortcuts c H handler s0 g0 ws x maxs = Ok (s1, g1, ws1) ->
    RI (lenN (ins g0 x)) s1 g1 /\ pg_wf n g1 /\ outs g1 x = outs g0 x /\ ins g1 x = ins g0 x /\ ws_base n ws1.
  Proof.
    intros Hh W0 Hb Hm R0 HRC Hyes Hno HCR E. unfold handle_shortcuts in E.
    apply bind_Ok in E as (ins0 & Ei & E).
    assert (x < n) as Hx.
    { apply idx_Ok, getN_Some_lt in Ei. rewrite (wf_li _ _ W0) in Ei. auto. }
    rewrite (ins_idx _ _ _ W0 Hx) in Ei. injection Ei as <-.
    refine ((fun X => _) (foldM_range_ok _ (fun i '(s, g, ws) => RI i s g /\ pg_wf n g /\
      outs g x = outs g0 x /\ ins g x = ins g0 x /\ ws_base n ws) _ _ _ _ _ eq_refl _ _ _ E)).
    { exact X. }
    - lia.
    - split; auto.
    - clear E s1 g1 ws1 ws Hb. intros i [[s g] ws] [[s1 g1] ws1] Hi (RI0 & W & Ho & Hii & B) F.
      rewrite (ins_idx _ _ _ W Hx) in F. cbn [bind] in F. rewrite Hii in F.
      apply bind_Ok in F as (ie & Eie & F).
      apply idx_Ok in Eie. pose proof (getN_In _ _ _ Eie) as Hie.
      assert (a_adj ie < n /\ a_adj ie <> x /\ 1 <= a_weight ie) as (Hien & Hiex & Hiew).
      { destruct ie as [u w k]; simpl. apply (wf_sym _ _ W0) in Hie.
        split; [exact (outs_src _ _ _ _ _ _ W0 Hie)|]. apply (wf_arc _ _ W0) in Hie as (_ & Hne & Hw). auto. }
      destruct (ws_init_spec c H hinv HL Hdbg n Hn g g (a_adj ie) x ws B Hien Hiex) as (w1 & G1 & J1 & K1).
      rewrite G1 in F. cbn [bind] in F. rewrite (outs_idx _ _ _ W Hx) in F. cbn [bind] in F. rewrite Ho in F.
      refine ((fun X => _) (foldM_range_ok _ (fun j '(s, g', ws) => CI i g j s g' /\
        pg_wf n g' /\ pg_le g g' /\ outs g' x = outs g0 x /\ ins g' x = ins g0 x /\
        rowst c n hinv g g' (a_adj ie) x ws) _ _ _ _ _ eq_refl _ _ _ F)).
      { destruct X as (X1 & X3 & X5 & X6 & X7 & (X8 & _)).
        split; [|split; [auto|split; [auto|split; [auto|apply (wi_base _ _ _ _ _ _ _ X8)]]]].
        apply (HCR i g s1 g1 ie); auto. }
      + lia.
      + split; [apply (HRC i s g ie); auto|]. split; auto. split; [apply pg_le_refl|]. split; auto. split; auto.
        split; [auto|split; [auto|auto]].
      + clear F G1 J1 K1 w1. intros j [[sa ga] wa] [[sb gb] wb] Hj (Ca & Wa & Hlea & Hoa & Hia & Ra) F.
        rewrite (ins_idx _ _ _ Wa Hx) in F. cbn [bind] in F. rewrite Hia, (idx_Some _ _ _ Eie) in F.
        cbn [bind] in F. rewrite (outs_idx _ _ _ Wa Hx) in F. cbn [bind] in F. rewrite Hoa in F.
        apply bind_Ok in F as (oe & Eoe & F).
        apply idx_Ok in Eoe. pose proof (getN_In _ _ _ Eoe) as Hoe.
        assert (a_adj oe < n /\ a_adj oe <> x) as (Hoen & Hoex).
        { destruct oe as [u w k]; simpl. apply (wf_arc _ _ W0) in Hoe as (Hlt & Hne & _). auto. }
        apply bind_Ok in F as (wt & Ewt & F).
        assert (wt <= umax c /\ wt = a_weight ie + a_weight oe) as [Hwt Hwe].
        { unfold uadd in Ewt. rewrite Hdbg in Ewt. destruct (N.leb_spec (a_weight ie + a_weight oe) (umax c)); [|discriminate].
          injection Ewt as <-. auto. }
        apply bind_Ok in F as ([wa' mwa] & Efa & F).
        destruct (find_exact c Hdbg n Hn H hinv g ga (a_adj ie) x (a_adj oe) wt maxs wa wa' mwa) as (Ra' & Sa & Da); auto.
        assert (arel g (a_adj ie) x (a_weight ie)) as A1.
        { exists (a_center ie). apply (wf_sym _ _ W). rewrite Hii. rewrite <- arc_eta. auto. }
        assert (arel g x (a_adj oe) (a_weight oe)) as A2.
        { exists (a_center oe). rewrite Ho. rewrite <- arc_eta. auto. }
        destruct (N.leb_spec mwa wt) as [La|La].
        * injection F as <- <- <-. split; [|auto].
          apply (Hno i j g sa ga ie oe); auto. intros w ((a & b & P1 & P2 & ->) & Hlt & Hall).
          rewrite (arel_fun _ _ _ _ _ _ W P1 A1), (arel_fun _ _ _ _ _ _ W P2 A2), <- Hwe in *.
          apply Da in La as [->|(W' & HW & Hp)]; [lia|]. apply (way_path g x) in Hp; auto. specialize (Hall _ Hp). lia.
        * apply bind_Ok in F as ([se ge] & Eha & F). injection F as <- <- <-.
          destruct (Sa La) as (Sa1 & Sa2 & Sa3).
          assert (1 <= wt) as Hw1 by lia.
          destruct (Hh _ _ (mkShortcut (a_adj ie) (a_adj oe) x wt) _ _ Wa Hien Hoen
            (fun E => Sa2 (eq_sym E)) Hiex Hoex Hw1 Eha) as (We & Hlee & Hoe' & Hie' & Hun).
          simpl in Hun. split.
          -- subst wt. apply (Hyes i j g sa ga se ge ie oe); auto. split; [eauto|]. split; auto.
             intros w' Hw. apply way_path in Hw; auto.
             destruct (N.lt_ge_cases (a_weight ie + a_weight oe) w') as [|Hge]; auto. exfalso.
             assert (mwa <= a_weight ie + a_weight oe); [|lia]. apply Da. right. exists w'. auto.
          -- split; auto. split; [eapply pg_le_trans; eauto|]. split; [congruence|]. split; [congruence|].
             destruct Ra' as (P1 & P2 & P3). split; [auto|split; [auto|]]. intros u v w [Hu|Hu] Har; try congruence.
             apply P3; auto.
  Qed.

  (** one of the first [j] arcs of the list leads to [q] *)
  Definition among (l : list Arc) (j q : N) : Prop := exists j' a, j' < j /\ getN l j' = Some a /\ a_adj a = q.

  Lemma among_0 l q : ~ among l 0 q.
  Proof. intros (j & a & Hj & _). lia. Qed.
  Lemma among_next l j a q : getN l j = Some a -> among l (j + 1) q <-> among l j q \/ q = a_adj a.
  Proof.
    intros E. split.
    - intros (i & b & Hi & Eb & <-). destruct (N.eq_dec i j) as [->|Hne].
      + right. congruence.
      + left. exists i, b. repeat split; auto. lia.
    - intros [(i & b & Hi & Eb & <-)| ->].
      + exists i, b. repeat split; auto. lia.
      + exists j, a. repeat split; auto. lia.
  Qed.
  Lemma among_new l j a : NoDup (map a_adj l) -> getN l j = Some a -> ~ among l j (a_adj a).
  Proof.
    intros Hd E (i & b & Hi & Eb & Eq). rewrite NoDup_nth_error in Hd.
    assert (N.to_nat i = N.to_nat j) as X; [|lia]. apply Hd.
    - rewrite map_length. apply getN_Some_lt in Eb. unfold lenN in Eb. lia.
    - rewrite <- !getN_nth, !getN_map, Eb, E. simpl. congruence.
  Qed.
  Lemma among_all l q : among l (lenN l) q <-> In q (map a_adj l).
  Proof.
    split.
    - intros (j & a & _ & E & <-). apply in_map. eapply getN_In; eauto.
    - intros Hq. apply in_map_iff in Hq as (a & <- & Ha). destruct (In_getN _ _ Ha) as (j & Hj & Ej). exists j, a. auto.
  Qed.

  Lemma aor_exact g u q0 wt k g' : pg_wf n g -> u < n -> q0 < n -> u <> q0 -> 1 <= wt ->
    (forall w', arel g u q0 w' -> wt < w') -> pg_add_or_reduce_edge g u q0 wt k = Ok g' ->
    forall p q w, arel g' p q w <-> (p = u /\ q = q0 /\ w = wt) \/ (arel g p q w /\ ~ (p = u /\ q = q0)).
  Proof.
    intros W Hu Hq Hne Hw Hall E p q w.
    destruct (add_or_reduce_spec n g u q0 wt k W Hu Hq Hne Hw) as (g'' & E' & W' & Ho & Hi & Hor & Hle & Hnew).
    rewrite E in E'. injection E' as <-.
    destruct (N.eq_dec p u) as [->|Hp].
    2:{ unfold arel. rewrite Ho by auto. intuition. }
    destruct (N.eq_dec q q0) as [->|Hqn].
    - destruct Hnew as (w2 & k2 & Hin & Hl).
      assert (w2 = wt) as ->.
      { apply Hor in Hin as [Hin|(_ & _ & -> & _)]; auto. assert (arel g u q0 w2) as A by (exists k2; auto).
        specialize (Hall _ A). lia. }
      split.
      + intros A. left. split; auto. split; auto. eapply (arel_fun n g'); eauto. exists k2. auto.
      + intros [(_ & _ & ->)|(_ & X)]; [exists k2; auto|tauto].
    - split.
      + intros (k1 & Hin). apply Hor in Hin as [Hin|(_ & X & _)]; [|congruence]. right. split; [exists k1; auto|tauto].
      + intros [(_ & X & _)|((k1 & Hin) & _)]; [congruence|].
        destruct (Hle _ _ _ _ Hin) as (w2 & k2 & Hin2 & Hl). exists k2.
        pose proof Hin2 as Hin3. apply Hor in Hin3 as [Hin3|(_ & X & _)]; [|congruence].
        replace w with w2; auto. eapply (arel_fun n g u q); eauto; eexists; eauto.
  Qed.

  Lemma add_rows_snoc x us u G G1 G2 : add_rows c x us G G1 -> add_row c x u G1 G2 -> add_rows c x (us ++ [u]) G G2.
  Proof.
    intros Hr Ha. induction Hr as [G|v us G G1 G3 H1 H2 IH]; simpl.
    - econstructor; eauto. constructor.
    - econstructor; eauto.
  Qed.

  Lemma contract_rows x maxs g0 ws u1 g1 ws1 : pg_wf n g0 -> ws_base n ws -> n <= maxs ->
    handle_shortcuts c H add_shortcut tt g0 ws x maxs = Ok (u1, g1, ws1) ->
    add_rows c x (map a_adj (ins g0 x)) (arel g0) (arel g1) /\ pg_wf n g1 /\ outs g1 x = outs g0 x /\
    ins g1 x = ins g0 x /\ ws_base n ws1.
  Proof.
    intros W0 Hb Hm E.
    refine ((fun X => _) (handle_run add_shortcut x maxs tt g0 ws u1 g1 ws1
      (fun i s g => exists pre post, map a_adj (ins g0 x) = pre ++ post /\ lenN pre = i /\
         add_rows c x pre (arel g0) (arel g))
      (fun i gr j s g => exists pre post ie, getN (ins g0 x) i = Some ie /\
         map a_adj (ins g0 x) = pre ++ post /\ lenN pre = i /\ add_rows c x pre (arel g0) (arel gr) /\
         forall p q w, arel g p q w <->
           (p = a_adj ie /\ among (outs g0 x) j q /\ shortcut c (arel gr) x (a_adj ie) q w) \/
           (arel gr p q w /\ ~ (p = a_adj ie /\ among (outs g0 x) j q /\ exists w', shortcut c (arel gr) x (a_adj ie) q w')))
      (add_shortcut_ok n x) W0 Hb Hm _ _ _ _ _ E)).
    - destruct X as ((pre & post & E1 & E2 & Hr) & X). split; auto.
      assert (post = []) as ->.
      { apply (f_equal lenN) in E1. rewrite lenN_map, lenN_app in E1. destruct post; auto. rewrite lenN_cons in E1. lia. }
      rewrite app_nil_r in E1. rewrite E1. auto.
    - exists [], (map a_adj (ins g0 x)). repeat split. constructor.
    - intros i s g ie Eie Wg Ho Hi (pre & post & E1 & E2 & Hr). exists pre, post, ie. repeat (split; auto).
      + intros A. right. split; auto. intros (_ & B & _). exact (among_0 _ _ B).
      + intros [(_ & B & _)|(A & _)]; auto. destruct (among_0 _ _ B).
    - intros i j gr s g s' g' ie oe Eie Eoe Wr Wg Hor Hir Hs (pre & post & ie' & Eie' & E1 & E2 & Hr & Hiff) HE.
      assert (ie' = ie) as -> by congruence. exists pre, post, ie. split; auto. split; auto. split; auto. split; auto.
      unfold add_shortcut in HE. simpl in HE. apply bind_Ok in HE as (g2 & HE & F). injection F as <- <-.
      pose proof (getN_In _ _ _ Eie) as Hie. pose proof (getN_In _ _ _ Eoe) as Hoe.
      assert (a_adj ie < n /\ a_adj ie <> x /\ 1 <= a_weight ie) as (Hien & Hiex & Hiew).
      { destruct ie as [u w k]; simpl. apply (wf_sym _ _ W0) in Hie.
        split; [exact (outs_src _ _ _ _ _ _ W0 Hie)|]. apply (wf_arc _ _ W0) in Hie as (_ & Hne & Hw). auto. }
      assert (a_adj oe < n) as Hoen.
      { destruct oe as [u w k]; simpl. apply (wf_arc _ _ W0) in Hoe as (Hlt & Hne & _). auto. }
      assert (a_adj ie <> a_adj oe) as Hne.
      { intros X. destruct Hs as (_ & _ & Hs). rewrite <- X in Hs.
        specialize (Hs 0 (way_stay _ _ _ Hiex)). lia. }
      assert (forall w', arel g (a_adj ie) (a_adj oe) w' -> a_weight ie + a_weight oe < w') as Hlow.
      { intros w' A. apply Hiff in A as [(_ & X & _)|(A & _)].
        - destruct (among_new _ _ _ (wf_ndo _ _ W0 x) Eoe X).
        - destruct Hs as (_ & _ & Hs). rewrite <- (N.add_0_r w'). apply Hs. econstructor; eauto. constructor.
          destruct oe as [u w k]; simpl in *. apply (wf_arc _ _ W0) in Hoe. intuition. }
      assert (1 <= a_weight ie + a_weight oe) as Hw1 by lia. intros p q w. rewrite (aor_exact g _ _ _ _ _ Wg Hien Hoen Hne Hw1 Hlow HE p q w), Hiff, (among_next _ _ _ q Eoe).
      pose proof (fun w => shortcut_fun n c gr x (a_adj ie) (a_adj oe) _ w Wr Hs) as Hfun.
      destruct (N.eq_dec p (a_adj ie)) as [->|Hp]; [|intuition].
      destruct (N.eq_dec q (a_adj oe)) as [->|Hq].
      + split.
        * intros [(_ & _ & ->)|(_ & X)]; [auto|tauto].
        * intros [(_ & _ & X)|(_ & X)]; [left; rewrite (Hfun w X); auto|].
          exfalso. apply X. split; auto. split; auto. eexists; eauto.
      + split.
        * intros [(_ & X & _)|([(_ & X & Y)|(X & Y)] & Z)]; [congruence|left; auto|].
          right. split; auto. intros (_ & [A|A] & B); [apply Y; auto|congruence].
        * intros [(_ & [X|X] & Y)|(X & Y)]; [|congruence|].
          -- right. split; [left; auto|tauto].
          -- right. split; [right; split; auto|tauto]. intros (_ & A & B). apply Y. auto.
    - intros i j gr s g ie oe Eie Eoe Wr Wg Hor Hir Hs (pre & post & ie' & Eie' & E1 & E2 & Hr & Hiff).
      assert (ie' = ie) as -> by congruence. exists pre, post, ie. split; auto. split; auto. split; auto. split; auto.
      intros p q w. rewrite Hiff. split.
      + intros [(A & B & D)|(A & B)]; [left; rewrite (among_next _ _ _ q Eoe); auto|]. right. split; auto.
        intros (X & Y & w' & Z). apply B. split; auto. rewrite (among_next _ _ _ q Eoe) in Y. destruct Y as [Y| ->]; [eauto|].
        destruct (Hs _ Z).
      + rewrite (among_next _ _ _ q Eoe). intros [(A & [B| ->] & D)|(A & B)]; [left; auto|destruct (Hs _ D)|]. right. split; auto.
        intros (X & Y & Z). apply B. auto.
    - intros i gr s g ie Eie Wr Wg Hor (pre & post & ie' & Eie' & E1 & E2 & Hr & Hiff).
      assert (ie' = ie) as -> by congruence.
      assert (exists post', post = a_adj ie :: post') as (post' & ->).
      { assert (getN (pre ++ post) i = Some (a_adj ie)) as X by (rewrite <- E1, getN_map, Eie; auto).
        rewrite (getN_app2 pre post i ltac:(rewrite E2; apply N.le_refl)) in X. replace (i - lenN pre) with 0 in X by (rewrite E2; symmetry; apply N.sub_diag).
        destruct post as [|y post]; [discriminate|]. injection X as ->. eauto. }
      exists (pre ++ [a_adj ie]), post'. split; [rewrite <- app_assoc; auto|]. split; [rewrite lenN_app; change (lenN [_]) with 1; lia|].
      eapply add_rows_snoc; eauto. intros p q w. rewrite Hiff.
      assert (forall w', shortcut c (arel gr) x (a_adj ie) q w' -> among (outs g0 x) (lenN (outs g0 x)) q) as Hd.
      { intros w' ((a & b & _ & (k & B) & _) & _). apply among_all. rewrite Hor in B. apply (in_map a_adj) in B. auto. }
      split.
      + intros [(A & B & D)|(A & B)]; [auto|]. right. split; auto. intros (X & w' & Y). apply B. eauto 6.
      + intros [(A & D)|(A & B)]; [left; eauto|]. right. split; auto. intros (X & _ & w' & Y). apply B. eauto 6.
  Qed.

  Lemma contract_overlay x maxs g ws g' ws' : pg_wf n g -> ws_base n ws -> n <= maxs ->
    contract_node c H g ws x maxs = Ok (g', ws') ->
    contraction c x (arel g) (arel g') /\ pg_wf n g' /\ ws_base n ws'.
  Proof.
    intros W Hb Hm E. unfold contract_node in E. apply bind_Ok in E as ([[u1 g1] ws1] & F & E).
    assert (x < n) as Hx.
    { unfold handle_shortcuts in F. apply bind_Ok in F as (ins0 & Ei & _). apply idx_Ok, getN_Some_lt in Ei.
      rewrite (wf_li _ _ W) in Ei. auto. }
    destruct (contract_rows _ _ _ _ _ _ _ W Hb Hm F) as (Hr & W1 & Ho & Hi & B1).
    destruct (disconnect_spec n g1 x W1 Hx) as (g2 & D & W2 & Ho2 & Hi2). rewrite D in E. cbn [bind] in E.
    injection E as <- <-. split; [|auto].
    exists (map a_adj (ins g x)), (arel g1). split; [apply (wf_ndi _ _ W)|]. split.
    - intros u. split.
      + intros Hu. apply in_map_iff in Hu as ([v w k] & <- & Ha). simpl. exists w, k. apply (wf_sym _ _ W). auto.
      + intros (w & k & Ha). apply (wf_sym _ _ W) in Ha. apply (in_map a_adj) in Ha. auto.
    - split; auto. intros p q w. unfold arel. rewrite Ho2. destruct (N.eqb_spec p x) as [->|Hp].
      + split; [intros (? & [])|tauto].
      + split.
        * intros (k & Ha). apply without_In in Ha as [Ha Hq]. simpl in Hq. split; eauto.
        * intros ((k & Ha) & _ & Hq). exists k. apply without_In. auto.
  Qed.

  Lemma relevance_overlay params x level maxs g ws r g' ws' : pg_wf n g -> ws_base n ws -> n <= maxs ->
    calc_relevance c H g params ws x level maxs = Ok (r, g', ws') ->
    g' = g /\ ws_base n ws' /\ priority c params (arel g) x level (f32_as_usize c r).
  Proof.
    intros W0 Hb Hm E. unfold calc_relevance in E. apply bind_Ok in E as ([[k1 g1] ws1] & F & E).
    assert (x < n) as Hx.
    { unfold handle_shortcuts in F. apply bind_Ok in F as (ins0 & Ei & _). apply idx_Ok, getN_Some_lt in Ei.
      rewrite (wf_li _ _ W0) in Ei. auto. }
    refine ((fun X => _) (handle_run (count_shortcut c) x maxs 0%Z g ws k1 g1 ws1
      (fun i s g' => g' = g /\ exists l : list (N * N), NoDup l /\ Z.of_N (lenN l) = s /\
         forall a, In a l <-> among (ins g x) i (fst a) /\ exists w, shortcut c (arel g) x (fst a) (snd a) w)
      (fun i gr j s g' => g' = g /\ gr = g /\ exists ie (l : list (N * N)), getN (ins g x) i = Some ie /\
         NoDup l /\ Z.of_N (lenN l) = s /\
         forall a, In a l <-> (among (ins g x) i (fst a) \/ (fst a = a_adj ie /\ among (outs g x) j (snd a))) /\
           exists w, shortcut c (arel g) x (fst a) (snd a) w)
      (count_shortcut_ok c Hdbg n x) W0 Hb Hm _ _ _ _ _ F)).
    - destruct X as ((-> & l & Hl1 & Hl2 & Hl3) & _ & _ & _ & B).
      rewrite (outs_idx _ _ _ W0 Hx), (ins_idx _ _ _ W0 Hx) in E. cbn [bind] in E. injection E as <- <- <-.
      split; auto. split; auto. exists (lenN l), (lenN (outs g x) + lenN (ins g x)). split; [|split; [|rewrite Hl2; auto]].
      + exists l. split; auto. split; auto. intros a. rewrite Hl3. split; [tauto|]. intros (w & Hs). split; [|eauto].
        apply among_all. destruct Hs as ((p & q & (k & A) & _) & _). apply (wf_sym _ _ W0) in A.
        apply (in_map a_adj) in A. auto.
      + exists (map (fun a => (x, a_adj a)) (outs g x) ++ map (fun a => (a_adj a, x)) (ins g x)). split; [|split].
        * apply NoDup_app_intro.
          -- pose proof (wf_ndo _ _ W0 x) as Hd. rewrite <- map_map with (g := fun y => (x, y)).
             apply FinFun.Injective_map_NoDup; auto. intros a b Hab. congruence.
          -- pose proof (wf_ndi _ _ W0 x) as Hd. rewrite <- map_map with (g := fun y => (y, x)).
             apply FinFun.Injective_map_NoDup; auto. intros a b Hab. congruence.
          -- intros a Ha Hb'. apply in_map_iff in Ha as ([v w k] & <- & Ha). apply in_map_iff in Hb' as (b & X & _).
             injection X as _ X. simpl in X. apply (wf_arc _ _ W0) in Ha. intuition.
        * intros [u v]. simpl. rewrite in_app_iff, !in_map_iff. split.
          -- intros [([v' w k] & X & Ha)|([v' w k] & X & Ha)]; simpl in X; injection X as <- <-.
             ++ split; auto. exists w, k. auto.
             ++ split; auto. exists w, k. apply (wf_sym _ _ W0). auto.
          -- intros ([->| ->] & w & k & Ha).
             ++ left. exists (mkArc v w k). auto.
             ++ right. exists (mkArc u w k). split; auto. apply (wf_sym _ _ W0). auto.
        * rewrite lenN_app, !lenN_map. auto.
    - split; auto. exists []. split; [constructor|]. split; auto. intros a. split; [intros []|].
      intros (X & _). destruct (among_0 _ _ X).
    - intros i s h ie Eie _ _ _ (-> & l & L1 & L2 & L3). split; auto. split; auto. exists ie, l. repeat (split; auto).
      + left. apply L3; auto.
      + apply L3; auto.
      + intros ([A|(_ & A)] & B); [apply L3; auto|]. destruct (among_0 _ _ A).
    - intros i j gr s h s' h' ie oe Eie Eoe _ _ _ _ Hs (-> & -> & ie' & l & Eie' & L1 & L2 & L3) HE.
      assert (ie' = ie) as -> by congruence.
      unfold count_shortcut in HE. rewrite Hdbg in HE. destruct (s <? 2147483647)%Z; [|discriminate].
      injection HE as <- <-. split; auto. split; auto. exists ie, ((a_adj ie, a_adj oe) :: l). split; auto.
      split; [|split].
      + constructor; auto. intros X. apply L3 in X as ([X|(_ & X)] & _); simpl in X.
        * destruct (among_new _ _ _ (wf_ndi _ _ W0 x) Eie X).
        * destruct (among_new _ _ _ (wf_ndo _ _ W0 x) Eoe X).
      + rewrite lenN_cons. lia.
      + intros [u v]. cbn [In]. rewrite L3. cbn [fst snd]. rewrite (among_next _ _ _ v Eoe). split.
        * intros [X|([X|(X & Y)] & Z)]; [injection X as <- <-; split; eauto|auto|auto].
        * intros ([X|(X & [Y|Y])] & Z); [auto|auto|subst; auto].
    - intros i j gr s h ie oe Eie Eoe _ _ _ _ Hs (-> & -> & ie' & l & Eie' & L1 & L2 & L3).
      assert (ie' = ie) as -> by congruence. split; auto. split; auto. exists ie, l. split; auto. split; auto. split; auto.
      intros [u v]. rewrite L3. cbn [fst snd]. rewrite (among_next _ _ _ v Eoe). split.
      + intros ([X|(X & Y)] & Z); auto.
      + intros ([X|(X & [Y|Y])] & Z); [auto|auto|]. subst. destruct Z as (w & Z). destruct (Hs _ Z).
    - intros i gr s h ie Eie _ _ _ (-> & -> & ie' & l & Eie' & L1 & L2 & L3).
      assert (ie' = ie) as -> by congruence. split; auto. exists l. split; auto. split; auto.
      intros [u v]. rewrite L3. cbn [fst snd]. rewrite (among_next _ _ _ u Eie). split.
      + intros ([X|(X & Y)] & Z); auto.
      + intros ([X|X] & Z); [auto|]. split; [|auto]. right. split; auto. destruct Z as (w & (p & q & _ & (k & B) & _) & _).
        apply among_all. apply (in_map a_adj) in B. auto.
  Qed.
End Handle.
