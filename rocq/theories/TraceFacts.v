(** * TraceFacts: the run of the builder as a sequence of textbook contractions *)
From Verif Require Export OverlayFacts.
From Coq Require Import Permutation ZArith.
Open Scope N_scope.

Definition tov (T : list (N * PrepGraph)) : list (N * overlay) := map (fun p => (fst p, arel (snd p))) T.
Definition darcs (d : dir) (g : PrepGraph) (x : N) : list Arc := match d with Fwd => outs g x | Bwd => ins g x end.

(** what storing the nodes of [T] one after the other, from [rank] on, makes of [fg] *)
Record saved (c : cfg) (fg : FastGraph) (rank : N) (T : list (N * PrepGraph)) (fg' : FastGraph) : Prop := mk_saved {
  sv_edges : forall d, fg_edges fg' d =
    fg_edges fg d ++ flat_map (fun p => map (enc c (fst p)) (darcs d (snd p) (fst p))) T;
  sv_len : lenN (fg_ranks fg') = lenN (fg_ranks fg);
  sv_other : forall v, ~ In v (map fst T) -> getN (fg_ranks fg') v = getN (fg_ranks fg) v;
  sv_rank : NoDup (map fst T) -> forall i p, getN T i = Some p -> getN (fg_ranks fg') (fst p) = Some (rank + i)
}.

Lemma saved_nil c fg rank : saved c fg rank [] fg.
Proof. constructor; auto. - intros d. simpl. rewrite app_nil_r. auto. - intros _ i p E. discriminate. Qed.

Lemma store_arcs_eq c x : forall arcs es es', store_arcs c x es arcs = Ok es' -> es' = es ++ map (enc c x) arcs.
Proof.
  unfold store_arcs. induction arcs as [|a arcs IH]; intros es es' E; simpl in E.
  - injection E as <-. simpl. rewrite app_nil_r. auto.
  - apply bind_Ok in E as (e1 & F & E). unfold vpush in F. destruct (_ <? _); [|discriminate]. injection F as <-.
    apply IH in E. rewrite E. simpl. rewrite <- app_assoc. auto.
Qed.

Lemma store_node_eq c n fg g rank x fg' : pg_wf n g -> x < n -> store_node c fg g rank x = Ok fg' ->
  (forall d, fg_edges fg' d = fg_edges fg d ++ map (enc c x) (darcs d g x)) /\
  x < lenN (fg_ranks fg) /\ fg_ranks fg' = setN (fg_ranks fg) x rank.
Proof.
  intros W Hx E. destruct (store_node_len _ _ _ _ _ _ E) as (_ & A & B). split; [|auto].
  unfold store_node in E. rewrite (outs_idx _ _ _ W Hx) in E. cbn [bind] in E.
  apply bind_Ok in E as (ef & E1 & E). apply bind_Ok in E as (ff & _ & E). rewrite (ins_idx _ _ _ W Hx) in E. cbn [bind] in E.
  apply bind_Ok in E as (eb & E2 & E). apply bind_Ok in E as (fb & _ & E). apply bind_Ok in E as (rk & _ & E).
  injection E as <-. apply store_arcs_eq in E1. apply store_arcs_eq in E2. intros []; simpl; auto.
Qed.

Lemma saved_cons c n fg g rank x fg1 T fg' : pg_wf n g -> x < n -> store_node c fg g rank x = Ok fg1 ->
  saved c fg1 (rank + 1) T fg' -> saved c fg rank ((x, g) :: T) fg'.
Proof.
  intros W Hx E [S1 S2 S3 S4]. destruct (store_node_eq _ _ _ _ _ _ _ W Hx E) as (E1 & Hl & E2). constructor.
  - intros d. rewrite S1, E1. simpl. rewrite app_assoc. auto.
  - rewrite S2, E2, lenN_setN. auto.
  - simpl. intros v Hv. rewrite S3 by tauto. rewrite E2, getN_setN_neq; auto.
  - simpl. intros Hd i p Ei. inversion Hd as [|? ? Hnin Hd']; subst.
    destruct (N.eq_dec i 0) as [->|Hi].
    + injection Ei as <-. simpl. rewrite S3 by auto. rewrite E2, getN_setN_eq by auto. f_equal. lia.
    + destruct (N.eqb_spec i 0) as [|_]; [lia|]. pose proof Ei as Ei'.
      rewrite (S4 Hd' _ _ Ei'). f_equal. lia.
Qed.

(** ** Finishing keeps base, adjacent node and weight of all edges *)
Lemma set_edge_stored fg d i e e' d' : getN (fg_edges fg d) i = Some e ->
  fe_base e' = fe_base e -> fe_adj e' = fe_adj e -> fe_weight e' = fe_weight e ->
  stored (fg_edges (fg_set_edge fg d i e') d') = stored (fg_edges fg d').
Proof.
  intros He H1 H2 H3.
  assert (stored (setN (fg_edges fg d) i e') = stored (fg_edges fg d)) as X.
  { apply getN_ext. intros j. unfold stored. rewrite !getN_map. destruct (N.eq_dec i j) as [<-|Hne].
    - rewrite getN_setN_eq by (eapply getN_Some_lt; eauto). rewrite He. simpl. congruence.
    - rewrite getN_setN_neq by auto. auto. }
  destruct d, d'; simpl in *; auto.
Qed.
Lemma finish_edge_stored c d i fg id fg' d' : finish_edge c d i fg id = Ok fg' ->
  stored (fg_edges fg' d') = stored (fg_edges fg d').
Proof.
  unfold finish_edge. intros E. apply bind_Ok in E as (e & Ee & E). apply idx_Ok in Ee.
  destruct (_ =? _).
  - apply bind_Ok in E as (? & _ & E). injection E as <-. eapply set_edge_stored; eauto.
  - apply bind_Ok in E as (ri & _ & E). apply bind_Ok in E as (ro & _ & E). injection E as <-.
    erewrite set_edge_stored; [|rewrite fg_edges_set_same; apply getN_setN_eq; eapply getN_Some_lt; eauto|reflexivity..].
    eapply set_edge_stored; eauto.
Qed.
Lemma finish_dir_stored c d n fg fg' d' : finish_dir c d n fg = Ok fg' ->
  stored (fg_edges fg' d') = stored (fg_edges fg d').
Proof.
  unfold finish_dir. intros E.
  refine (foldM_ok_inv _ (fun f => stored (fg_edges f d') = stored (fg_edges fg d')) _ _ _ _ _ E); [|reflexivity].
  intros i f f' _ Hf Hi. apply bind_Ok in Hi as (b & _ & Hi). apply bind_Ok in Hi as (e & _ & Hi).
  refine (foldM_ok_inv _ (fun f => stored (fg_edges f d') = stored (fg_edges fg d')) _ _ _ _ _ Hi); [|auto].
  intros id f1 f2 _ H1 H2. apply (finish_edge_stored _ _ _ _ _ _ d') in H2. congruence.
Qed.
Lemma finish_stored c n fg fg' d : finish_contraction c n fg = Ok fg' -> stored (fg_edges fg' d) = stored (fg_edges fg d).
Proof.
  unfold finish_contraction. intros E. apply bind_Ok in E as (f1 & E1 & E2).
  apply (finish_dir_stored _ _ _ _ _ d) in E1. apply (finish_dir_stored _ _ _ _ _ d) in E2. congruence.
Qed.

Lemma saved_stores c n fg0 T fg1 fg : fg_new c n = Ok fg0 -> saved c fg0 0 T fg1 -> finish_contraction c n fg1 = Ok fg ->
  (forall p, In p T -> pg_wf n (snd p)) -> permutation_of_nodes n (map fst T) ->
  stores fg (tov T) /\ get_node_ordering fg = Ok (map fst T).
Proof.
  intros E0 [S1 S2 S3 S4] E2 HW [Hd HI]. split.
  - intros x G HG v w. apply in_map_iff in HG as ([x' g] & X & HT). injection X as -> <-. cbn [fst snd] in *.
    assert (forall d, stored (fg_edges fg d) =
      flat_map (fun p => map (fun a => mkEdge (fst p) (a_adj a) (a_weight a)) (darcs d (snd p) (fst p))) T) as Hs.
    { intros d. rewrite (finish_stored _ _ _ _ d E2), S1.
      assert (fg_edges fg0 d = []) as ->.
      { unfold fg_new in E0. destruct (_ <=? _) in E0; [|discriminate]. apply bind_Ok in E0 as (m & _ & E0). destruct (_ <=? _); [|discriminate]. injection E0 as <-.
        destruct d; auto. }
      simpl. clear. unfold stored. induction T as [|p T IH]; simpl; auto. rewrite map_app, IH, map_map. auto. }
    assert (forall d, In (mkEdge x v w) (stored (fg_edges fg d)) <-> exists k, In (mkArc v w k) (darcs d g x)) as Hi.
    { intros d. rewrite Hs, in_flat_map. split.
      - intros ([y h] & Hy & Ha). apply in_map_iff in Ha as ([a1 a2 k] & X & Ha). cbn [fst snd a_adj a_weight] in *.
        injection X as -> <- <-. exists k. replace g with h; auto.
        assert (forall (l : list (N * PrepGraph)) z a b, NoDup (map fst l) -> In (z, a) l -> In (z, b) l -> a = b) as Hu.
        { clear. induction l as [|[z0 a0] l IH]; intros z a b Hn Ha Hb; [destruct Ha|]. inversion Hn; subst.
          destruct Ha as [Ha|Ha], Hb as [Hb|Hb].
          - congruence.
          - injection Ha as -> ->. apply (in_map fst) in Hb. tauto.
          - injection Hb as -> ->. apply (in_map fst) in Ha. tauto.
          - eapply IH; eauto. }
        eapply Hu; eauto.
      - intros (k & Ha). exists (x, g). split; auto. apply in_map_iff. exists (mkArc v w k). auto. }
    pose proof (HW _ HT) as Wg. cbn [snd] in Wg. split; [rewrite (Hi Fwd)|rewrite (Hi Bwd)]; simpl; unfold arel; [tauto|].
    split; intros (k & Ha); exists k; apply (wf_sym _ _ Wg); auto.
  - assert (lenN (fg_ranks fg) = n) as Hl.
    { rewrite (finish_ranks _ _ _ _ E2), S2. unfold fg_new in E0. destruct (_ <=? _) in E0; [|discriminate]. apply bind_Ok in E0 as (m & _ & E0).
      destruct (_ <=? _); [|discriminate]. injection E0 as <-. simpl. apply lenN_repeat. }
    apply ordering_of_ranks; rewrite ?Hl; [split; auto|]. intros i v Hv. rewrite (finish_ranks _ _ _ _ E2).
    rewrite getN_map in Hv. destruct (getN T i) as [p|] eqn:Ei; [|discriminate]. injection Hv as <-.
    rewrite (S4 Hd _ _ Ei). f_equal.
Qed.

Section Trace.
  Variables (c : cfg) (H : heap_ops) (hinv : list HeapItem -> Prop).
  Hypothesis Hdbg : debug_build c = true.
  Hypothesis HL : heap_laws H hinv.
  Variable n : N.
  Hypothesis Hn : n <= umax c.

  Lemma order_trace maxs : n <= maxs -> forall L fg g ws k fg' g' ws' k', pg_wf n g -> ws_base n ws ->
    foldM (order_body c H n maxs) L (fg, g, ws, k) = Ok (fg', g', ws', k') ->
    exists T, map fst T = L /\ saved c fg k T fg' /\ (forall p, In p T -> pg_wf n (snd p)) /\
      hierarchy c (arel g) (tov T).
  Proof.
    intros Hm. induction L as [|x L IH]; intros fg g ws k fg' g' ws' k' W B E; cbn [foldM] in E.
    - injection E as <- <- <- <-. exists []. split; auto. split; [apply saved_nil|]. split; [intros p []|constructor].
    - apply bind_Ok in E as ([[[f1 g1] w1] k1] & F & E). unfold order_body in F.
      destruct (N.leb_spec n x) as [|Hx]; [discriminate|].
      apply bind_Ok in F as (f2 & Es & F). apply bind_Ok in F as ([g2 w2] & Ec & F). injection F as <- <- <- <-.
      destruct (contract_overlay c H hinv Hdbg HL n Hn _ _ _ _ _ _ W B Hm Ec) as (Hc & W2 & B2).
      destruct (IH _ _ _ _ _ _ _ _ W2 B2 E) as (T & HT & Hs & HW & Hh). exists ((x, g) :: T). split; [simpl; congruence|].
      split; [eapply saved_cons; eauto|]. split; [intros p [<-|Hp]; auto|]. simpl. econstructor; eauto.
  Qed.

  Variables (Q : pq_ops) (qinv : list (N * N) -> Prop) (params : Params).
  Hypothesis QL : pq_laws Q qinv.
  Hypothesis Hm0 : n <= p_max_settled_nodes_initial_relevance params.
  Hypothesis Hm1 : n <= p_max_settled_nodes_neighbor_relevance params.
  Hypothesis Hm2 : n <= p_max_settled_nodes_contraction params.

  Record tinv (st : BState) (L P : N -> N) : Prop := mk_tinv {
    ti_wf : pg_wf n (bs_pg st);
    ti_ws : ws_base n (bs_ws st);
    ti_q : qinv (bs_queue st);
    ti_p : forall v p, In (v, p) (bs_queue st) -> p = P v;
    ti_len : lenN (bs_levels st) = n;
    ti_lev : forall v, v < n -> getN (bs_levels st) v = Some (L v)
  }.

  Lemma update_all x : forall nbs st st' L P, tinv st L P -> ~ In x nbs -> (forall y, In y nbs -> y < n) -> x < n ->
    foldM (update_neighbor c H Q params x) nbs st = Ok st' ->
    exists L' P', tinv st' L' P' /\ bs_pg st' = bs_pg st /\ bs_fg st' = bs_fg st /\ bs_rank st' = bs_rank st /\
      Permutation (map fst (bs_queue st')) (map fst (bs_queue st)) /\
      (forall v, In v nbs -> L' v = N.max (L v) (L x + 1) /\ priority c params (arel (bs_pg st)) v (L' v) (P' v)) /\
      (forall v, ~ In v nbs -> L' v = L v /\ P' v = P v).
  Proof.
    induction nbs as [|y nbs IH]; intros st st' L P HT Hx Hlt Hxn E; cbn [foldM] in E.
    - injection E as <-. exists L, P. do 5 (split; [auto|]). split; [intros v []|auto].
    - apply bind_Ok in E as (st1 & F & E). unfold update_neighbor in F. destruct HT as [W B Hq Hp Hlen Hlev].
      assert (y < n) as Hy by (apply Hlt; simpl; auto).
      rewrite (idx_Some _ _ _ (Hlev y Hy)), (idx_Some _ _ _ (Hlev x Hxn)) in F. cbn [bind] in F.
      apply bind_Ok in F as (lv & E3 & F). apply bind_Ok in F as ([[r g] w] & E4 & F). injection F as <-.
      unfold upd in E3. destruct (N.ltb_spec y (lenN (bs_levels st))) as [_|]; [|lia]. injection E3 as <-.
      destruct (relevance_overlay c H hinv Hdbg HL n Hn _ _ _ _ _ _ _ _ _ W B Hm1 E4) as (-> & B' & Hpr).
      destruct QL as (_ & _ & _ & _ & Q5). destruct (Q5 (bs_queue st) y (f32_as_usize c r) Hq) as [P1 P2].
      set (L1 := fun v => if v =? y then N.max (L y) (L x + 1) else L v).
      set (P1' := fun v => if v =? y then f32_as_usize c r else P v).
      match type of E with foldM _ _ ?s = _ =>
        destruct (IH s st' L1 P1') as (L' & P' & HT & X1 & X2 & X3 & X4 & X5 & X6); [| | | |exact E|] end.
      + constructor; simpl; auto.
        * intros v p Hin. eapply Permutation_in in Hin; [|exact P2]. unfold set_priority in Hin.
          apply in_map_iff in Hin as ([v' p'] & X & Hin). unfold P1'. simpl in X. destruct (N.eqb_spec v' y) as [->|Hne].
          -- injection X as <- <-. rewrite N.eqb_refl. auto.
          -- injection X as <- <-. destruct (N.eqb_spec v' y); [congruence|]. auto.
        * rewrite lenN_setN. auto.
        * intros v Hv. unfold L1. destruct (N.eqb_spec v y) as [->|Hne].
          -- rewrite getN_setN_eq; [auto|lia].
          -- rewrite getN_setN_neq; auto.
      + simpl in Hx. tauto.
      + intros; apply Hlt; simpl; auto.
      + auto.
      + simpl in *. exists L', P'. split; auto. split; auto. split; auto. split; auto. split.
        { eapply Permutation_trans; [exact X4|]. apply (Permutation_map fst) in P2. rewrite set_priority_keys in P2. auto. }
        assert (L1 x = L x) as Lx by (unfold L1; destruct (N.eqb_spec x y); [subst; tauto|auto]).
        assert (L1 y = N.max (L y) (L x + 1)) as Ly by (unfold L1; rewrite N.eqb_refl; auto).
        assert (P1' y = f32_as_usize c r) as Py by (unfold P1'; rewrite N.eqb_refl; auto).
        rewrite Lx in X5. split.
        * intros v Hv. destruct (in_dec N.eq_dec v nbs) as [Hin|Hnin].
          -- destruct (X5 v Hin) as (A1 & A2). split; auto. rewrite A1. unfold L1. destruct (N.eqb_spec v y); [subst; lia|auto].
          -- destruct Hv as [<-|Hv]; [|tauto]. destruct (X6 y Hnin) as (A1 & A2). rewrite A1, A2, Ly, Py. auto.
        * intros v Hv. destruct (X6 v) as (A1 & A2); [tauto|]. rewrite A1, A2. unfold L1, P1'.
          destruct (N.eqb_spec v y); [subst; tauto|auto].
  Qed.

  Lemma greedy_left G L P (A B : N -> Prop) l : (forall v, A v <-> B v) -> greedy c params G L P A l -> greedy c params G L P B l.
  Proof.
    intros Hiff Hg. revert B Hiff. induction Hg as [G L P A HA|G L P A x G' L' P' l H1 H2 H3 H4 H5 H6 IH]; intros B Hiff.
    - constructor. intros v Hv. apply (HA v). apply Hiff. auto.
    - econstructor; [apply Hiff; auto| |eauto|eauto| |].
      + intros v Hv. apply H2, Hiff. auto.
      + intros v Hv. apply H5, Hiff. auto.
      + apply IH. intros v. rewrite Hiff. tauto.
  Qed.

  Lemma loop_trace : forall fuel st st' L P, tinv st L P -> NoDup (map fst (bs_queue st)) ->
    (forall v, In v (map fst (bs_queue st)) -> v < n) ->
    contraction_loop fuel c H Q params st = Ok st' ->
    exists T, greedy c params (arel (bs_pg st)) L P (fun v => In v (map fst (bs_queue st))) (tov T) /\
      saved c (bs_fg st) (bs_rank st) T (bs_fg st') /\ (forall p, In p T -> pg_wf n (snd p)) /\
      Permutation (map fst T) (map fst (bs_queue st)).
  Proof.
    induction fuel as [|fuel IH]; intros st st' L P HT Hd Hk E; [discriminate|]. cbn [contraction_loop] in E.
    pose proof QL as (_ & _ & Q3 & Q4 & _). pose proof HT as [W B Hq Hp Hlen Hlev].
    destruct (pq_pop Q (bs_queue st)) as [[[x p] q]|] eqn:Ep.
    2:{ injection E as <-. apply Q3 in Ep; auto. exists []. rewrite Ep. split; [constructor; auto|]. split; [apply saved_nil|].
        split; [intros ? []|constructor]. }
    destruct (Q4 _ _ _ _ Hq Ep) as (Hq' & Hperm & Hmin).
    assert (Permutation (map fst (bs_queue st)) (x :: map fst q)) as Hkp by (apply (Permutation_map fst) in Hperm; auto).
    assert (x < n) as Hx by (apply Hk; eapply Permutation_in; [symmetry; exact Hkp|]; simpl; auto).
    assert (In (x, p) (bs_queue st)) as Hxin by (eapply Permutation_in; [symmetry; exact Hperm|]; simpl; auto).
    pose proof (Hp _ _ Hxin) as ->.
    apply bind_Ok in E as (nbs & En & E). apply bind_Ok in E as (fg' & Es & E).
    apply bind_Ok in E as ([g' w'] & Ec & E). apply bind_Ok in E as (st1 & Ef & E).
    destruct (neighbors_ok (mkInputGraph [] n true) (bs_pg st) x W Hx) as (nbs' & En' & Hnb). rewrite En in En'. injection En' as <-.
    assert (forall v, In v nbs <-> neighbor (arel (bs_pg st)) x v) as Hnb'.
    { intros v. rewrite Hnb, !in_map_iff. split.
      - intros [([v' w k] & <- & Ha)|([v' w k] & <- & Ha)]; exists w; [left|right]; exists k; auto.
        apply (wf_sym _ _ W). auto.
      - intros (w & [(k & Ha)|(k & Ha)]); [left|right]; eexists; (split; [|first [exact Ha|apply (wf_sym _ _ W); exact Ha]]); auto. }
    assert (~ In x nbs) as Hxn.
    { rewrite Hnb'. intros (w & [(k & Ha)|(k & Ha)]); apply (wf_arc _ _ W) in Ha; intuition. }
    pose proof (neighbors_lt (mkInputGraph [] n true) (bs_pg st) x nbs W Hx En) as Hnlt.
    destruct (contract_overlay c H hinv Hdbg HL n Hn _ _ _ _ _ _ W B Hm2 Ec) as (Hc & W2 & B2).
    match type of Ef with foldM _ _ ?s = _ =>
      destruct (update_all x nbs s st1 L P) as (L' & P' & HT' & X1 & X2 & X3 & X4 & X5 & X6);
        [|exact Hxn|exact Hnlt|exact Hx|exact Ef|] end.
    { constructor; simpl; auto. intros v p' Hin. apply Hp. eapply Permutation_in; [symmetry; exact Hperm|]. simpl; auto. }
    simpl in X1, X2, X3, X4, X5.
    assert (NoDup (x :: map fst q)) as Hd2 by (eapply Permutation_NoDup; eauto).
    apply NoDup_cons_iff in Hd2 as (Hnin & Hd3).
    match type of E with contraction_loop _ _ _ _ _ ?s = _ =>
      destruct (IH s st' L' P') as (T & T1 & T2 & T3 & T4); [| | |exact E|] end.
    { destruct HT' as [Y1 Y2 Y3 Y4 Y5 Y6]. constructor; simpl; auto. }
    { simpl. eapply Permutation_NoDup; [symmetry; exact X4|]. auto. }
    { simpl. intros v Hv. apply Hk. eapply Permutation_in; [symmetry; exact Hkp|]. right.
      eapply Permutation_in; [exact X4|]. auto. }
    simpl in T1, T2, T4. exists ((x, bs_pg st) :: T). split; [|split; [|split]].
    - simpl. rewrite X1 in T1. econstructor; [| |exact Hc| | |].
      + apply (in_map fst) in Hxin. auto.
      + intros v Hv. apply in_map_iff in Hv as ([v' p'] & <- & Hv). simpl. pose proof (Hp _ _ Hv) as ->. eapply Hmin; eauto.
      + intros v Hv. apply Hnb' in Hv. apply X5. auto.
      + intros v _ _ Hv. apply X6. rewrite Hnb'. auto.
      + eapply greedy_left; [|exact T1]. intros v. simpl. split.
        * intros Hv. assert (In v (map fst q)) as Hv' by (eapply Permutation_in; [exact X4|]; auto). split.
          -- eapply Permutation_in; [symmetry; exact Hkp|]. simpl; auto.
          -- intros ->. auto.
        * intros (Hv & Hne). eapply Permutation_in in Hv; [|exact Hkp]. destruct Hv as [->|Hv]; [congruence|].
          eapply Permutation_in; [symmetry; exact X4|]. auto.
    - rewrite X2, X3 in T2. eapply saved_cons; eauto.
    - intros p' [<-|Hp']; auto.
    - simpl. eapply Permutation_trans; [|symmetry; exact Hkp]. constructor. eapply Permutation_trans; eauto.
  Qed.

  Lemma init_all : forall l st st' P, tinv st (fun _ => 0) P -> NoDup l -> (forall v, In v l -> ~ In v (map fst (bs_queue st))) ->
    foldM (init_queue_step c H Q params) l st = Ok st' ->
    exists P', tinv st' (fun _ => 0) P' /\ bs_pg st' = bs_pg st /\ bs_fg st' = bs_fg st /\ bs_rank st' = bs_rank st /\
      Permutation (map fst (bs_queue st')) (l ++ map fst (bs_queue st)) /\
      (forall v, In v l -> priority c params (arel (bs_pg st)) v 0 (P' v)) /\ (forall v, ~ In v l -> P' v = P v).
  Proof.
    induction l as [|y l IH]; intros st st' P HT Hd Hk E; cbn [foldM] in E.
    - injection E as <-. exists P. do 5 (split; [auto|]). split; [intros v []|auto].
    - apply bind_Ok in E as (st1 & F & E). unfold init_queue_step in F. destruct HT as [W B Hq Hp Hlen Hlev].
      apply bind_Ok in F as ([[r g] w] & E4 & F). injection F as <-.
      destruct (relevance_overlay c H hinv Hdbg HL n Hn _ _ _ _ _ _ _ _ _ W B Hm0 E4) as (-> & B' & Hpr).
      destruct QL as (_ & Q2 & _). destruct (Q2 (bs_queue st) y (f32_as_usize c r) Hq) as [P1 P2]; [apply Hk; simpl; auto|].
      inversion Hd as [|? ? Hnin Hd']; subst.
      set (P1' := fun v => if v =? y then f32_as_usize c r else P v).
      assert (forall v p, In (v, p) (bs_queue st) -> v <> y) as Hny.
      { intros v p Hin ->. apply (Hk y); simpl; auto. apply (in_map fst) in Hin. auto. }
      match type of E with foldM _ _ ?s = _ =>
        destruct (IH s st' P1') as (P' & HT & X1 & X2 & X3 & X4 & X5 & X6); [| | |exact E|] end.
      + constructor; simpl; auto.
        intros v p Hin. eapply Permutation_in in Hin; [|exact P2]. unfold P1'. destruct Hin as [X|Hin].
        * injection X as <- <-. rewrite N.eqb_refl. auto.
        * destruct (N.eqb_spec v y) as [->|_]; [destruct (Hny _ _ Hin); auto|auto].
      + auto.
      + simpl. intros v Hv Hin. apply (Permutation_map fst) in P2. eapply Permutation_in in Hin; [|exact P2].
        destruct Hin as [<-|Hin]; [auto|]. apply (Hk v); simpl; auto.
      + simpl in *. exists P'. split; auto. split; auto. split; auto. split; auto. split; [|split].
        * eapply Permutation_trans; [exact X4|]. apply (Permutation_map fst) in P2. simpl in P2.
          eapply Permutation_trans; [apply Permutation_app_head; exact P2|]. symmetry. apply Permutation_middle.
        * intros v [<-|Hv]; [|auto]. rewrite (X6 y Hnin). unfold P1'. rewrite N.eqb_refl. auto.
        * intros v Hv. rewrite X6 by tauto. unfold P1'. destruct (N.eqb_spec v y); [subst; tauto|auto].
  Qed.
End Trace.
