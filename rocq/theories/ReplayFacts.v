(** * ReplayFacts: preparing in the order that preparation has chosen gives the same graph again *)
From Verif Require Export HistoryFacts PrepareProps.
From Coq Require Import Permutation ZArith.
Open Scope N_scope.

Lemma foldM_ok_inv {S A} (f : S -> A -> res S) (I : S -> Prop) : forall l s s',
  (forall a s s', In a l -> I s -> f s a = Ok s' -> I s') -> I s -> foldM f l s = Ok s' -> I s'.
Proof.
  induction l as [|a l IH]; intros s s' Hf Hs HE; simpl in HE.
  - injection HE as <-. auto.
  - apply bind_Ok in HE as (t & F & HE). apply (IH t s'); auto.
    + intros; eapply Hf; eauto. right; auto.
    + apply (Hf a s t); auto. left; auto.
Qed.

(** ** The state left over by earlier witness searches does not matter *)
Section WS.
  Variables (c : cfg) (H : heap_ops) (n : N).

  Record wsim (ws ws' : WitnessSearch) : Prop := mk_wsim {
    wm_base : ws_base n ws;
    wm_base' : ws_base n ws';
    wm_lab : forall v, wl ws v = wl ws' v;
    wm_heap : ws_heap ws = ws_heap ws';
    wm_start : ws_start ws = ws_start ws';
    wm_avoid : ws_avoid ws = ws_avoid ws';
    wm_settled : ws_settled ws = ws_settled ws'
  }.

  Lemma update_out ws v w : ws_base n ws -> n <= v -> ws_update_node ws v w = Panic PIndex.
  Proof.
    intros [_ _ (Hl & _)] Hv. unfold ws_update_node, vf_set_valid, upd.
    destruct (N.ltb_spec v (lenN (vf_flags (ws_flags ws)))); [lia|]. reflexivity.
  Qed.
  Lemma settle_out ws v : ws_base n ws -> n <= v -> ws_settle ws v = Panic PIndex.
  Proof. intros [_ Hd _] Hv. unfold ws_settle, idx. rewrite getN_None by lia. reflexivity. Qed.
  Lemma valid_out ws v : ws_base n ws -> n <= v -> vf_is_valid (ws_flags ws) v = Panic PIndex.
  Proof. intros [_ _ (Hl & _)] Hv. unfold vf_is_valid, idx. rewrite getN_None by lia. reflexivity. Qed.

  Lemma wsim_update ws ws' v w : wsim ws ws' ->
    rel_res wsim (ws_update_node ws v w) (ws_update_node ws' v w).
  Proof.
    intros [B B' L Eh Es Ea Ec]. destruct (N.lt_ge_cases v n) as [Hv|Hv].
    - destruct (update_node_ok n ws v w B Hv) as (s1 & E1 & B1 & (P1 & P2 & P3) & L1).
      destruct (update_node_ok n ws' v w B' Hv) as (s2 & E2 & B2 & (Q1 & Q2 & Q3) & L2).
      pose proof (update_node_settled _ _ _ _ E1). pose proof (update_node_settled _ _ _ _ E2).
      rewrite E1, E2. constructor; auto; try congruence. intros u. rewrite L1, L2, L. auto.
    - rewrite !update_out by auto. reflexivity.
  Qed.
  Lemma wsim_settle ws ws' v : wsim ws ws' -> rel_res wsim (ws_settle ws v) (ws_settle ws' v).
  Proof.
    intros [B B' L Eh Es Ea Ec]. destruct (N.lt_ge_cases v n) as [Hv|Hv].
    - destruct (settle_ok n ws v B Hv) as (s1 & E1 & B1 & (P1 & P2 & P3) & L1).
      destruct (settle_ok n ws' v B' Hv) as (s2 & E2 & B2 & (Q1 & Q2 & Q3) & L2).
      pose proof (settle_settled _ _ _ E1). pose proof (settle_settled _ _ _ E2).
      rewrite E1, E2. constructor; auto; try congruence. intros u. rewrite L1, L2, !L. auto.
    - rewrite !settle_out by auto. reflexivity.
  Qed.
  Lemma wsim_is_settled ws ws' v : wsim ws ws' -> ws_is_settled ws v = ws_is_settled ws' v.
  Proof.
    intros [B B' L _ _ _ _]. destruct (N.lt_ge_cases v n) as [Hv|Hv].
    - rewrite (is_settled_ok n _ _ B Hv), (is_settled_ok n _ _ B' Hv). unfold wset. rewrite L. auto.
    - unfold ws_is_settled. rewrite !valid_out by auto. reflexivity.
  Qed.
  Lemma wsim_weight ws ws' v : wsim ws ws' -> ws_get_current_weight c ws v = ws_get_current_weight c ws' v.
  Proof.
    intros [B B' L _ _ _ _]. destruct (N.lt_ge_cases v n) as [Hv|Hv].
    - rewrite (get_current_weight_ok c n _ _ B Hv), (get_current_weight_ok c n _ _ B' Hv). rewrite L. auto.
    - unfold ws_get_current_weight. rewrite !valid_out by auto. reflexivity.
  Qed.
  Lemma wsim_set_heap ws ws' h : wsim ws ws' -> wsim (ws_set_heap ws h) (ws_set_heap ws' h).
  Proof.
    intros [B B' L Eh Es Ea Ec]. constructor; auto; apply ws_base_set_heap; auto.
  Qed.

  Definition wsim2 (p q : WitnessSearch * bool) : Prop := wsim (fst p) (fst q) /\ snd p = snd q.
  Lemma wsim_relax curr target limit a p q : wsim2 p q ->
    rel_res wsim2 (ws_relax c H curr target limit p a) (ws_relax c H curr target limit q a).
  Proof.
    destruct p as [ws b], q as [ws' b']. intros [S E]. simpl in S, E. subst b'. unfold ws_relax.
    rewrite <- (wm_avoid _ _ S). destruct (a_adj a =? ws_avoid ws); [split; auto|].
    destruct (uadd c (hi_weight curr) (a_weight a)) as [w| |]; simpl; auto.
    rewrite <- (wsim_weight _ _ (a_adj a) S).
    destruct (ws_get_current_weight c ws (a_adj a)) as [cw| |]; simpl; auto.
    destruct (w <? cw); [|split; auto].
    pose proof (wsim_update _ _ (a_adj a) w S) as G.
    destruct (ws_update_node ws (a_adj a) w), (ws_update_node ws' (a_adj a) w); simpl in *; auto; try contradiction.
    split; simpl; auto. rewrite (wm_heap _ _ G). apply wsim_set_heap; auto.
  Qed.

  Lemma wsim_loop g target limit maxs : forall fuel ws ws', wsim ws ws' ->
    rel_res wsim (ws_loop fuel c H ws g target limit maxs) (ws_loop fuel c H ws' g target limit maxs).
  Proof.
    induction fuel as [|rest IH]; [|specialize (IH tt)]; intros ws ws' S; [exact I|]. cbn [ws_loop].
    rewrite <- (wm_heap _ _ S), <- (wm_settled _ _ S).
    destruct (ws_heap ws) as [|it r] eqn:Eh; [exact S|]. rewrite <- Eh. clear it r Eh.
    destruct (maxs <=? ws_settled ws); [exact S|].
    destruct (hp_peek H (ws_heap ws)) as [curr|]; [|reflexivity].
    destruct (limit <? hi_weight curr); [exact S|].
    set (h := match hp_pop H (ws_heap ws) with Some (_, h') => h' | None => ws_heap ws end).
    pose proof (wsim_set_heap _ _ h S) as S1. apply rel_bind_eq; [apply wsim_is_settled; auto|].
    intros [|] _; [auto|].
    apply rel_bind_eq; [reflexivity|]. intros arcs _.
    eapply rel_bind.
    { apply (rel_foldM wsim2) with (s := (ws_set_heap ws h, false)) (s' := (ws_set_heap ws' h, false)).
      - intros a p q _ Hpq. apply wsim_relax; auto.
      - split; auto. }
    intros [w2 b2] [w2' b2'] [S2 E2]. simpl in S2, E2. subst b2'.
    eapply rel_bind; [apply wsim_settle; exact S2|]. intros w3 w3' S3.
    destruct (b2 || (hi_node curr =? target)); [exact S3|]. apply IH; auto.
  Qed.

  Lemma wsim_find g target limit maxs ws ws' : wsim ws ws' ->
    rel_res (fun p q => wsim (fst p) (fst q) /\ snd p = snd q)
      (ws_find_max_weight c H ws g target limit maxs) (ws_find_max_weight c H ws' g target limit maxs).
  Proof.
    intros S. unfold ws_find_max_weight.
    rewrite <- (wm_start _ _ S), <- (wm_avoid _ _ S), (wb_n _ _ (wm_base _ _ S)), (wb_n _ _ (wm_base' _ _ S)).
    do 3 (apply rel_bind_eq; [reflexivity|]; intros ? _).
    destruct (target =? ws_start ws); [split; auto|].
    destruct (N.lt_ge_cases target n) as [Ht|Ht].
    2:{ rewrite !valid_out by (auto; apply S). reflexivity. }
    rewrite (vf_is_valid_ok n _ _ (wb_f _ _ (wm_base _ _ S)) Ht), (vf_is_valid_ok n _ _ (wb_f _ _ (wm_base' _ _ S)) Ht).
    cbn [bind].
    destruct (getN_lt (ws_data ws) target) as [d Hd]; [rewrite (wb_d _ _ (wm_base _ _ S)); auto|].
    destruct (getN_lt (ws_data ws') target) as [d' Hd']; [rewrite (wb_d _ _ (wm_base' _ _ S)); auto|].
    rewrite (idx_Some _ _ _ Hd), (idx_Some _ _ _ Hd'). cbn [bind].
    pose proof (wm_lab _ _ S target) as HX. unfold wl, view in HX. rewrite Hd, Hd' in HX.
    assert (forall k, rel_res (fun p q => wsim (fst p) (fst q) /\ snd p = snd q)
      (ws'0 <- ws_loop k c H ws g target limit maxs ;; w <- ws_get_current_weight c ws'0 target ;; Ok (ws'0, w))
      (ws'0 <- ws_loop k c H ws' g target limit maxs ;; w <- ws_get_current_weight c ws'0 target ;; Ok (ws'0, w))) as G.
    { intros k. eapply rel_bind; [apply wsim_loop; exact S|]. intros va vb Sab.
      apply rel_bind_eq; [apply wsim_weight; auto|]. intros w _. split; auto. }
    assert (ws_fuel c ws g = ws_fuel c ws' g) as Ef by (unfold ws_fuel; destruct (wm_base _ _ S) as [-> _ _], (wm_base' _ _ S) as [-> _ _]; rewrite (wm_heap _ _ S); reflexivity).
    destruct (vfb (ws_flags ws) target), (vfb (ws_flags ws') target); try discriminate; cbn [andb].
    - injection HX as <-. destruct (wd_settled d || (wd_weight d <=? limit)); [split; auto|]. rewrite <- Ef. apply G.
    - rewrite <- Ef. apply G.
  Qed.

  Lemma wsim_init ws ws' s x : ws_base n ws -> ws_base n ws' ->
    rel_res wsim (ws_init c H ws s x) (ws_init c H ws' s x).
  Proof.
    intros B B'. unfold ws_init. do 2 (apply rel_bind_eq; [reflexivity|]; intros ? _).
    set (w1 := mkWS (ws_num_nodes ws) (ws_data ws) (vf_invalidate_all (ws_flags ws)) [] s x 0).
    set (w1' := mkWS (ws_num_nodes ws') (ws_data ws') (vf_invalidate_all (ws_flags ws')) [] s x 0).
    destruct (vf_invalidate_ok n _ (wb_f _ _ B)) as [F1 G1]. destruct (vf_invalidate_ok n _ (wb_f _ _ B')) as [F2 G2].
    destruct (N.lt_ge_cases s n) as [Hs|Hs].
    2:{ rewrite !update_out; auto; [reflexivity|destruct B'|destruct B]; constructor; auto. }
    edestruct (update_node_ok n (mkWS (ws_num_nodes ws) (ws_data ws) (vf_invalidate_all (ws_flags ws)) [] s x (ws_settled ws))
      s 0) as (s1 & -> & B1 & (P1 & P2 & P3) & L1); auto; [destruct B; constructor; auto|].
    edestruct (update_node_ok n (mkWS (ws_num_nodes ws') (ws_data ws') (vf_invalidate_all (ws_flags ws')) [] s x (ws_settled ws'))
      s 0) as (s2 & -> & B2 & (Q1 & Q2 & Q3) & L2); auto; [destruct B'; constructor; auto|].
    simpl. constructor; simpl; auto.
    - destruct B1; constructor; auto.
    - destruct B2; constructor; auto.
    - intros v. change (wl s1 v = wl s2 v). rewrite L1, L2. destruct (v =? s); auto.
      unfold wl, view. simpl. rewrite G1, G2. auto.
    - simpl in *. rewrite P1, Q1. reflexivity.
  Qed.

  (** results that agree up to the state of the witness search *)
  Definition same3 {S : Type} (p q : S * PrepGraph * WitnessSearch) : Prop :=
    fst p = fst q /\ ws_base n (snd p) /\ ws_base n (snd q).

  Lemma handle_rel {S : Type} (handler : S -> PrepGraph -> Shortcut -> res (S * PrepGraph)) s g ws ws' x maxs :
    ws_base n ws -> ws_base n ws' ->
    rel_res same3 (handle_shortcuts c H handler s g ws x maxs) (handle_shortcuts c H handler s g ws' x maxs).
  Proof.
    intros B B'. unfold handle_shortcuts. apply rel_bind_eq; [reflexivity|]. intros ins0 _.
    apply (rel_foldM same3); [|split; auto].
    intros i [[s1 g1] w1] [[s2 g2] w2] _ (E & B1 & B2). simpl in E, B1, B2. injection E as <- <-.
    apply rel_bind_eq; [reflexivity|]. intros ins _.
    apply rel_bind_eq; [reflexivity|]. intros ie _.
    eapply rel_bind; [apply (wsim_init _ _ (a_adj ie) x B1 B2)|]. intros v1 v2 S0.
    apply rel_bind_eq; [reflexivity|]. intros outs0 _.
    apply (rel_mono (fun p q => fst p = fst q /\ wsim (snd p) (snd q))).
    { intros p q (E & S1). split; auto. split; apply S1. }
    apply (rel_foldM (fun p q => fst p = fst q /\ wsim (snd p) (snd q))); [|split; auto].
    clear. intros j [[s1 g1] w1] [[s2 g2] w2] _ (E & S0). simpl in E, S0. injection E as <- <-.
    do 4 (apply rel_bind_eq; [reflexivity|]; intros ? _).
    apply rel_bind_eq; [reflexivity|]. intros weight _.
    eapply rel_bind; [apply wsim_find; exact S0|]. intros [v1 m1] [v2 m2] [S1 E1]. simpl in S1, E1. subst m2.
    destruct (m1 <=? weight); [split; auto|].
    apply rel_bind_eq; [reflexivity|]. intros [s3 g3] _. split; auto.
  Qed.

  Lemma contract_rel g ws ws' x maxs : ws_base n ws -> ws_base n ws' ->
    rel_res (fun p q => fst p = fst q /\ ws_base n (snd p) /\ ws_base n (snd q))
      (contract_node c H g ws x maxs) (contract_node c H g ws' x maxs).
  Proof.
    intros B B'. unfold contract_node.
    eapply rel_bind; [apply (handle_rel add_shortcut tt g ws ws' x maxs B B')|].
    intros [[s1 g1] w1] [[s2 g2] w2] (E & B1 & B2). simpl in E, B1, B2. injection E as <- <-.
    apply rel_bind_eq; [reflexivity|]. intros g3 _. split; auto.
  Qed.

  (** calc_relevance leaves the graph as it is *)
  Lemma relevance_graph g params ws x level maxs r g' ws' : ws_base n ws ->
    calc_relevance c H g params ws x level maxs = Ok (r, g', ws') -> g' = g /\ ws_base n ws'.
  Proof.
    intros B E. unfold calc_relevance in E. apply bind_Ok in E as ([[k g1] w1] & E1 & E).
    apply bind_Ok in E as (o & _ & E). apply bind_Ok in E as (i & _ & E).
    injection E as _ -> ->. split.
    - unfold handle_shortcuts in E1. apply bind_Ok in E1 as (ins0 & _ & E1).
      refine (foldM_ok_inv _ (fun p : Z * PrepGraph * WitnessSearch => snd (fst p) = g) _ _ _ _ _ E1); [|reflexivity].
      intros j [[s1 g1] v1] [[s2 g2] v2] _ Hg HE. cbn [fst snd] in *. subst g1.
      apply bind_Ok in HE as (ins & _ & HE). apply bind_Ok in HE as (ie & _ & HE). apply bind_Ok in HE as (v3 & _ & HE).
      apply bind_Ok in HE as (outs0 & _ & HE).
      refine (foldM_ok_inv _ (fun p : Z * PrepGraph * WitnessSearch => snd (fst p) = g) _ _ _ _ _ HE); [|reflexivity].
      intros j2 [[s3 g3] v4] [[s4 g4] v5] _ Hg2 HE2. cbn [fst snd] in *. subst g3.
      do 5 (apply bind_Ok in HE2 as (? & _ & HE2)). apply bind_Ok in HE2 as ([w5 m5] & _ & HE2).
      destruct (_ <=? _); [injection HE2 as _ <- _; auto|].
      apply bind_Ok in HE2 as ([s6 g6] & Hc & HE2). injection HE2 as _ <- _.
      unfold count_shortcut in Hc. destruct (_ <? _)%Z; [injection Hc as _ <-; auto|].
      destruct (debug_build c); [discriminate|]. injection Hc as _ <-. auto.
    - pose proof (handle_rel (count_shortcut c) 0%Z g ws ws x maxs B B) as G. rewrite E1 in G. apply G.
  Qed.
End WS.

(** ** The contraction loop contracts the nodes in the order of a list *)
Definition order_body (c : cfg) (H : heap_ops) (n maxs : N)
  : FastGraph * PrepGraph * WitnessSearch * N -> N -> res (FastGraph * PrepGraph * WitnessSearch * N) :=
  fun '(fg, g, ws, rank) node =>
  if n <=? node then Panic (PExplicit "Order contains invalid node id")
  else
    fg' <- store_node c fg g rank node ;;
    '(g', ws') <- contract_node c H g ws node maxs ;;
    Ok (fg', g', ws', rank + 1).

Lemma store_node_len c fg g rank x fg' : store_node c fg g rank x = Ok fg' ->
  lenN (fg_ranks fg') = lenN (fg_ranks fg) /\ x < lenN (fg_ranks fg) /\ fg_ranks fg' = setN (fg_ranks fg) x rank.
Proof.
  unfold store_node. intros HX.
  repeat (apply bind_Ok in HX; destruct HX as (? & ? & HX)). injection HX as <-. cbn [fg_ranks].
  match goal with H : upd (fg_ranks fg) _ _ = Ok _ |- _ =>
    unfold upd in H; destruct (N.ltb_spec x (lenN (fg_ranks fg))); [|discriminate]; injection H as <- end.
  rewrite lenN_setN. auto.
Qed.

Section Replay.
  Variables (c : cfg) (H : heap_ops) (Q : pq_ops) (qinv : list (N * N) -> Prop) (params : Params) (n : N).
  Hypothesis QL : pq_laws Q qinv.

  Record rinv (st : BState) : Prop := mk_rinv {
    ri_ws : ws_base n (bs_ws st);
    ri_q : qinv (bs_queue st)
  }.

  Lemma update_keeps node v st st' : rinv st -> update_neighbor c H Q params node st v = Ok st' ->
    rinv st' /\ bs_fg st' = bs_fg st /\ bs_pg st' = bs_pg st /\ bs_rank st' = bs_rank st /\
    Permutation (map fst (bs_queue st')) (map fst (bs_queue st)).
  Proof.
    intros [B Hq] E. unfold update_neighbor in E.
    do 3 (apply bind_Ok in E as (? & _ & E)). apply bind_Ok in E as ([[r g] w] & E1 & E). injection E as <-.
    destruct (relevance_graph c H n _ _ _ _ _ _ _ _ _ B E1) as [-> B1].
    destruct QL as (_ & _ & _ & _ & Q5). destruct (Q5 (bs_queue st) v (f32_as_usize c r) Hq) as [P1 P2].
    simpl. split; [constructor; auto|]. split; auto. split; auto. split; auto.
    apply (Permutation_map fst) in P2. rewrite set_priority_keys in P2. auto.
  Qed.

  Lemma init_keeps v st st' : rinv st -> ~ In v (map fst (bs_queue st)) -> init_queue_step c H Q params st v = Ok st' ->
    rinv st' /\ bs_fg st' = bs_fg st /\ bs_pg st' = bs_pg st /\ bs_rank st' = bs_rank st /\
    Permutation (map fst (bs_queue st')) (v :: map fst (bs_queue st)).
  Proof.
    intros [B Hq] Hv E. unfold init_queue_step in E.
    apply bind_Ok in E as ([[r g] w] & E1 & E). injection E as <-.
    destruct (relevance_graph c H n _ _ _ _ _ _ _ _ _ B E1) as [-> B1].
    destruct QL as (_ & Q2 & _). destruct (Q2 (bs_queue st) v (f32_as_usize c r) Hq Hv) as [P1 P2].
    simpl. split; [constructor; auto|]. split; auto. split; auto. split; auto.
    apply (Permutation_map fst) in P2. auto.
  Qed.

  Lemma loop_replay : forall fuel st st' ws0, contraction_loop fuel c H Q params st = Ok st' ->
    lenN (fg_ranks (bs_fg st)) = n -> rinv st -> ws_base n ws0 ->
    exists L ws1, Permutation (map fst (bs_queue st)) L /\
      foldM (order_body c H n (p_max_settled_nodes_contraction params)) L (bs_fg st, bs_pg st, ws0, bs_rank st) =
        Ok (bs_fg st', bs_pg st', ws1, bs_rank st').
  Proof.
    induction fuel as [|fuel IH]; intros st st' ws0 E Hl Hr B0; [discriminate|]. cbn [contraction_loop] in E.
    destruct QL as (_ & _ & Q3 & Q4 & _). destruct Hr as [B Hq].
    destruct (pq_pop Q (bs_queue st)) as [[[x p] q]|] eqn:Ep.
    2:{ injection E as <-. apply Q3 in Ep; auto. exists [], ws0. rewrite Ep. split; [constructor|reflexivity]. }
    destruct (Q4 _ _ _ _ Hq Ep) as (Hq' & Hperm & _).
    apply bind_Ok in E as (nbs & _ & E). apply bind_Ok in E as (fg' & Es & E).
    apply bind_Ok in E as ([g' w'] & Ec & E). apply bind_Ok in E as (st1 & Ef & E).
    destruct (store_node_len _ _ _ _ _ _ Es) as (Hl' & Hx & _).
    pose proof (contract_rel c H n (bs_pg st) (bs_ws st) ws0 x (p_max_settled_nodes_contraction params) B B0) as G.
    rewrite Ec in G. destruct (contract_node c H (bs_pg st) ws0 x _) as [[g2 w2]| |] eqn:Ec2; simpl in G; try contradiction.
    destruct G as (<- & B1 & B2).
    assert (rinv st1 /\ bs_fg st1 = fg' /\ bs_pg st1 = g' /\ bs_rank st1 = bs_rank st /\
      Permutation (map fst (bs_queue st1)) (map fst q)) as (R1 & F1 & F2 & F3 & F4).
    { refine (foldM_ok_inv _ (fun s => rinv s /\ bs_fg s = fg' /\ bs_pg s = g' /\ bs_rank s = bs_rank st /\
        Permutation (map fst (bs_queue s)) (map fst q)) _ _ _ _ _ Ef).
      - intros v s s' _ (R & X1 & X2 & X3 & X4) Eu.
        destruct (update_keeps _ _ _ _ R Eu) as (R' & Y1 & Y2 & Y3 & Y4).
        split; auto. split; [congruence|]. split; [congruence|]. split; [congruence|]. eapply Permutation_trans; eauto.
      - split; [constructor; auto|]. auto. }
    destruct (IH _ _ w2 E) as (L & ws1 & HL1 & HL2); auto.
    { simpl. rewrite F1, Hl'. auto. }
    { destruct R1. constructor; auto. }
    simpl in HL1, HL2. exists (x :: L), ws1. split.
    - apply (Permutation_map fst) in Hperm. simpl in Hperm. eapply Permutation_trans; [exact Hperm|].
      constructor. eapply Permutation_trans; [|exact HL1]. symmetry; auto.
    - cbn [foldM].
      assert (order_body c H n (p_max_settled_nodes_contraction params) (bs_fg st, bs_pg st, ws0, bs_rank st) x =
        Ok (fg', g', w2, bs_rank st + 1)) as ->.
      { unfold order_body. destruct (N.leb_spec n x); [lia|]. rewrite Es. cbn [bind]. rewrite Ec2. reflexivity. }
      cbn [bind]. rewrite F1, F2, F3 in HL2. exact HL2.
  Qed.
End Replay.

(** ** The ranks after contracting the nodes in the order of a list *)
Lemma order_body_ranks c H n maxs : forall L fg g ws k fg' g' ws' k',
  foldM (order_body c H n maxs) L (fg, g, ws, k) = Ok (fg', g', ws', k') -> NoDup L ->
  lenN (fg_ranks fg') = lenN (fg_ranks fg) /\
  (forall v, ~ In v L -> getN (fg_ranks fg') v = getN (fg_ranks fg) v) /\
  (forall i v, getN L i = Some v -> getN (fg_ranks fg') v = Some (k + i)).
Proof.
  induction L as [|x L IH]; intros fg g ws k fg' g' ws' k' E Hnd.
  - injection E as <- _ _ _. split; auto. split; auto. intros i v Hi. discriminate.
  - cbn [foldM] in E. apply bind_Ok in E as ([[[f1 g1] w1] k1] & E1 & E2). unfold order_body in E1.
    destruct (n <=? x); [discriminate|]. apply bind_Ok in E1 as (f2 & Es & E1).
    apply bind_Ok in E1 as ([g2 w2] & _ & E1). injection E1 as -> -> -> <-.
    destruct (store_node_len _ _ _ _ _ _ Es) as (Hl & Hx & Er). inversion Hnd as [|? ? Hx1 Hnd1]; subst.
    destruct (IH _ _ _ _ _ _ _ _ E2 Hnd1) as (I1 & I2 & I3). split; [congruence|]. split.
    + intros v Hv. rewrite I2 by (intros G; apply Hv; right; auto). rewrite Er. apply getN_setN_neq.
      intros ->. apply Hv. left; auto.
    + intros i v Hi. cbn [getN] in Hi. destruct (N.eqb_spec i 0) as [->|Hi0].
      * injection Hi as <-. rewrite I2 by auto. rewrite Er, N.add_0_r. apply getN_setN_eq. auto.
      * apply I3 in Hi. rewrite Hi. f_equal. lia.
Qed.

Lemma set_edge_ranks fg d i e : fg_ranks (fg_set_edge fg d i e) = fg_ranks fg.
Proof. destruct d; reflexivity. Qed.
Lemma finish_edge_ranks c d i fg id fg' : finish_edge c d i fg id = Ok fg' -> fg_ranks fg' = fg_ranks fg.
Proof.
  unfold finish_edge. intros E. apply bind_Ok in E as (e & _ & E).
  destruct (_ =? _).
  - apply bind_Ok in E as (? & _ & E). injection E as <-. apply set_edge_ranks.
  - apply bind_Ok in E as (? & _ & E). apply bind_Ok in E as (? & _ & E). injection E as <-.
    rewrite !set_edge_ranks. auto.
Qed.
Lemma finish_dir_ranks c d n fg fg' : finish_dir c d n fg = Ok fg' -> fg_ranks fg' = fg_ranks fg.
Proof.
  unfold finish_dir. intros E.
  refine (foldM_ok_inv _ (fun f => fg_ranks f = fg_ranks fg) _ _ _ _ _ E); [|reflexivity].
  intros i f f' _ Hf Hi. apply bind_Ok in Hi as (b & _ & Hi). apply bind_Ok in Hi as (e & _ & Hi).
  refine (foldM_ok_inv _ (fun f => fg_ranks f = fg_ranks fg) _ _ _ _ _ Hi); [|auto].
  intros id f1 f2 _ H1 H2. apply finish_edge_ranks in H2. congruence.
Qed.
Lemma finish_ranks c n fg fg' : finish_contraction c n fg = Ok fg' -> fg_ranks fg' = fg_ranks fg.
Proof.
  unfold finish_contraction. intros E. apply bind_Ok in E as (f1 & E1 & E2).
  apply finish_dir_ranks in E1. apply finish_dir_ranks in E2. congruence.
Qed.

Lemma ordering_of_ranks fg L : permutation_of_nodes (lenN (fg_ranks fg)) L ->
  (forall i v, getN L i = Some v -> getN (fg_ranks fg) v = Some i) -> fg_get_node_ordering fg = Ok L.
Proof.
  intros Hp Hr. pose proof (perm_len _ _ Hp) as Hlen. destruct Hp as [Hnd HI]. set (n := lenN (fg_ranks fg)) in *.
  assert (wp (fun _ => False) (fg_get_node_ordering fg)
    (fun l => lenN l = n /\ (forall i v, v < n -> getN L i = Some v -> getN l i = Some v))) as HW.
  { unfold fg_get_node_ordering. fold n.
    apply (wp_foldM_range _ _ (fun k l => lenN l = n /\ forall i v, v < k -> getN L i = Some v -> getN l i = Some v))
      with (b := 0) (e := n).
    - lia.
    - split; [apply lenN_repeat|]. intros i v Hv. lia.
    - intros k l Hk [Hl Hv]. destruct (In_getN L k) as (j & Hj & Ej); [apply HI; lia|].
      rewrite (idx_Some _ _ j) by (apply Hr; auto). simpl. rewrite upd_eq by lia. simpl.
      split; [rewrite lenN_setN; auto|]. intros i v Hvk Ei.
      destruct (N.eq_dec i j) as [->|Hne].
      + rewrite getN_setN_eq by lia. congruence.
      + rewrite getN_setN_neq by auto. apply Hv; auto.
        destruct (N.eq_dec v k) as [->|]; [|lia]. exfalso. apply Hne.
        apply Hr in Ei. apply Hr in Ej. congruence. }
  destruct (fg_get_node_ordering fg) as [l| |]; try easy. destruct HW as [Hl Hv]. f_equal.
  apply getN_ext. intros i. destruct (getN L i) as [v|] eqn:Ei.
  - apply Hv; auto. apply HI. eapply getN_In; eauto.
  - apply getN_None_ge in Ei. apply getN_None. lia.
Qed.

Lemma C61_proof : forall c H Q qinv ig params fg, pq_laws Q qinv ->
  prepare_with_params c H Q ig params = Ok fg ->
  exists order, permutation_of_nodes (ig_num_nodes ig) order /\ get_node_ordering fg = Ok order /\
    prepare_with_order_with_params c H ig order
      (mkParamsWithOrder (p_max_settled_nodes_contraction params)) = Ok (inl fg).
Proof.
  intros c H Q qinv ig params fg QL HE. unfold prepare_with_params, build_with_params in HE.
  apply bind_Ok in HE as (n & En & HE).
  assert (n = ig_num_nodes ig) as ->.
  { unfold ig_get_num_nodes in En. apply bind_Ok in En as (? & _ & En). injection En as <-. auto. }
  set (n := ig_num_nodes ig) in *. apply bind_Ok in HE as (fg0 & Ef & HE). unfold run_contraction in HE.
  apply bind_Ok in HE as (g0 & Eg & HE). apply bind_Ok in HE as (st0 & Ei & HE). apply bind_Ok in HE as (st & El & HE).
  assert (lenN (fg_ranks fg0) = n) as Hl0.
  { unfold fg_new in Ef. destruct (_ <=? _) in Ef; [|discriminate]. apply bind_Ok in Ef as (m & _ & Ef). destruct (m <=? umax c / 2); [|discriminate].
    injection Ef as <-. simpl. apply lenN_repeat. }
  assert (rinv qinv n st0 /\ bs_fg st0 = fg0 /\ bs_pg st0 = g0 /\ bs_rank st0 = 0 /\
    NoDup (map fst (bs_queue st0)) /\ forall v, In v (map fst (bs_queue st0)) <-> v < n) as (R0 & X1 & X2 & X3 & X4 & X5).
  { assert (forall l k, (forall s s', rinv qinv n s /\ bs_fg s = fg0 /\ bs_pg s = g0 /\ bs_rank s = 0 /\
        NoDup (map fst (bs_queue s)) /\ (forall v, In v (map fst (bs_queue s)) <-> v < k) ->
        l = rangeN k n -> k <= n -> foldM (init_queue_step c H Q params) l s = Ok s' ->
        rinv qinv n s' /\ bs_fg s' = fg0 /\ bs_pg s' = g0 /\ bs_rank s' = 0 /\
        NoDup (map fst (bs_queue s')) /\ (forall v, In v (map fst (bs_queue s')) <-> v < n))) as G.
    { induction l as [|a l IH]; intros k s s' Hs Hl Hk F.
      - injection F as <-. assert (k = n) as -> by (apply (f_equal lenN) in Hl; rewrite lenN_rangeN in Hl; unfold lenN in Hl; simpl in Hl; lia).
        exact Hs.
      - assert (k < n) as Hlt.
        { destruct (N.lt_ge_cases k n) as [|Hge]; auto.
          apply (f_equal lenN) in Hl. rewrite lenN_rangeN in Hl. rewrite lenN_cons in Hl. lia. }
        rewrite (rangeN_cons k n Hlt) in Hl. injection Hl as -> Hl.
        cbn [foldM] in F. apply bind_Ok in F as (s1 & F1 & F2). destruct Hs as (R & Y1 & Y2 & Y3 & Y4 & Y5).
        destruct (init_keeps c H Q qinv params n QL k s s1 R) as (R' & Z1 & Z2 & Z3 & Z4); auto.
        { rewrite Y5. lia. }
        apply (IH (k + 1) s1 s'); auto; [|lia]. split; auto. split; [congruence|]. split; [congruence|]. split; [congruence|].
        split.
        + eapply Permutation_NoDup; [symmetry; exact Z4|]. constructor; auto. rewrite Y5. lia.
        + intros v. split.
          * intros Hv. eapply Permutation_in in Hv; [|exact Z4]. destruct Hv as [<-|Hv]; [lia|]. apply Y5 in Hv. lia.
          * intros Hv. eapply Permutation_in; [symmetry; exact Z4|]. simpl. rewrite Y5. lia. }
    apply (G (rangeN 0 n) 0 (mkBState fg0 g0 (ws_new c n) (vec_repeat 0 n) [] 0) st0); auto; [|lia].
    split; [constructor; simpl; [apply ws_new_base|apply QL]|]. simpl. split; auto. split; auto. split; auto.
    split; [constructor|]. intros v. split; [tauto|lia]. }
  destruct (loop_replay c H Q qinv params n QL _ _ _ (ws_new c n) El) as (L & ws1 & HL1 & HL2); auto.
  { congruence. }
  { apply ws_new_base. }
  rewrite X1, X2, X3 in HL2.
  assert (NoDup L) as HN by (eapply Permutation_NoDup; eauto).
  assert (permutation_of_nodes n L) as Hp.
  { split; auto. intros v. rewrite <- X5. split; intros Hv; (eapply Permutation_in; [|exact Hv]); auto. symmetry; auto. }
  destruct (order_body_ranks _ _ _ _ _ _ _ _ _ _ _ _ _ HL2 HN) as (I1 & _ & I3).
  exists L. split; auto. split.
  - apply ordering_of_ranks; rewrite (finish_ranks _ _ _ _ HE).
    + rewrite I1, Hl0. auto.
    + intros i v Hi. rewrite (I3 i v Hi). f_equal.
  - unfold prepare_with_order_with_params, build_with_order_with_params. rewrite En. cbn [bind]. fold n.
    rewrite (perm_len _ _ Hp), N.eqb_refl. cbn [negb]. rewrite Ef. cbn [bind].
    unfold run_contraction_with_order. rewrite Eg. cbn [bind po_max_settled_nodes_contraction_with_order].
    unfold order_body in HL2. rewrite HL2. cbn [bind]. rewrite HE. reflexivity.
Qed.
