(** * BuilderFacts: preparation yields a graph satisfying [fg_ok] *)
From Verif Require Export FgOk.
From Coq Require Import Permutation.
Open Scope N_scope.

(** What the builder relies on in a frozen input graph. *)
Record ig_ok (c : cfg) (ig : InputGraph) : Prop := mk_ig_ok {
  ig_ok_frozen : ig_frozen ig = true;
  ig_ok_nodup : NoDup (map (fun e => (e_from e, e_to e)) (ig_edges ig));
  ig_ok_edge : forall e, In e (ig_edges ig) ->
    e_from e < ig_num_nodes ig /\ e_to e < ig_num_nodes ig /\ e_from e <> e_to e /\
    1 <= e_weight e <= umax c
}.

Lemma NoDup_app_l {A} (l1 l2 : list A) : NoDup (l1 ++ l2) -> NoDup l1.
Proof.
  induction l1 as [|x l1 IH]; simpl; intros H; constructor; inversion H; subst; auto.
  rewrite in_app_iff in *. tauto.
Qed.

Section FromInput.
  Variables (c : cfg) (ig : InputGraph).
  Hypothesis Hig : ig_ok c ig.

  Lemma pg_new_wf n : pg_wf n (pg_new n) /\ (forall u, outs (pg_new n) u = []).
  Proof.
    assert (forall u, outs (pg_new n) u = []) as Ho.
    { intros u. unfold outs, pg_new; simpl. destruct (getN _ u) as [l|] eqn:El; auto.
      unfold vec_repeat in El. apply getN_In, repeat_spec in El. auto. }
    assert (forall u, ins (pg_new n) u = []) as Hi.
    { intros u. unfold ins, pg_new; simpl. destruct (getN _ u) as [l|] eqn:El; auto.
      unfold vec_repeat in El. apply getN_In, repeat_spec in El. auto. }
    split; auto. constructor; auto.
    - simpl. apply lenN_repeat.
    - simpl. apply lenN_repeat.
    - intros u v w k. rewrite Ho, Hi. reflexivity.
    - intros u. rewrite Ho. constructor.
    - intros u. rewrite Hi. constructor.
    - intros u v w k. rewrite Ho. intros [].
  Qed.

  Lemma from_input_ok : exists g0, pg_from_input_graph c ig = Ok g0 /\ pg_wf (ig_num_nodes ig) g0 /\
    (forall u v w k, In (mkArc v w k) (outs g0 u) <-> k = umax c /\ In (mkEdge u v w) (ig_edges ig)).
  Proof.
    unfold pg_from_input_graph, ig_get_num_nodes, ig_get_edges, ig_check_frozen.
    rewrite (ig_ok_frozen _ _ Hig). cbn [bind].
    set (n := ig_num_nodes ig). set (E := ig_edges ig).
    assert (wp (fun _ => False)
      (foldM (fun g e => pg_add_edge c g (e_from e) (e_to e) (e_weight e)) E (pg_new n))
      (fun g => pg_wf n g /\
        forall u v w k, In (mkArc v w k) (outs g u) <-> k = umax c /\ In (mkEdge u v w) E)) as G.
    { apply (wp_foldM _ _ (fun pre g => pg_wf n g /\
        forall u v w k, In (mkArc v w k) (outs g u) <-> k = umax c /\ In (mkEdge u v w) pre)).
      - destruct (pg_new_wf n) as [H1 H2]. split; auto. intros u v w k. rewrite H2. simpl. tauto.
      - intros pre [f t w] post g Heq (W & Hin).
        assert (In (mkEdge f t w) (ig_edges ig)) as HinE.
        { fold E. rewrite Heq. apply in_app_iff; simpl; auto. }
        destruct (ig_ok_edge _ _ Hig _ HinE) as (H1 & H2 & H3 & H4 & H5). simpl in *.
        unfold pg_add_edge. destruct (add_edge_spec n g f t w (INVALID_NODE c) W) as (g' & -> & W' & Ho' & _); auto.
        { intros [v' w' k'] Ha Hv. simpl in Hv. subst v'. apply Hin in Ha as [_ Ha].
          pose proof (ig_ok_nodup _ _ Hig) as ND. fold E in ND. rewrite Heq in ND.
          apply (NoDup_mid (fun e => (e_from e, e_to e))) in ND as [ND _]. apply ND.
          simpl. change (f, t) with ((fun e => (e_from e, e_to e)) (mkEdge f t w')). apply in_map. auto. }
        simpl. split; auto. intros u v w' k. rewrite Ho', in_app_iff. simpl.
        destruct (N.eqb_spec u f) as [->|Hne].
        + rewrite in_app_iff. simpl. rewrite Hin. split.
          * intros [[-> G]|[[= -> -> <-]|[]]]; auto.
          * intros [-> [G|[[= -> ->]|[]]]]; auto.
        + rewrite Hin. split; [tauto|]. intros [-> [G|[[= -> _ _]|[]]]]; [auto|congruence]. }
    destruct (foldM _ E (pg_new n)) as [g| |]; simpl in G; try contradiction.
    destruct G as (W & Hin). exists g. auto.
  Qed.
End FromInput.

Section Build.
  Variables (c : cfg) (H : heap_ops) (hinv : list HeapItem -> Prop).
  Hypothesis HL : heap_laws H hinv.
  Hypothesis Hdbg : debug_build c = true.
  Variable ig : InputGraph.
  Hypothesis Hig : ig_ok c ig.
  Let n := ig_num_nodes ig.
  Let E := ig_edges ig.
  Variables (M : N) (allow : Prop).
  Hypothesis HM : forall e, In e E -> e_weight e <= M.
  (** when this holds, the witness searches are not cut short *)
  Variable full : Prop.
  (** which of the two bounds on the weights is used *)
  Variable lin : bool.
  Hypothesis Hlin : lin = true -> full.
  Hypothesis Hov : umax c < (if lin then 4 * ((n - 1) * M) else M * 2 ^ (n + 1)) -> allow.
  Hypothesis Hlen : umax c / 2 < n * n -> allow.
  Let HE : forall e, In e E -> 1 <= e_weight e <= umax c.
  Proof. intros e He. apply (ig_ok_edge _ _ Hig) in He. tauto. Qed.

  (** the state after the contractions recorded in [R] *)
  Record bstate (g0 : PrepGraph) (R : list crec) (fg : FastGraph) (g : PrepGraph) (ws : WitnessSearch)
    : Prop := mk_bstate {
    bt_h : hierc c n g0 R g;
    bt_b : binv c n E R g;
    bt_r : fg_rep c n R fg;
    bt_w : ws_base n ws;
    bt_m : lin = false -> pg_bnd (M * 2 ^ lenN R) g;
    bt_q : bmin c E full R g;
    bt_s : bsimp c E full R g
  }.

  Lemma pow_bound k : k < n -> 4 * (M * 2 ^ k) <= M * 2 ^ (n + 1).
  Proof.
    intros Hk. replace (4 * (M * 2 ^ k)) with (M * (2 ^ 2 * 2 ^ k)) by (change (2 ^ 2) with 4; lia).
    rewrite <- N.pow_add_r. apply N.mul_le_mono_l, N.pow_le_mono_r; lia.
  Qed.

  Definition wbound (k : N) : N := if lin then (n - 1) * M else M * 2 ^ k.
  Lemma bstate_bnd g0 R fg g ws : bstate g0 R fg g ws -> pg_bnd (wbound (lenN R)) g.
  Proof.
    intros [Hh Hb Hr Hw Hm Hq Hs]. unfold wbound. destruct lin eqn:El; auto.
    eapply (bsimp_bnd c n E full M HM R); eauto. apply (bi_wf _ _ _ _ _ Hb).
  Qed.
  Lemma wbound_allow k : k < n -> umax c < 4 * wbound k -> allow.
  Proof.
    intros Hk. pose proof (pow_bound k Hk) as Hp. pose proof Hov as HO. unfold wbound.
    destruct lin; intros Hlt; apply HO; lia.
  Qed.

  Lemma bstate_init fg0 : fg_rep c n [] fg0 -> exists g0, pg_from_input_graph c ig = Ok g0 /\
    (forall u v w, edge_rel E u v w -> arel g0 u v w) /\
    bstate g0 [] fg0 g0 (ws_new c n).
  Proof.
    intros Hr. destruct (from_input_ok c ig Hig) as (g0 & Hg & W & Hin). exists g0.
    split; auto. split.
    - intros u v w He. exists (umax c). apply Hin. auto.
    - constructor; auto.
      + constructor.
      + constructor; auto.
        * intros u v w k Ha. apply Hin in Ha as [-> Ha]. left. auto.
        * intros x [].
        * apply recs_ok_nil.
      + apply ws_new_base.
      + intros _ u v w k Ha. apply Hin in Ha as [_ Ha]. apply HM in Ha. simpl in Ha.
        change (lenN []) with 0. rewrite N.pow_0_r. lia.
      + constructor.
        * intros u v w (He & _). exists w. split; [|lia]. exists (umax c). apply Hin. auto.
        * intros u v w k Ha. apply Hin in Ha as [-> _]. left. auto.
        * intros R1 r R2 d a HR. destruct R1; discriminate.
      + constructor.
        * intros u v W0 Hp _ _ _. exists W0. split; [lia|]. eapply path_sub; [|exact Hp].
          intros a b w He. exists (umax c). apply Hin. auto.
        * intros u v w (k & Ha). apply Hin in Ha as [_ Ha]. apply path_one. auto.
        * intros u v w k Ha. apply Hin in Ha as [-> Ha]. split; [|left; auto].
          intros _. exists []. split; [constructor|]. split; [intros y []|]. apply walk_one; auto.
        * intros r d a [].
  Qed.

  (** one contraction: store the node, then contract it *)
  Lemma bstate_step g0 R fg g ws x maxs :
    n <= umax c -> (full -> n <= maxs) -> bstate g0 R fg g ws -> x < n -> lenN R < n ->
    wp (lim allow) (fg' <- store_node c fg g (lenN R) x ;;
                    '(g', ws') <- contract_node c H g ws x maxs ;; Ok (fg', g', ws'))
       (fun '(fg', g', ws') => exists a b, bstate g0 (R ++ [(x, a, b)]) fg' g' ws').
  Proof.
    intros Hn Hfl Hbs Hx HR. pose proof (bstate_bnd _ _ _ _ _ Hbs) as Hbd. destruct Hbs as [Hh Hb Hr Hw Hm Hq Hs0].
    eapply wp_bind_mono; [eapply store_node_spec; eauto|]. intros fg' Hr'.
    eapply wp_bind_mono.
    { eapply (contract_node_spec c H hinv HL Hdbg n allow Hn) with (B := wbound (lenN R)); eauto.
      - apply (bi_wf _ _ _ _ _ Hb).
      - apply wbound_allow; auto. }
    intros [g' ws'] ((Hs & Hsm) & Hw' & Hm'). simpl. exists (outs g x), (ins g x). constructor; auto.
    - apply hierc_snoc; auto. apply (bi_wf _ _ _ _ _ Hb).
    - apply binv_step; auto.
    - intros Hl0. rewrite lenN_app. change (lenN [_]) with 1. rewrite N.pow_add_r, N.pow_1_r.
      unfold wbound in Hm'. rewrite Hl0 in Hm'. intros u v w k Ha. apply Hm' in Ha. lia.
    - eapply bmin_step; [apply (bi_wf _ _ _ _ _ Hb)|auto|]. eapply csmin_imp; eauto.
    - eapply bsimp_step; eauto; [apply (bi_wf _ _ _ _ _ Hb)|]. eapply csmin_imp; eauto.
  Qed.

  Lemma bstate_finish g0 R fg g ws :
    (forall u v w, edge_rel E u v w -> arel g0 u v w) ->
    bstate g0 R fg g ws -> n + 1 <= umax c / 2 -> NoDup (map cnode R) -> lenN R = n ->
    exists fg', finish_contraction c n fg = Ok fg' /\ (fg_ok c E n fg' /\ fg_exact full c E fg') /\
      fg_ranks fg' = fg_ranks fg.
  Proof.
    intros Hg0 [Hh Hb Hr Hw Hm Hq Hs] Hcap Hnd HR.
    assert (forall e, In e E -> e_weight e <= umax c) as HE'.
    { intros e He. apply HE; auto. }
    edestruct (finish_fg_ok c n E) as (fg' & Hf & Hok & Hrk); eauto.
    exists fg'. split; auto. split; auto. split; auto. eapply finish_fg_exact; eauto.
  Qed.

  Lemma half_le : umax c / 2 <= umax c.
  Proof. apply N.div_le_upper_bound; lia. Qed.

  (** ** Fixed order *)
  Lemma contract_order_spec fg0 g0 order params :
    n <= umax c -> (full -> n <= po_max_settled_nodes_contraction_with_order params) ->
    bstate g0 [] fg0 g0 (ws_new c n) ->
    (forall x, In x order -> x < n) -> lenN order <= n ->
    wp (lim allow)
      (foldM (fun '(fg, g, ws, rank) node =>
             if n <=? node then Panic (PExplicit "Order contains invalid node id")
             else
               fg' <- store_node c fg g rank node ;;
               '(g', ws') <- contract_node c H g ws node
                               (po_max_settled_nodes_contraction_with_order params) ;;
               Ok (fg', g', ws', rank + 1))
          order (fg0, g0, ws_new c n, 0))
      (fun '(fg, g, ws, rank) => exists R, map cnode R = order /\ bstate g0 R fg g ws).
  Proof.
    intros Hn Hfl Hb0 Hord Hlo.
    eapply wp_mono.
    { apply (wp_foldM _ _ (fun pre '(fg, g, ws, rank) =>
        exists R, map cnode R = pre /\ rank = lenN R /\ bstate g0 R fg g ws)).
      - exists []. auto.
      - intros pre x post [[[fg g] ws] rank] Heq (R & HR & -> & Hb).
        assert (x < n) as Hx by (apply Hord; rewrite Heq; apply in_app_iff; simpl; auto).
        destruct (N.leb_spec n x); [lia|].
        assert (lenN R < n) as HRn.
        { rewrite <- (lenN_map cnode), HR. rewrite Heq, lenN_app, lenN_cons in Hlo. lia. }
        pose proof (bstate_step g0 R fg g ws x
          (po_max_settled_nodes_contraction_with_order params) Hn Hfl Hb Hx HRn) as Hs.
        destruct (store_node c fg g (lenN R) x) as [fg'| |]; cbn [bind] in *; auto.
        destruct (contract_node c H g ws x _) as [[g' ws']| |]; cbn [bind] in *; auto.
        simpl in Hs. destruct Hs as (a & b & Hs). simpl.
        exists (R ++ [(x, a, b)]). rewrite map_app, HR, lenN_app. simpl. auto. }
    intros [[[fg g] ws] rank] (R & HR & _ & Hb). eauto.
  Qed.

  Lemma run_contraction_with_order_spec fg0 order params :
    fg_rep c n [] fg0 -> n + 1 <= umax c / 2 ->
    (full -> n <= po_max_settled_nodes_contraction_with_order params) ->
    NoDup order -> (forall x, In x order -> x < n) -> lenN order = n ->
    wp (lim allow) (run_contraction_with_order c H n fg0 ig order params)
       (fun fg => (fg_ok c E n fg /\ fg_exact full c E fg) /\ forall i v, getN order i = Some v -> rk fg v = i).
  Proof.
    intros Hr0 Hcap Hfl Hnd Hord Hl. unfold run_contraction_with_order.
    destruct (bstate_init fg0 Hr0) as (g0 & -> & Hg0 & Hb0). cbn [bind].
    pose proof half_le. eapply wp_bind_mono.
    { apply contract_order_spec; auto; lia. }
    intros [[[fg g] ws] rank] (R & HR & Hb).
    destruct (bstate_finish g0 R fg g ws Hg0 Hb Hcap) as (fg' & -> & Hok & Hrk).
    - rewrite HR; auto.
    - rewrite <- (lenN_map cnode), HR; auto.
    - simpl. split; auto. intros i v Hi.
      unfold rk. rewrite Hrk.
      rewrite <- HR in Hi. rewrite getN_map in Hi. destruct (getN R i) as [r|] eqn:Er; [|discriminate].
      injection Hi as <-.
      assert (exists R1 R2, R = R1 ++ r :: R2 /\ lenN R1 = i) as (R1 & R2 & HeqR & <-).
      { rewrite getN_nth in Er. apply nth_error_split in Er as (R1 & R2 & -> & Hlen1).
        exists R1, R2. split; auto. unfold lenN. lia. }
      assert (NoDup (map cnode R)) as HndR by (rewrite HR; auto).
      erewrite (rp_rank _ _ _ _ (bt_r _ _ _ _ _ Hb)); [|exact HeqR|].
      + reflexivity.
      + rewrite HeqR in HndR. apply NoDup_mid in HndR. tauto.
  Qed.

  Lemma build_with_order_full order params :
    NoDup order -> (forall x, In x order -> x < n) -> lenN order = n ->
    (umax c / 2 < n + 1 -> allow) ->
    (full -> n <= po_max_settled_nodes_contraction_with_order params) ->
    wp (lim allow) (build_with_order_with_params c H ig order params)
       (fun r => exists fg, r = inl fg /\ (fg_ok c E n fg /\ fg_exact full c E fg) /\ forall i v, getN order i = Some v -> rk fg v = i).
  Proof.
    intros Hnd Hord Hl Hal Hfl. unfold build_with_order_with_params, ig_get_num_nodes, ig_check_frozen.
    rewrite (ig_ok_frozen _ _ Hig). cbn [bind]. fold n. rewrite Hl, N.eqb_refl. cbn [negb].
    pose proof half_le.
    eapply wp_bind_mono; [apply fg_new_spec; auto; intros; apply Hal; lia|].
    intros fg0 (Hr0 & Hcap).
    eapply wp_bind_mono; [apply run_contraction_with_order_spec; auto|].
    intros fg (Hok & Hrk). simpl. exists fg. auto.
  Qed.

  (** ** Priority queue *)
  Variables (Q : pq_ops) (qinv : list (N * N) -> Prop).
  Hypothesis QL : pq_laws Q qinv.
  Hypothesis Hcnt : 2147483647 < n * n -> allow.

  Lemma btree_insert_In x l y : In y (btree_insert x l) <-> y = x \/ In y l.
  Proof.
    induction l as [|z l IH]; simpl; [intuition|].
    destruct (N.compare_spec x z) as [->|Hlt|Hgt]; simpl; [intuition|intuition|rewrite IH; intuition].
  Qed.
  Lemma neighbors_ok g x : pg_wf n g -> x < n ->
    exists l, neighbors_of g x = Ok l /\
      (forall y, In y l <-> In y (map a_adj (outs g x)) \/ In y (map a_adj (ins g x))).
  Proof.
    intros W Hx. unfold neighbors_of. rewrite (outs_idx _ _ _ W Hx), (ins_idx _ _ _ W Hx). cbn [bind].
    eexists; split; [reflexivity|]. intros y.
    rewrite <- in_app_iff, <- map_app.
    assert (forall (l : list Arc) s, In y (fold_left (fun s a => btree_insert (a_adj a) s) l s) <->
              In y s \/ In y (map a_adj l)) as G.
    { induction l as [|a l IH]; intros s; simpl; [tauto|]. rewrite IH, btree_insert_In. intuition. }
    rewrite G. simpl. tauto.
  Qed.
  Lemma neighbors_lt g x l : pg_wf n g -> x < n -> neighbors_of g x = Ok l -> forall y, In y l -> y < n.
  Proof.
    intros W Hx Hl y Hy. destruct (neighbors_ok g x W Hx) as (l' & Hl' & Hiff).
    assert (l' = l) by congruence. subst l'. apply Hiff in Hy.
    destruct Hy as [Hy|Hy]; apply in_map_iff in Hy as ([v w k] & <- & Ha); simpl.
    - apply (wf_arc _ _ W) in Ha. tauto.
    - apply (wf_sym _ _ W) in Ha. eapply outs_src; eauto.
  Qed.

  Lemma set_priority_keys q k p : map fst (set_priority q k p) = map fst q.
  Proof.
    unfold set_priority. rewrite map_map. apply map_ext. intros [a b]; simpl.
    destruct (N.eqb_spec a k); simpl; auto.
  Qed.

  Record qstate (g0 : PrepGraph) (R : list crec) (st : BState) : Prop := mk_qstate {
    qs_b : bstate g0 R (bs_fg st) (bs_pg st) (bs_ws st);
    qs_q : qinv (bs_queue st);
    qs_l : lenN (bs_levels st) = n
  }.

  Lemma bstate_ws g0 R fg g ws ws' : bstate g0 R fg g ws -> ws_base n ws' -> bstate g0 R fg g ws'.
  Proof. intros [H1 H2 H3 H4 H5 H6 H7] Hw. constructor; auto. Qed.

  Lemma relevance_step g0 R fg g ws params x level maxs :
    n <= umax c -> bstate g0 R fg g ws -> x < n -> lenN R <= n ->
    (forall u v w k, In (mkArc v w k) (outs g u) -> lenN R < n) ->
    wp (lim allow) (calc_relevance c H g params ws x level maxs)
       (fun '(_, g', ws') => g' = g /\ bstate g0 R fg g ws').
  Proof.
    intros Hn Hb Hx HR Hne.
    set (B := if lenN R <? n then wbound (lenN R) else 0).
    eapply wp_mono.
    { apply (calc_relevance_spec c H hinv HL Hdbg n allow Hn) with (B := B); auto.
      - apply (bi_wf _ _ _ _ _ (bt_b _ _ _ _ _ Hb)).
      - intros u v w k Ha. pose proof (Hne _ _ _ _ Ha). unfold B.
        destruct (N.ltb_spec (lenN R) n); [|lia]. eapply (bstate_bnd _ _ _ _ _ Hb); eauto.
      - apply (bt_w _ _ _ _ _ Hb).
      - unfold B. destruct (N.ltb_spec (lenN R) n) as [Hlt|]; [|lia].
        apply wbound_allow; auto. }
    intros [[r g'] ws'] (-> & Hw). split; auto. eapply bstate_ws; eauto.
  Qed.

  Lemma init_queue_spec g0 fg0 params :
    n <= umax c -> bstate g0 [] fg0 g0 (ws_new c n) ->
    wp (lim allow) (foldM (init_queue_step c H Q params) (rangeN 0 n)
                     (mkBState fg0 g0 (ws_new c n) (vec_repeat 0 n) [] 0))
       (fun st => qstate g0 [] st /\ bs_rank st = 0 /\ NoDup (map fst (bs_queue st)) /\
          (forall v, In v (map fst (bs_queue st)) <-> v < n)).
  Proof.
    intros Hn Hb.
    apply (wp_foldM_range _ _ (fun i st => qstate g0 [] st /\ bs_rank st = 0 /\
       NoDup (map fst (bs_queue st)) /\ (forall v, In v (map fst (bs_queue st)) <-> v < i))); [lia| |].
    - split; [|split; [auto|split; [constructor|]]].
      + constructor; simpl; auto; [apply QL|apply lenN_repeat].
      + simpl. intros v. split; [tauto|lia].
    - intros i st Hi (Hq & Hrk & Hnd & Hin). unfold init_queue_step.
      eapply wp_bind_mono.
      { eapply relevance_step with (R := []); auto; [apply (qs_b _ _ _ Hq)|lia|change (lenN []) with 0; lia|].
        intros u v w k Ha. change (lenN []) with 0. lia. }
      intros [[r g'] ws'] (-> & Hb'). simpl.
      destruct QL as (_ & Qpush & _). destruct (Qpush (bs_queue st) i (f32_as_usize c r) (qs_q _ _ _ Hq)) as (Q1 & Q2).
      { rewrite Hin. lia. }
      apply (Permutation_map fst) in Q2. simpl in Q2.
      split; [constructor; simpl; auto; apply (qs_l _ _ _ Hq)|]. split; auto. split.
      + eapply Permutation_NoDup; [symmetry; exact Q2|]. constructor; auto. rewrite Hin. lia.
      + intros v. split.
        * intros Hv. eapply Permutation_in in Hv; [|exact Q2]. destruct Hv as [<-|Hv]; [lia|]. apply Hin in Hv. lia.
        * intros Hv. eapply Permutation_in; [symmetry; exact Q2|]. simpl. rewrite Hin. lia.
  Qed.

  Lemma update_neighbor_spec g0 R params x y st :
    n <= umax c -> qstate g0 R st -> x < n -> y < n -> lenN R <= n ->
    (forall u v w k, In (mkArc v w k) (outs (bs_pg st) u) -> lenN R < n) ->
    wp (lim allow) (update_neighbor c H Q params x st y)
       (fun st' => qstate g0 R st' /\ bs_rank st' = bs_rank st /\ bs_pg st' = bs_pg st /\
          Permutation (map fst (bs_queue st')) (map fst (bs_queue st))).
  Proof.
    intros Hn Hq Hx Hy HR Hne. unfold update_neighbor.
    apply wp_bind, wp_idx; [rewrite (qs_l _ _ _ Hq); auto|]. intros ln _.
    apply wp_bind, wp_idx; [rewrite (qs_l _ _ _ Hq); auto|]. intros lx _.
    apply wp_bind, wp_upd; [rewrite (qs_l _ _ _ Hq); auto|].
    eapply wp_bind_mono; [eapply relevance_step; eauto; apply (qs_b _ _ _ Hq)|].
    intros [[r g'] ws'] (-> & Hb'). simpl.
    destruct QL as (_ & _ & _ & _ & Qch). destruct (Qch (bs_queue st) y (f32_as_usize c r) (qs_q _ _ _ Hq)) as (Q1 & Q2).
    split; [constructor; simpl; auto; rewrite lenN_setN; apply (qs_l _ _ _ Hq)|].
    split; auto. split; auto.
    apply (Permutation_map fst) in Q2. rewrite set_priority_keys in Q2. auto.
  Qed.

  Lemma contraction_loop_spec g0 params : n <= umax c -> (full -> n <= p_max_settled_nodes_contraction params) ->
    forall fuel st R, qstate g0 R st -> bs_rank st = lenN R ->
    NoDup (map cnode R ++ map fst (bs_queue st)) ->
    (forall v, In v (map cnode R ++ map fst (bs_queue st)) <-> v < n) ->
    (List.length (bs_queue st) < fuel)%nat ->
    wp (lim allow) (contraction_loop fuel c H Q params st)
       (fun st' => exists R', bstate g0 R' (bs_fg st') (bs_pg st') (bs_ws st') /\
          NoDup (map cnode R') /\ lenN R' = n).
  Proof.
    intros Hn Hfl. induction fuel as [|fuel IH]; intros st R Hq Hrk Hnd Hin Hf; [lia|]. simpl.
    destruct QL as (_ & _ & Qnone & Qpop & _).
    destruct (pq_pop Q (bs_queue st)) as [[[x p] q']|] eqn:Epop.
    - destruct (Qpop _ _ _ _ (qs_q _ _ _ Hq) Epop) as (Hq' & Hperm & _).
      pose proof (Permutation_map fst Hperm) as Hpk. simpl in Hpk.
      assert (x < n) as Hx.
      { apply Hin, in_app_iff. right. eapply Permutation_in; [symmetry; exact Hpk|]. simpl; auto. }
      pose proof (bi_wf _ _ _ _ _ (bt_b _ _ _ _ _ (qs_b _ _ _ Hq))) as W.
      destruct (neighbors_ok (bs_pg st) x W Hx) as (nbs & Hnb & _).
      pose proof (neighbors_lt _ _ _ W Hx Hnb) as Hnlt. rewrite Hnb. cbn [bind].
      assert (NoDup (map cnode R ++ x :: map fst q')) as Hnd'.
      { eapply Permutation_NoDup; [|exact Hnd]. apply Permutation_app_head; auto. }
      assert (forall v, In v (map cnode R ++ x :: map fst q') <-> v < n) as Hin'.
      { intros v. rewrite <- Hin, !in_app_iff.
        split; (intros [G|G]; [left; auto|right]); [eapply Permutation_in; [symmetry; exact Hpk|]; auto|
          eapply Permutation_in; [exact Hpk|]; auto]. }
      assert (lenN R < n) as HRn.
      { pose proof (NoDup_bounded_len _ n Hnd' (fun v Hv => proj1 (Hin' v) Hv)) as G.
        rewrite lenN_app, lenN_map, lenN_cons in G. lia. }
      pose proof (bstate_step g0 R (bs_fg st) (bs_pg st) (bs_ws st) x (p_max_settled_nodes_contraction params)
                    Hn Hfl (qs_b _ _ _ Hq) Hx HRn) as Hs.
      rewrite <- Hrk in Hs.
      destruct (store_node c (bs_fg st) (bs_pg st) (bs_rank st) x) as [fg'| |]; cbn [bind] in *; auto.
      destruct (contract_node c H (bs_pg st) (bs_ws st) x _) as [[g' ws']| |]; cbn [bind] in *; auto.
      simpl in Hs. destruct Hs as (a & b & Hs).
      set (R' := R ++ [(x, a, b)]) in *.
      assert (map cnode R' = map cnode R ++ [x]) as ER' by (unfold R'; rewrite map_app; reflexivity).
      assert (lenN R' = lenN R + 1) as EL' by (unfold R'; rewrite lenN_app; reflexivity).
      assert (forall u v w k, In (mkArc v w k) (outs g' u) -> lenN R' < n) as Hne.
      { intros u v w k Ha.
        assert (u < n) as Hun by (eapply outs_src; [apply (bi_wf _ _ _ _ _ (bt_b _ _ _ _ _ Hs))|exact Ha]).
        assert (~ In u (map cnode R')) as Hui.
        { intros Hu. apply (bi_iso _ _ _ _ _ (bt_b _ _ _ _ _ Hs)) in Hu as [Hu _]. rewrite Hu in Ha. destruct Ha. }
        assert (NoDup (u :: map cnode R')) as Hndu.
        { constructor; auto. rewrite ER'.
          replace (map cnode R ++ x :: map fst q') with ((map cnode R ++ [x]) ++ map fst q') in Hnd'
            by (rewrite <- app_assoc; reflexivity).
          apply NoDup_app_l in Hnd'. auto. }
        assert (forall y, In y (u :: map cnode R') -> y < n) as Hlt.
        { intros y [<-|Hy]; auto. rewrite ER' in Hy. apply Hin'. rewrite in_app_iff in *. simpl in *. tauto. }
        pose proof (NoDup_bounded_len _ n Hndu Hlt) as G. rewrite lenN_cons, lenN_map in G. lia. }
      eapply wp_bind_mono.
      { apply (wp_foldM_inv _ _ (fun st' => qstate g0 R' st' /\ bs_rank st' = lenN R /\ bs_pg st' = g' /\
                 Permutation (map fst (bs_queue st')) (map fst q'))).
        - split; [constructor; simpl; auto; apply (qs_l _ _ _ Hq)|]. simpl. auto.
        - intros y st' Hy (Hq2 & Hrk2 & Hpg2 & Hp2). eapply wp_mono.
          + apply (update_neighbor_spec g0 R' params x y st'); auto; [lia|]. rewrite Hpg2. exact Hne.
          + intros st'' (Hq3 & Hrk3 & Hpg3 & Hp3). split; auto. split; [congruence|]. split; [congruence|].
            eapply Permutation_trans; eauto. }
      intros st' (Hq2 & Hrk2 & Hpg2 & Hp2).
      apply (IH _ R').
      + constructor; simpl; apply Hq2.
      + simpl. lia.
      + simpl. rewrite ER', <- app_assoc. simpl.
        eapply Permutation_NoDup; [|exact Hnd']. apply Permutation_app_head. constructor. symmetry; auto.
      + simpl. intros v. rewrite <- Hin', ER', <- app_assoc. simpl. rewrite !in_app_iff. simpl.
        split; (intros [G|[G|G]]; [left; auto|right; left; auto|right; right]);
          (eapply Permutation_in; [|exact G]; auto). symmetry; auto.
      + simpl. apply Permutation_length in Hp2. rewrite !map_length in Hp2.
        apply Permutation_length in Hperm. simpl in Hperm. lia.
    - apply Qnone in Epop; [|apply (qs_q _ _ _ Hq)]. simpl. exists R.
      rewrite Epop in *. simpl in *. rewrite app_nil_r in *.
      split; [apply (qs_b _ _ _ Hq)|]. split; auto.
      apply N.le_antisymm.
      + rewrite <- (lenN_map cnode). apply NoDup_bounded_len; auto. intros v Hv. apply Hin; auto.
      + assert (incl (rangeN 0 n) (map cnode R)) as Hi.
        { intros v Hv. apply rangeN_In in Hv. apply Hin. lia. }
        pose proof (NoDup_incl_length (rangeN_NoDup 0 n) Hi) as G. rewrite map_length in G.
        pose proof (lenN_rangeN 0 n) as G2. unfold lenN in *. lia.
  Qed.

  Lemma build_with_params_full params :
    (umax c / 2 < n + 1 -> allow) -> (full -> n <= p_max_settled_nodes_contraction params) ->
    wp (lim allow) (build_with_params c H Q ig params) (fun fg => fg_ok c E n fg /\ fg_exact full c E fg).
  Proof.
    intros Hal Hfl. unfold build_with_params, ig_get_num_nodes, ig_check_frozen.
    rewrite (ig_ok_frozen _ _ Hig). cbn [bind]. fold n. pose proof half_le.
    eapply wp_bind_mono; [apply fg_new_spec; auto; intros; apply Hal; lia|].
    intros fg0 (Hr0 & Hcap). unfold run_contraction.
    destruct (bstate_init fg0 Hr0) as (g0 & -> & Hg0 & Hb0). cbn [bind].
    assert (n <= umax c) as Hn by lia.
    eapply wp_bind_mono; [apply init_queue_spec; eauto|].
    intros st (Hq & Hrk & Hnd & Hin).
    eapply wp_bind_mono.
    { apply (contraction_loop_spec g0 params Hn Hfl _ st []); auto.
      rewrite <- (map_length fst). pose proof (NoDup_bounded_len _ n Hnd (fun v Hv => proj1 (Hin v) Hv)) as G.
      unfold lenN in G. lia. }
    intros st' (R & Hb & HndR & HRn).
    destruct (bstate_finish g0 R _ _ _ Hg0 Hb Hcap HndR HRn) as (fg' & -> & Hok & _). simpl. auto.
  Qed.
End Build.

Section BuildPlain.
  Variables (c : cfg) (H : heap_ops) (hinv : list HeapItem -> Prop).
  Hypothesis HL : heap_laws H hinv.
  Hypothesis Hdbg : debug_build c = true.
  Variable ig : InputGraph.
  Hypothesis Hig : ig_ok c ig.
  Let n := ig_num_nodes ig.
  Let E := ig_edges ig.
  Variables (M : N) (allow : Prop).
  Hypothesis HM : forall e, In e E -> e_weight e <= M.
  Hypothesis Hov : umax c < M * 2 ^ (n + 1) -> allow.
  Hypothesis Hlen : umax c / 2 < n * n -> allow.

  Lemma build_with_order_spec order params :
    NoDup order -> (forall x, In x order -> x < n) -> lenN order = n ->
    (umax c / 2 < n + 1 -> allow) ->
    wp (lim allow) (build_with_order_with_params c H ig order params)
       (fun r => exists fg, r = inl fg /\ fg_ok c E n fg /\ forall i v, getN order i = Some v -> rk fg v = i).
  Proof.
    intros H1 H2 H3 H4. eapply wp_mono.
    - apply (build_with_order_full c H hinv HL Hdbg ig Hig M allow HM False false (fun X => match Bool.diff_false_true X with end) Hov Hlen); auto. tauto.
    - intros r (fg & -> & (Hok & _) & Hrk). eauto.
  Qed.

  Variables (Q : pq_ops) (qinv : list (N * N) -> Prop).
  Hypothesis QL : pq_laws Q qinv.
  Hypothesis Hcnt : 2147483647 < n * n -> allow.

  Lemma build_with_params_spec params :
    (umax c / 2 < n + 1 -> allow) ->
    wp (lim allow) (build_with_params c H Q ig params) (fg_ok c E n).
  Proof.
    intros H1. eapply wp_mono.
    - apply (build_with_params_full c H hinv HL Hdbg ig Hig M allow HM False false (fun X => match Bool.diff_false_true X with end) Hov Hlen Q qinv); auto. tauto.
    - intros fg (Hok & _). auto.
  Qed.
End BuildPlain.
