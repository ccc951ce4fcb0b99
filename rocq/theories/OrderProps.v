(** * OrderProps: preparation with an arbitrary order, which may contain a node twice or invalid ids *)
From Verif Require Export PrepareProps.
Open Scope N_scope.

Definition not_found (r : panic_reason) : Prop :=
  r = PExplicit "could not find out-edge id" \/ r = PExplicit "could not find in-edge id".

(** ** Ranks of the nodes that do not occur in the order keep their initial value *)
Lemma store_node_ranks c fg g rank x fg' : store_node c fg g rank x = Ok fg' ->
  fg_ranks fg' = setN (fg_ranks fg) x rank.
Proof.
  unfold store_node. intros HX.
  repeat (apply bind_Ok in HX; destruct HX as (? & ? & HX)). injection HX as <-. cbn [fg_ranks].
  match goal with H : upd (fg_ranks fg) _ _ = Ok _ |- _ => unfold upd in H; destruct (x <? lenN (fg_ranks fg)); [|discriminate]; injection H as <- end.
  reflexivity.
Qed.
Lemma order_ranks c H n maxs order : forall fg g ws rank fg' g' ws' rank',
  foldM (fun '(fg, g, ws, rank) node =>
             if n <=? node then Panic (PExplicit "Order contains invalid node id")
             else
               fg' <- store_node c fg g rank node ;;
               '(g', ws') <- contract_node c H g ws node maxs ;;
               Ok (fg', g', ws', rank + 1)) order (fg, g, ws, rank) = Ok (fg', g', ws', rank') ->
  forall v, ~ In v order -> getN (fg_ranks fg') v = getN (fg_ranks fg) v.
Proof.
  induction order as [|x order IH]; intros fg g ws rank fg' g' ws' rank' HX v Hv.
  - injection HX as <- _ _ _. auto.
  - cbn [foldM] in HX. apply bind_Ok in HX. destruct HX as ([[[fg1 g1] ws1] rank1] & HX & HY).
    rewrite (IH _ _ _ _ _ _ _ _ HY v); [|intros Hi; apply Hv; right; auto].
    destruct (n <=? x); [discriminate|]. apply bind_Ok in HX. destruct HX as (fg2 & HS & HX).
    apply bind_Ok in HX. destruct HX as ([g2 ws2] & _ & HX). injection HX as <- _ _ _.
    rewrite (store_node_ranks _ _ _ _ _ _ HS). apply getN_setN_neq. intros ->. apply Hv. left. auto.
Qed.

(** ** Completing the shortcuts of such a graph *)
Section Finish.
  Variables (c : cfg) (n : N) (R : list crec) (fg0 : FastGraph).
  Hypothesis Hr : fg_rep c n R fg0.
  Hypothesis Hrecs : forall R1 r R2 d a, R = R1 ++ r :: R2 -> In a (carcs d r) ->
    a_center a = umax c \/ (a_center a < n /\ R1 <> []).
  Hypothesis HRn : lenN R = n.
  Hypothesis Hzero : forall v, ~ In v (map cnode R) -> v < n -> getN (fg_ranks fg0) v = Some 0.
  Hypothesis Hn : n <= umax c.

  (** number of edges stored before the record with index [i] *)
  Definition fid (d : dir) (i : N) : N := lenN (edg c d (firstn (N.to_nat i) R)).
  Lemma fid_get d i : i <= n -> getN (fg_first_edge_ids fg0 d) i = Some (fid d i).
  Proof.
    intros Hi. unfold fid. rewrite <- (rp_first _ _ _ _ Hr d _ (skipn (N.to_nat i) R)).
    - f_equal. unfold lenN. rewrite firstn_length. unfold lenN in HRn. lia.
    - symmetry. apply firstn_skipn.
  Qed.
  Lemma fid_mono d i j : i <= j -> fid d i <= fid d j.
  Proof.
    intros Hij. unfold fid. replace (firstn (N.to_nat i) R) with (firstn (N.to_nat i) (firstn (N.to_nat j) R)).
    - rewrite <- (firstn_skipn (N.to_nat i) (firstn (N.to_nat j) R)) at 2. rewrite edg_app, lenN_app. lia.
    - rewrite firstn_firstn. f_equal. lia.
  Qed.
  Lemma fid_le d i : fid d i <= lenN (fg_edges fg0 d).
  Proof.
    rewrite (rp_edges _ _ _ _ Hr). unfold fid. rewrite <- (firstn_skipn (N.to_nat i) R) at 2. rewrite edg_app, lenN_app. lia.
  Qed.
  Lemma fid_0 d : fid d 0 = 0. Proof. reflexivity. Qed.

  Lemma last_occ v : In v (map cnode R) -> exists R1 r R2, R = R1 ++ r :: R2 /\ cnode r = v /\ ~ In v (map cnode R2).
  Proof.
    clear. induction R as [|r l IH]; intros Hv; [destruct Hv|].
    destruct (in_dec N.eq_dec v (map cnode l)) as [Hi|Hi].
    - destruct (IH Hi) as (R1 & r' & R2 & -> & H1 & H2). exists (r :: R1), r', R2. auto.
    - destruct Hv as [Hv|Hv]; [|contradiction]. exists [], r, l. auto.
  Qed.
  Lemma rank_of v : v < n -> exists i, i < n /\ getN (fg_ranks fg0) v = Some i /\
    (i = 0 \/ getN (map cnode R) i = Some v).
  Proof.
    intros Hv. destruct (in_dec N.eq_dec v (map cnode R)) as [Hi|Hi].
    - destruct (last_occ v Hi) as (R1 & r & R2 & HE & Hc & Hl). exists (lenN R1).
      split; [rewrite <- HRn, HE, lenN_app, lenN_cons; lia|]. split.
      + rewrite <- Hc. eapply (rp_rank _ _ _ _ Hr); eauto. rewrite Hc. auto.
      + right. rewrite HE, map_app. rewrite getN_app2 by (rewrite lenN_map; lia). rewrite lenN_map, N.sub_diag. simpl. congruence.
    - exists 0. split; [lia|]. split; auto.
  Qed.
  Lemma slice_of v d : v < n -> exists i, i < n /\ slice fg0 d v (fid d i) (fid d (i + 1)) /\
    (i = 0 \/ getN (map cnode R) i = Some v).
  Proof.
    intros Hv. destruct (rank_of v Hv) as (i & Hi & Hk & Ho). exists i. split; auto. split; auto.
    exists i. split; auto. split; apply fid_get; lia.
  Qed.

  Lemma find_total fg d adj : forall ids, (forall i, In i ids -> i < lenN (fg_edges fg d)) ->
    wp not_found (find_edge_id fg d ids adj) (fun _ => True).
  Proof.
    induction ids as [|j ids IH]; intros Hl; cbn [find_edge_id].
    - simpl. unfold not_found. destruct d; auto.
    - apply wp_bind, wp_idx; [apply Hl; left; auto|]. intros e _. destruct (fe_adj e =? adj); simpl; auto.
      apply IH. intros; apply Hl; right; auto.
  Qed.
  Lemma get_total d v adj : v < n -> wp not_found (get_edge_id fg0 d v adj) (fun _ => True).
  Proof.
    intros Hv. destruct (slice_of v d Hv) as (i & Hi & Hs & _). unfold get_edge_id.
    rewrite (slice_begin _ _ _ _ _ Hs), (slice_end _ _ _ _ _ Hs). cbn [bind]. apply find_total.
    intros j Hj. apply rangeN_In in Hj. pose proof (fid_le d (i + 1)). lia.
  Qed.

  (** an edge that has not been completed, and one of the first node *)
  Definition raw (e : FastGraphEdge) : Prop :=
    fe_replaced_out e = umax c /\ (fe_replaced_in e = umax c \/ fe_replaced_in e < n).
  Definition plain (e : FastGraphEdge) : Prop := fe_replaced_out e = umax c /\ fe_replaced_in e = umax c.

  Lemma stored_raw d id e : getN (fg_edges fg0 d) id = Some e -> raw e /\ (id < fid d 1 -> plain e).
  Proof.
    rewrite (rp_edges _ _ _ _ Hr). intros H. pose proof H as H'. apply edg_inv in H' as (R1 & r & R2 & j & a & HE & Ha & Hid & ->).
    apply getN_In in Ha. pose proof (Hrecs _ _ _ d a HE Ha) as Hp.
    unfold raw, plain, enc; cbn [fe_replaced_out fe_replaced_in]. split.
    - split; [reflexivity|]. intuition.
    - intros Hlt. split; [reflexivity|]. destruct R1 as [|r1 R1].
      + destruct Hp as [->|[_ Hp]]; [reflexivity|congruence].
      + exfalso. unfold fid in Hlt. rewrite HE in Hlt. change (N.to_nat 1) with 1%nat in Hlt. cbn [firstn app] in Hlt.
        rewrite Hid in Hlt. change (r1 :: R1) with ([r1] ++ R1) in Hlt. rewrite edg_app, lenN_app in Hlt. lia.
  Qed.

  Definition fi (d : dir) (i j : N) (fg : FastGraph) : Prop :=
    feq fg0 fg /\
    (forall id e, id < fid d 1 -> getN (fg_edges fg d) id = Some e -> plain e) /\
    (forall id e r v, 0 < r < n -> fid d r <= id < fid d (r + 1) -> getN (fg_edges fg d) id = Some e ->
       getN (map cnode R) r = Some v -> i <= v -> (v = i -> j <= id) -> raw e).

  Lemma finish_edge_total d i id fg e : feq fg0 fg -> getN (fg_edges fg d) id = Some e -> raw e ->
    wp not_found (finish_edge c d i fg id)
      (fun fg' => exists e', fg' = fg_set_edge fg d id e' /\ core e' = core e /\ (plain e -> plain e')).
  Proof.
    intros F He [Hout Hin]. unfold finish_edge. rewrite (idx_Some _ _ _ He). cbn [bind]. unfold INVALID_NODE, INVALID_EDGE.
    destruct (N.eqb_spec (fe_replaced_in e) (umax c)) as [Hc|Hc].
    - rewrite Hout, N.eqb_refl. destruct (debug_build c); cbn [bind assert]; simpl;
      (eexists; split; [reflexivity|]; split; [reflexivity|]; intros _; split; reflexivity).
    - destruct Hin as [|Hlt]; [contradiction|].
      rewrite (feq_get fg0 fg) by auto. eapply wp_bind_mono; [apply get_total; auto|]. intros rin _.
      rewrite (feq_get fg0); [|eapply feq_set; eauto; reflexivity]. eapply wp_bind_mono; [apply get_total; auto|]. intros rout _.
      simpl. exists (mkFGE (fe_base e) (fe_adj e) (fe_weight e) rin rout). split; [|split; [reflexivity|]].
      + assert (forall (l : list FastGraphEdge) k a b, setN (setN l k a) k b = setN l k b) as SS.
        { intros l; induction l as [|z l IH]; intros k a b; simpl; auto.
          destruct (k =? 0) eqn:Ek; simpl; rewrite Ek; auto. f_equal; auto. }
        destruct d; simpl; unfold fg_set_edge; simpl; rewrite SS; reflexivity.
      + intros [_ Hp]. contradiction.
  Qed.

  Lemma fi_set d i j fg id e e' : fi d i j fg -> getN (fg_edges fg d) id = Some e -> core e' = core e ->
    (plain e -> plain e') ->
    (forall r v, 0 < r < n -> fid d r <= id < fid d (r + 1) -> getN (map cnode R) r = Some v -> v = i) ->
    j <= id -> fi d i (id + 1) (fg_set_edge fg d id e').
  Proof.
    intros (F & HA & HB) He Hc Hp Hu Hj. split; [eapply feq_set; eauto|]. rewrite fg_edges_set_same. split.
    - intros id' x Hlt. rewrite getN_setN. destruct (N.eqb_spec id id') as [<-|Hne]; [|apply HA; auto].
      destruct (N.ltb_spec id (lenN (fg_edges fg d))); [|apply getN_Some_lt in He; lia]. cbn [andb]. intros [= <-]. apply Hp. eapply HA; eauto.
    - intros id' x r v Hr' Hs. rewrite getN_setN. destruct (N.eqb_spec id id') as [<-|Hne].
      + intros _ Hv _ Hx. specialize (Hx (Hu r v Hr' Hs Hv)). lia.
      + intros Hx Hv Hi Hx'. eapply HB; eauto. intros Hvi. specialize (Hx' Hvi). lia.
  Qed.
  Lemma slot_unique d r r' id : fid d r <= id < fid d (r + 1) -> fid d r' <= id < fid d (r' + 1) -> r = r'.
  Proof.
    intros H1 H2. destruct (N.lt_trichotomy r r') as [Hl|[Hl|Hl]]; auto.
    - pose proof (fid_mono d (r + 1) r' ltac:(lia)). lia.
    - pose proof (fid_mono d (r' + 1) r ltac:(lia)). lia.
  Qed.
  Lemma finish_dir_total d fg : fi d 0 0 fg ->
    wp not_found (finish_dir c d n fg) (fun fg' => feq fg0 fg' /\ fg_edges fg' (opp d) = fg_edges fg (opp d)).
  Proof.
    intros H0. unfold finish_dir.
    eapply wp_mono; [apply (wp_foldM_range _ _ (fun i fg' => fi d i 0 fg' /\ fg_edges fg' (opp d) = fg_edges fg (opp d))); [lia|auto|]|].
    2: { intros fg' [[H _] H']. auto. }
    intros i fg1 Hi [H1 Ho]. destruct (slice_of i d) as (k & Hk & Hs & Hki); [lia|].
    pose proof (feq_slice _ _ _ _ _ _ (proj1 H1) Hs) as Hs'.
    rewrite (slice_begin _ _ _ _ _ Hs'), (slice_end _ _ _ _ _ Hs'). cbn [bind].
    pose proof (fid_mono d k (k + 1) ltac:(lia)) as Hm. pose proof (fid_le d (k + 1)) as Hle.
    eapply wp_mono; [apply (wp_foldM_range _ _ (fun j fg' => fi d i j fg' /\ fg_edges fg' (opp d) = fg_edges fg (opp d))); [lia| |]|].
    - split; auto. destruct H1 as (F & HA & HB). split; auto. split; auto.
      intros id e r v Hr' Hid He Hv Hiv _. eapply HB; eauto. lia.
    - intros j fg2 Hj [H2 Ho2]. pose proof H2 as (F & HA & HB).
      assert (exists e, getN (fg_edges fg2 d) j = Some e) as (e & He).
      { pose proof (fq_e _ _ F d j) as HC. destruct (getN_lt (fg_edges fg0 d) j) as (e0 & HG); [lia|].
        rewrite HG in HC. destruct (getN (fg_edges fg2 d) j) as [e|]; [eauto|discriminate]. }
      assert (raw e /\ (forall r v, 0 < r < n -> fid d r <= j < fid d (r + 1) -> getN (map cnode R) r = Some v -> v = i)) as (Hraw & Hu).
      { destruct (N.eq_dec k 0) as [->|Hk0].
        - split; [|intros r v Hr' Hr2; pose proof (slot_unique d r 0 j Hr2 Hj); lia].
          destruct (HA j e) as [G1 G2]; auto; [apply Hj|]. split; auto.
        - destruct Hki as [|Hki]; [contradiction|]. split.
          + eapply (HB j e k i); eauto; lia.
          + intros r v Hr' Hr2 Hv. pose proof (slot_unique d r k j Hr2 Hj). subst r. congruence. }
      eapply wp_mono; [eapply finish_edge_total; eauto|].
      intros fg3 (e' & -> & Hc & Hp). split; [eapply fi_set; eauto; lia|]. rewrite fg_edges_set_opp. auto.
    - intros fg2 [(F & HA & HB) Ho2]. split; auto. split; auto. split; auto.
      intros id e r v Hr' Hid He Hv Hiv _. eapply HB; eauto; [lia|]. intros; subst; lia.
  Qed.
  Lemma fi_init d fg : feq fg0 fg -> fg_edges fg d = fg_edges fg0 d -> fi d 0 0 fg.
  Proof.
    intros F He. split; auto. rewrite He. split.
    - intros id e Hlt Hg. apply (stored_raw d id e Hg); auto.
    - intros id e r v _ _ Hg _ _ _. apply (stored_raw d id e Hg).
  Qed.
  Lemma finish_total : wp not_found (finish_contraction c n fg0) (fun fg => feq fg0 fg).
  Proof.
    unfold finish_contraction. eapply wp_bind_mono; [apply finish_dir_total, fi_init; auto; apply feq_refl|].
    intros fg1 [F1 Ho]. eapply wp_mono; [apply finish_dir_total, fi_init; auto|]. intros fg2 [F2 _]. auto.
  Qed.
End Finish.

(** the records of the checked build *)
Lemma recs_centers c n E R : recs_ok c n E R -> forall R1 r R2 d a, R = R1 ++ r :: R2 -> In a (carcs d r) ->
  a_center a = umax c \/ (a_center a < n /\ R1 <> []).
Proof.
  intros Hrecs R1 r R2 d a HE Ha. destruct (ro_arc _ _ _ _ _ (Hrecs _ _ _ HE) d a Ha) as (_ & _ & _ & _ & Hp).
  unfold pgood, agood in Hp.
  destruct d; destruct Hp as [[-> _]|(Hk & _ & x & ? & ? & ? & ? & Hi & _)]; auto; right; (split; [exact Hk|]); intros ->; destruct Hi.
Qed.

(** ** Every order *)
Lemma run_any_order c ops ig H hinv order params fg0 : debug_build c = true -> frozen_graph c ops ig ->
  heap_laws H hinv -> fg_rep c (ig_num_nodes ig) [] fg0 ->
  (forall v, v < ig_num_nodes ig -> getN (fg_ranks fg0) v = Some 0) -> ig_num_nodes ig <= umax c ->
  lenN order = ig_num_nodes ig -> (forall x, In x order -> x < ig_num_nodes ig) ->
  wp (fun r => lim True r \/ not_found r) (run_contraction_with_order c H (ig_num_nodes ig) fg0 ig order params) (fun _ => True).
Proof.
  intros Hd Hf HL Hr0 Hz Hn Hl Hord.
  assert (ig_ok c ig) as Hok by (apply (frozen_graph_ok c ops); auto; left; auto).
  pose proof (max_weight_ge (ig_edges ig)) as HM.
  unfold run_contraction_with_order.
  destruct (bstate_init c Hd ig Hok (max_weight (ig_edges ig)) True HM False false (fun X => match Bool.diff_false_true X with end) (fun _ => I) (fun _ => I) fg0 Hr0) as (g0 & -> & Hg0 & Hb0). cbn [bind].
  pose proof (contract_order_spec c H hinv HL Hd ig Hok (max_weight (ig_edges ig)) True HM False false (fun X => match Bool.diff_false_true X with end) (fun _ => I) (fun _ => I) fg0 g0 order params Hn (fun X : False => False_ind _ X) Hb0 Hord ltac:(lia)) as HC.
  destruct (foldM _ order _) as [[[[fg g] ws] rank]|r|] eqn:HE; cbn [bind wp] in *; [|left; auto|auto].
  destruct HC as (R & HR & Hb).
  apply wp_weaken with (P := not_found); [auto|].
  eapply wp_mono; [apply (finish_total c (ig_num_nodes ig) R fg)|]; auto.
  - apply (bt_r _ _ _ _ _ _ _ _ _ _ Hb).
  - exact (recs_centers _ _ _ _ (bi_rec _ _ _ _ _ (bt_b _ _ _ _ _ _ _ _ _ _ Hb))).
  - rewrite <- (lenN_map cnode), HR. auto.
  - intros v Hv Hlt. rewrite (order_ranks _ _ _ _ _ _ _ _ _ _ _ _ _ HE v); [auto|]. rewrite <- HR. auto.
Qed.

Lemma fg_new_zero c n fg0 : fg_new c n = Ok fg0 -> forall v, v < n -> getN (fg_ranks fg0) v = Some 0.
Proof.
  unfold fg_new. intros HX v Hv. destruct (n <=? umax c / 2); [|discriminate]. apply bind_Ok in HX. destruct HX as (m & _ & HX). destruct (m <=? umax c / 2); [|discriminate].
  injection HX as <-. cbn [fg_ranks]. apply getN_repeat. auto.
Qed.
(** The step of the loop over the order. *)
Lemma first_invalid n order : (exists x, In x order /\ n <= x) ->
  exists pre x post, order = pre ++ x :: post /\ n <= x /\ forall y, In y pre -> y < n.
Proof.
  induction order as [|y order IH]; intros (x & Hx & Hn); [destruct Hx|].
  destruct (N.lt_ge_cases y n) as [Hy|Hy].
  - destruct IH as (pre & z & post & -> & Hz & Hp); [destruct Hx as [->|Hx]; [lia|eauto]|].
    exists (y :: pre), z, post. split; auto. split; auto. intros w [<-|Hw]; auto.
  - exists [], y, order. split; auto. split; auto. intros w [].
Qed.

Lemma C09_any_order_proof : forall c ops ig H hinv order params,
  debug_build c = true -> frozen_graph c ops ig -> heap_laws H hinv -> lenN order = ig_num_nodes ig ->
  (forall x, In x order -> x < ig_num_nodes ig) ->
  (exists fg, prepare_with_order_with_params c H ig order params = Ok (inl fg)) \/
  prepare_with_order_with_params c H ig order params = Panic (PExplicit "could not find out-edge id") \/
  prepare_with_order_with_params c H ig order params = Panic (PExplicit "could not find in-edge id") \/
  prepare_with_order_with_params c H ig order params = Panic POverflow \/
  prepare_with_order_with_params c H ig order params = Panic PCapacity.
Proof.
  intros c ops ig H hinv order params Hd Hf HL Hl Hord.
  unfold prepare_with_order_with_params, build_with_order_with_params.
  rewrite (frozen_num _ _ _ Hf). cbn [bind]. rewrite Hl, N.eqb_refl. cbn [negb].
  pose proof (fg_new_spec c (ig_num_nodes ig) True (fun _ => I) (fun _ => I) Hd) as HN.
  destruct (fg_new c (ig_num_nodes ig)) as [fg0|r|] eqn:HE; cbn [bind wp] in *; [|destruct r; simpl in HN; tauto|tauto].
  destruct HN as [Hr0 Hcap]. assert (ig_num_nodes ig <= umax c) as Hn by (assert (umax c / 2 <= umax c) as Hh by (apply N.div_le_upper_bound; clear; lia); revert Hcap Hh; generalize (umax c / 2); intros; clear - Hcap Hh; lia).
  pose proof (run_any_order c ops ig H hinv order params fg0 Hd Hf HL Hr0 (fg_new_zero _ _ _ HE) Hn Hl Hord) as HW.
  destruct (run_contraction_with_order c H (ig_num_nodes ig) fg0 ig order params) as [fg|r|]; cbn [bind wp] in *; [eauto| |tauto].
  destruct HW as [HW|[->| ->]]; [destruct r; simpl in HW; tauto|auto|auto].
Qed.

Lemma C09_invalid_id_proof : forall c ops ig H hinv order params,
  debug_build c = true -> frozen_graph c ops ig -> heap_laws H hinv -> lenN order = ig_num_nodes ig ->
  (exists x, In x order /\ ig_num_nodes ig <= x) ->
  prepare_with_order_with_params c H ig order params = Panic (PExplicit "Order contains invalid node id") \/
  prepare_with_order_with_params c H ig order params = Panic POverflow \/
  prepare_with_order_with_params c H ig order params = Panic PCapacity.
Proof.
  intros c ops ig H hinv order params Hd Hf HL Hl Hex.
  destruct (first_invalid _ _ Hex) as (pre & x & post & -> & Hx & Hpre).
  unfold prepare_with_order_with_params, build_with_order_with_params.
  rewrite (frozen_num _ _ _ Hf). cbn [bind]. rewrite Hl, N.eqb_refl. cbn [negb].
  pose proof (fg_new_spec c (ig_num_nodes ig) True (fun _ => I) (fun _ => I) Hd) as HN.
  destruct (fg_new c (ig_num_nodes ig)) as [fg0|r|]; cbn [bind wp] in *; [|destruct r; simpl in HN; tauto|tauto].
  destruct HN as [Hr0 Hcap]. assert (ig_num_nodes ig <= umax c) as Hn by (assert (umax c / 2 <= umax c) as Hh by (apply N.div_le_upper_bound; clear; lia); revert Hcap Hh; generalize (umax c / 2); intros; clear - Hcap Hh; lia).
  assert (ig_ok c ig) as Hok by (apply (frozen_graph_ok c ops); auto; left; auto).
  pose proof (max_weight_ge (ig_edges ig)) as HM.
  unfold run_contraction_with_order.
  destruct (bstate_init c Hd ig Hok (max_weight (ig_edges ig)) True HM False false (fun X => match Bool.diff_false_true X with end) (fun _ => I) (fun _ => I) fg0 Hr0) as (g0 & -> & Hg0 & Hb0). cbn [bind].
  rewrite lenN_app, lenN_cons in Hl.
  pose proof (contract_order_spec c H hinv HL Hd ig Hok (max_weight (ig_edges ig)) True HM False false (fun X => match Bool.diff_false_true X with end) (fun _ => I) (fun _ => I) fg0 g0 pre params Hn (fun X : False => False_ind _ X) Hb0 Hpre ltac:(lia)) as HC.
  rewrite foldM_app.
  destruct (foldM _ pre _) as [[[[fg g] ws] rank]|r|]; cbn [bind wp foldM] in *; [|destruct r; simpl in HC; tauto|tauto].
  rewrite (proj2 (N.leb_le _ _) Hx). auto.
Qed.
