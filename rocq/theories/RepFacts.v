(** * RepFacts: the FastGraph under construction represents the contraction records;
    finishing resolves center nodes to edge ids *)
From Verif Require Export HierFacts Builder.
Open Scope N_scope.

Section Rep.
  Variables (c : cfg) (n : N) (E : list Edge).
  Variable allow : Prop.

  Definition enc (x : N) (a : Arc) : FastGraphEdge :=
    mkFGE x (a_adj a) (a_weight a) (a_center a) (INVALID_EDGE c).
  Definition edg (d : dir) (R : list crec) : list FastGraphEdge :=
    flat_map (fun r => map (enc (cnode r)) (carcs d r)) R.

  Lemma edg_app d R1 R2 : edg d (R1 ++ R2) = edg d R1 ++ edg d R2.
  Proof. apply flat_map_app. Qed.
  Lemma edg_cons d r R : edg d (r :: R) = map (enc (cnode r)) (carcs d r) ++ edg d R.
  Proof. reflexivity. Qed.

  Lemma edg_len d R : recs_ok c n E R -> lenN (edg d R) <= lenN R * n.
  Proof.
    intros H. assert (forall r, In r R -> lenN (carcs d r) <= n) as Hl.
    { intros r Hr. apply in_split in Hr as (R1 & R2 & HR). specialize (H _ _ _ HR).
      rewrite <- (lenN_map a_adj). apply NoDup_bounded_len; [apply (ro_nodup _ _ _ _ _ H)|].
      intros v Hv. apply in_map_iff in Hv as (a & <- & Ha). apply (ro_arc _ _ _ _ _ H) in Ha. tauto. }
    clear H. induction R as [|r R IH]; [unfold edg; simpl; rewrite lenN_nil; lia|].
    rewrite edg_cons, lenN_app, lenN_map, lenN_cons.
    specialize (IH (fun r' Hr => Hl r' (or_intror Hr))).
    specialize (Hl r (or_introl eq_refl)). lia.
  Qed.

  Record fg_rep (R : list crec) (fg : FastGraph) : Prop := mk_fg_rep {
    rp_n : fg_num_nodes fg = n;
    rp_lr : lenN (fg_ranks fg) = n;
    rp_lf : forall d, lenN (fg_first_edge_ids fg d) = n + 1;
    rp_edges : forall d, fg_edges fg d = edg d R;
    rp_first : forall d R1 R2, R = R1 ++ R2 ->
       getN (fg_first_edge_ids fg d) (lenN R1) = Some (lenN (edg d R1));
    rp_rank : forall R1 r R2, R = R1 ++ r :: R2 -> ~ In (cnode r) (map cnode R2) ->
       getN (fg_ranks fg) (cnode r) = Some (lenN R1);
    rp_cap : forall d, lenN (fg_edges fg d) <= umax c / 2
  }.

  Lemma store_arcs_spec x es arcs :
    (umax c / 2 < lenN es + lenN arcs -> allow) -> lenN es <= umax c / 2 ->
    wp (lim allow) (store_arcs c x es arcs)
       (fun es' => es' = es ++ map (enc x) arcs /\ lenN es' <= umax c / 2).
  Proof.
    intros Ha Hl. unfold store_arcs.
    apply (wp_foldM _ _ (fun pre es' => es' = es ++ map (enc x) pre /\ lenN es' <= umax c / 2)).
    - simpl. rewrite app_nil_r. auto.
    - intros pre a post es' Epost (-> & Hle). apply wp_vpush.
      + intros Hc. apply Ha. rewrite lenN_app, lenN_map in Hc. subst arcs.
        rewrite lenN_app, lenN_cons. lia.
      + intros Hlt. rewrite map_app, app_assoc. split; auto.
        rewrite lenN_app. change (lenN [_]) with 1. lia.
  Qed.

  (** splitting a list with a new last element *)
  Lemma snoc_split {A} (R : list A) x R1 R2 : R ++ [x] = R1 ++ R2 ->
    (R1 = R ++ [x] /\ R2 = []) \/ exists R2', R2 = R2' ++ [x] /\ R = R1 ++ R2'.
  Proof.
    intros H. destruct R2 as [|y R2] using rev_ind.
    - rewrite app_nil_r in H. auto.
    - right. rewrite app_assoc in H. apply app_inj_tail in H as [-> ->]. eauto.
  Qed.

  Lemma store_node_spec R g fg x :
    binv c n E R g -> fg_rep R fg -> x < n -> lenN R < n ->
    (umax c / 2 < n * n -> allow) ->
    wp (lim allow) (store_node c fg g (lenN R) x)
       (fun fg' => fg_rep (R ++ [(x, outs g x, ins g x)]) fg').
  Proof.
    intros B Hrep Hx HR Hal. pose proof (bi_wf _ _ _ _ _ B) as W.
    assert (forall d, lenN (edg d R) + n <= n * n) as Hle.
    { intros d. pose proof (edg_len d R (bi_rec _ _ _ _ _ B)). nia. }
    unfold store_node. rewrite (outs_idx _ _ _ W Hx). cbn [bind].
    eapply wp_bind_mono.
    { apply store_arcs_spec.
      - intros Hlt. apply Hal. change (fg_edges_fwd fg) with (fg_edges fg Fwd) in Hlt.
        rewrite (rp_edges _ _ Hrep) in Hlt. specialize (Hle Fwd).
        pose proof (outs_len n g x W). lia.
      - apply (rp_cap _ _ Hrep Fwd). }
    intros ef (Eef & Hcf). change (fg_edges_fwd fg) with (fg_edges fg Fwd) in Eef.
    rewrite (rp_edges _ _ Hrep) in Eef.
    rewrite upd_eq; [|change (fg_first_edge_ids_fwd fg) with (fg_first_edge_ids fg Fwd);
                      rewrite (rp_lf _ _ Hrep); lia].
    cbn [bind]. rewrite (ins_idx _ _ _ W Hx). cbn [bind].
    eapply wp_bind_mono.
    { apply store_arcs_spec.
      - intros Hlt. apply Hal. change (fg_edges_bwd fg) with (fg_edges fg Bwd) in Hlt.
        rewrite (rp_edges _ _ Hrep) in Hlt. specialize (Hle Bwd).
        pose proof (ins_len n g x W). lia.
      - apply (rp_cap _ _ Hrep Bwd). }
    intros eb (Eeb & Hcb). change (fg_edges_bwd fg) with (fg_edges fg Bwd) in Eeb.
    rewrite (rp_edges _ _ Hrep) in Eeb.
    rewrite upd_eq; [|change (fg_first_edge_ids_bwd fg) with (fg_first_edge_ids fg Bwd);
                      rewrite (rp_lf _ _ Hrep); lia].
    cbn [bind]. rewrite upd_eq; [|rewrite (rp_lr _ _ Hrep); auto]. cbn [bind].
    apply wp_Ok. set (r := (x, outs g x, ins g x)).
    assert (forall d, edg d (R ++ [r]) = match d with Fwd => ef | Bwd => eb end) as Eed.
    { intros d. rewrite edg_app, edg_cons. unfold r; simpl. rewrite app_nil_r.
      destruct d; auto. }
    set (fg' := mkFG _ _ _ _ _ _).
    assert (forall d, fg_first_edge_ids fg' d =
              setN (fg_first_edge_ids fg d) (lenN R + 1) (lenN (edg d (R ++ [r])))) as Eff.
    { intros d. rewrite Eed. destruct d; reflexivity. }
    constructor.
    - apply (rp_n _ _ Hrep).
    - simpl. rewrite lenN_setN. apply (rp_lr _ _ Hrep).
    - intros d. rewrite Eff, lenN_setN. apply (rp_lf _ _ Hrep).
    - intros d. rewrite Eed. destruct d; reflexivity.
    - intros d R1 R2 HR12. rewrite Eff. apply snoc_split in HR12 as [[-> ->]|(R2' & -> & HR')].
      + rewrite lenN_app. change (lenN [r]) with 1. rewrite getN_setN_eq; auto.
        rewrite (rp_lf _ _ Hrep). lia.
      + rewrite getN_setN_neq; [eapply (rp_first _ _ Hrep); eauto|].
        subst R. rewrite lenN_app. lia.
    - intros R1 r' R2 HR12 Hni. simpl. apply snoc_split in HR12 as [[_ HR']|(R2' & HR' & ->)].
      + discriminate.
      + destruct R2' as [|r2 R2'].
        * injection HR' as -> ->. rewrite app_nil_r. rewrite getN_setN_eq; auto.
          rewrite (rp_lr _ _ Hrep). auto.
        * injection HR' as -> ->. rewrite getN_setN_neq.
          -- eapply (rp_rank _ _ Hrep); eauto. intros Hin. apply Hni.
             rewrite map_app, in_app_iff. auto.
          -- intros Heq. apply Hni. rewrite map_app, in_app_iff. right. left. exact Heq.
    - intros []; simpl; auto.
  Qed.

  Lemma fg_new_spec : (umax c / 2 < n + 1 -> allow) -> (umax c < n + 1 -> allow) ->
    debug_build c = true ->
    wp (lim allow) (fg_new c n) (fun fg => fg_rep [] fg /\ n + 1 <= umax c / 2).
  Proof.
    intros H1 H2 Hd. unfold fg_new. destruct (N.leb_spec n (umax c / 2)); [|apply H1; lia].
    apply wp_bind, wp_uadd; auto. intros Hn.
    destruct (N.leb_spec (n + 1) (umax c / 2)); simpl; [|auto].
    split; auto. constructor; simpl; auto.
    - apply lenN_repeat.
    - intros []; simpl; apply lenN_repeat.
    - intros []; reflexivity.
    - intros d R1 R2 HR. destruct R1; [|discriminate]. destruct d; simpl; apply getN_repeat; rewrite lenN_nil; lia.
    - intros R1 r R2 HR. destruct R1; discriminate.
    - intros []; simpl; rewrite lenN_nil; lia.
  Qed.

  (** ** Edges and slices of a complete representation *)
  Definition slice (fg : FastGraph) (d : dir) (v b e : N) : Prop :=
    exists r, getN (fg_ranks fg) v = Some r /\ getN (fg_first_edge_ids fg d) r = Some b /\
      getN (fg_first_edge_ids fg d) (r + 1) = Some e.

  Lemma slice_fun fg d v b e b' e' : slice fg d v b e -> slice fg d v b' e' -> b = b' /\ e = e'.
  Proof. intros (r & H1 & H2 & H3) (r' & H1' & H2' & H3'). replace r' with r in * by congruence. split; congruence. Qed.

  Lemma slice_begin fg d v b e : slice fg d v b e -> fg_begin_edges fg d v = Ok b.
  Proof. intros (r & H1 & H2 & H3). unfold fg_begin_edges. rewrite (idx_Some _ _ _ H1). cbn [bind]. apply idx_Some; auto. Qed.
  Lemma slice_end fg d v b e : slice fg d v b e -> fg_end_edges fg d v = Ok e.
  Proof. intros (r & H1 & H2 & H3). unfold fg_end_edges. rewrite (idx_Some _ _ _ H1). cbn [bind]. apply idx_Some; auto. Qed.

  Lemma NoDup_mid {A B} (f : A -> B) R1 r R2 : NoDup (map f (R1 ++ r :: R2)) ->
    ~ In (f r) (map f R1) /\ ~ In (f r) (map f R2).
  Proof.
    rewrite map_app. simpl. intros H. apply NoDup_remove_2 in H. rewrite in_app_iff in H. tauto.
  Qed.
  Lemma NoDup_split_eq {A B} (f : A -> B) R1 : forall r R2 R1' r' R2',
    R1 ++ r :: R2 = R1' ++ r' :: R2' -> f r = f r' -> NoDup (map f (R1 ++ r :: R2)) ->
    R1 = R1' /\ r = r' /\ R2 = R2'.
  Proof.
    induction R1 as [|a R1 IH]; intros r R2 R1' r' R2' H1 H2 H3; destruct R1' as [|a' R1']; simpl in *.
    - injection H1 as -> ->. auto.
    - injection H1 as -> ->. exfalso. inversion H3 as [|? ? Hni _]; subst. apply Hni.
      rewrite H2. apply in_map. apply in_app_iff; simpl; auto.
    - injection H1 as -> <-. exfalso. inversion H3 as [|? ? Hni _]; subst. apply Hni.
      rewrite <- H2. apply in_map. apply in_app_iff; simpl; auto.
    - injection H1 as -> H1. inversion H3; subst. apply IH in H1 as (-> & -> & ->); auto.
  Qed.

  Lemma rep_slice R fg d R1 r R2 : fg_rep R fg -> NoDup (map cnode R) -> R = R1 ++ r :: R2 ->
    slice fg d (cnode r) (lenN (edg d R1)) (lenN (edg d R1) + lenN (carcs d r)).
  Proof.
    intros Hrep Hnd HR. exists (lenN R1). split; [|split].
    - eapply (rp_rank _ _ Hrep); eauto. subst R. apply NoDup_mid in Hnd. tauto.
    - eapply (rp_first _ _ Hrep); eauto.
    - replace (lenN R1 + 1) with (lenN (R1 ++ [r])) by (rewrite lenN_app; reflexivity).
      erewrite (rp_first _ _ Hrep d (R1 ++ [r])); [|rewrite <- app_assoc; simpl; eauto].
      rewrite edg_app, lenN_app, edg_cons, lenN_app, lenN_map.
      change (lenN (edg d [])) with 0. f_equal. lia.
  Qed.
  Lemma rep_edge R fg d R1 r R2 j a : fg_rep R fg -> R = R1 ++ r :: R2 ->
    getN (carcs d r) j = Some a ->
    getN (fg_edges fg d) (lenN (edg d R1) + j) = Some (enc (cnode r) a).
  Proof.
    intros Hrep HR Hj. rewrite (rp_edges _ _ Hrep), HR, edg_app, getN_app2 by lia.
    replace (lenN (edg d R1) + j - lenN (edg d R1)) with j by lia.
    rewrite edg_cons, getN_app1, getN_map, Hj; auto.
    rewrite lenN_map. eapply getN_Some_lt; eauto.
  Qed.
  Lemma edg_inv d R : forall id e, getN (edg d R) id = Some e ->
    exists R1 r R2 j a, R = R1 ++ r :: R2 /\ getN (carcs d r) j = Some a /\
      id = lenN (edg d R1) + j /\ e = enc (cnode r) a.
  Proof.
    induction R as [|r R IH]; intros id e H; [discriminate|].
    rewrite edg_cons in H.
    destruct (N.lt_ge_cases id (lenN (carcs d r))) as [Hlt|Hge].
    - rewrite getN_app1 in H by (rewrite lenN_map; auto). rewrite getN_map in H.
      destruct (getN (carcs d r) id) as [a|] eqn:Ha; [|discriminate]. injection H as <-.
      exists [], r, R, id, a. repeat split; auto.
    - rewrite getN_app2 in H by (rewrite lenN_map; auto). rewrite lenN_map in H.
      apply IH in H as (R1 & r' & R2 & j & a & -> & Hj & Hid & ->).
      exists (r :: R1), r', R2, j, a. repeat split; auto.
      rewrite edg_cons, lenN_app, lenN_map. lia.
  Qed.

  (** ** Graphs that agree up to the replaced edges *)
  Definition core (e : FastGraphEdge) := (fe_base e, fe_adj e, fe_weight e).
  Record feq (fg0 fg : FastGraph) : Prop := mk_feq {
    fq_n : fg_num_nodes fg = fg_num_nodes fg0;
    fq_r : fg_ranks fg = fg_ranks fg0;
    fq_f : forall d, fg_first_edge_ids fg d = fg_first_edge_ids fg0 d;
    fq_e : forall d id, option_map core (getN (fg_edges fg d) id) = option_map core (getN (fg_edges fg0 d) id)
  }.
  Lemma feq_refl fg : feq fg fg. Proof. constructor; auto. Qed.

  Lemma feq_find fg0 fg d ids adj : feq fg0 fg -> find_edge_id fg d ids adj = find_edge_id fg0 d ids adj.
  Proof.
    intros F. induction ids as [|i r IH]; simpl; auto.
    pose proof (fq_e _ _ F d i) as He. unfold idx.
    destruct (getN (fg_edges fg d) i) as [e|], (getN (fg_edges fg0 d) i) as [e0|]; simpl in He;
      try discriminate; auto.
    injection He as _ Ha _. simpl. rewrite Ha, IH. reflexivity.
  Qed.
  Lemma feq_get fg0 fg d v adj : feq fg0 fg -> get_edge_id fg d v adj = get_edge_id fg0 d v adj.
  Proof.
    intros F. unfold get_edge_id, fg_begin_edges, fg_end_edges.
    rewrite (fq_r _ _ F), (fq_f _ _ F).
    destruct (idx (fg_ranks fg0) v) as [r| |]; simpl; auto.
    destruct (idx (fg_first_edge_ids fg0 d) r); simpl; auto.
    destruct (idx (fg_first_edge_ids fg0 d) (r + 1)); simpl; auto.
    apply feq_find; auto.
  Qed.
  Lemma feq_slice fg0 fg d v b e : feq fg0 fg -> slice fg0 d v b e -> slice fg d v b e.
  Proof. intros F (r & H1 & H2 & H3). exists r. rewrite (fq_r _ _ F), (fq_f _ _ F). auto. Qed.

  Lemma fg_edges_set fg d id e d' : fg_edges (fg_set_edge fg d id e) d' =
    if match d, d' with Fwd, Fwd | Bwd, Bwd => true | _, _ => false end
    then setN (fg_edges fg d) id e else fg_edges fg d'.
  Proof. destruct d, d'; reflexivity. Qed.
  Lemma fg_edges_set_same fg d id e : fg_edges (fg_set_edge fg d id e) d = setN (fg_edges fg d) id e.
  Proof. destruct d; reflexivity. Qed.
  Lemma fg_edges_set_opp fg d id e : fg_edges (fg_set_edge fg d id e) (opp d) = fg_edges fg (opp d).
  Proof. destruct d; reflexivity. Qed.

  Lemma feq_set fg0 fg d id e e' : feq fg0 fg -> getN (fg_edges fg d) id = Some e -> core e' = core e ->
    feq fg0 (fg_set_edge fg d id e').
  Proof.
    intros F He Hc. constructor.
    - rewrite <- (fq_n _ _ F). destruct d; reflexivity.
    - rewrite <- (fq_r _ _ F). destruct d; reflexivity.
    - intros d'. rewrite <- (fq_f _ _ F). destruct d, d'; reflexivity.
    - intros d' id'. rewrite <- (fq_e _ _ F), fg_edges_set.
      assert (option_map core (getN (setN (fg_edges fg d) id e') id') =
              option_map core (getN (fg_edges fg d) id')) as G.
      { rewrite getN_setN. destruct (N.eqb_spec id id') as [<-|Hne]; simpl; auto.
        rewrite He. simpl. destruct (N.ltb_spec id (lenN (fg_edges fg d))); simpl; [congruence|].
        apply getN_Some_lt in He. lia. }
      destruct d, d'; auto.
  Qed.

  (** the finished form of a raw edge *)
  Definition fsrc (d : dir) (base adj : N) : N := match d with Fwd => base | Bwd => adj end.
  Definition fdst (d : dir) (base adj : N) : N := match d with Fwd => adj | Bwd => base end.
  Definition fin (fg0 : FastGraph) (d : dir) (e0 e : FastGraphEdge) : Prop :=
    (fe_replaced_in e0 = umax c /\
     e = mkFGE (fe_base e0) (fe_adj e0) (fe_weight e0) (umax c) (umax c)) \/
    (fe_replaced_in e0 <> umax c /\ exists rin rout,
       get_edge_id fg0 Bwd (fe_replaced_in e0) (fsrc d (fe_base e0) (fe_adj e0)) = Ok rin /\
       get_edge_id fg0 Fwd (fe_replaced_in e0) (fdst d (fe_base e0) (fe_adj e0)) = Ok rout /\
       e = mkFGE (fe_base e0) (fe_adj e0) (fe_weight e0) rin rout).

  Definition raw_ok (fg0 : FastGraph) (d : dir) : Prop :=
    forall id e0, getN (fg_edges fg0 d) id = Some e0 ->
      fe_replaced_out e0 = umax c /\
      (fe_replaced_in e0 <> umax c -> exists rin rout,
       get_edge_id fg0 Bwd (fe_replaced_in e0) (fsrc d (fe_base e0) (fe_adj e0)) = Ok rin /\
       get_edge_id fg0 Fwd (fe_replaced_in e0) (fdst d (fe_base e0) (fe_adj e0)) = Ok rout).

  (** all nodes have slices, and the slice of a node holds exactly the edges based there *)
  Definition slices_ok (fg0 : FastGraph) (d : dir) : Prop :=
    (forall v, v < n -> exists b e, slice fg0 d v b e /\ b <= e <= lenN (fg_edges fg0 d)) /\
    (forall id e0, getN (fg_edges fg0 d) id = Some e0 -> fe_base e0 < n) /\
    (forall id e0 v b e, getN (fg_edges fg0 d) id = Some e0 -> slice fg0 d v b e ->
       (b <= id < e <-> fe_base e0 = v)).

  Lemma finish_edge_ok fg0 fg d i id e0 :
    feq fg0 fg -> raw_ok fg0 d -> getN (fg_edges fg0 d) id = Some e0 -> fe_base e0 = i ->
    getN (fg_edges fg d) id = Some e0 ->
    exists e, finish_edge c d i fg id = Ok (fg_set_edge fg d id e) /\ fin fg0 d e0 e /\ core e = core e0.
  Proof.
    intros F Hraw H0 Hb He. unfold finish_edge. rewrite (idx_Some _ _ _ He). cbn [bind].
    destruct (Hraw _ _ H0) as (Hout & Hin). unfold INVALID_NODE, INVALID_EDGE.
    destruct (N.eqb_spec (fe_replaced_in e0) (umax c)) as [Hc|Hc].
    - rewrite Hout, N.eqb_refl. exists (mkFGE (fe_base e0) (fe_adj e0) (fe_weight e0) (umax c) (umax c)).
      split; [destruct (debug_build c); reflexivity|]. split; [left; auto|reflexivity].
    - destruct (Hin Hc) as (rin & rout & H1 & H2).
      assert (match d with Fwd => i | Bwd => fe_adj e0 end = fsrc d (fe_base e0) (fe_adj e0)) as -> by (rewrite Hb; reflexivity).
      assert (match d with Fwd => fe_adj e0 | Bwd => i end = fdst d (fe_base e0) (fe_adj e0)) as -> by (rewrite Hb; reflexivity).
      rewrite (feq_get _ _ _ _ _ F), H1. cbn [bind].
      rewrite (feq_get fg0); [|eapply feq_set; eauto]. rewrite H2. cbn [bind].
      exists (mkFGE (fe_base e0) (fe_adj e0) (fe_weight e0) rin rout). split; [|split].
      + f_equal. assert (forall (l : list FastGraphEdge) k a b, setN (setN l k a) k b = setN l k b) as SS.
        { intros l; induction l as [|z l IH]; intros k a b; simpl; auto.
          destruct (k =? 0) eqn:Ek; simpl; rewrite Ek; auto. f_equal; auto. }
        destruct d; simpl; unfold fg_set_edge; simpl; rewrite SS; reflexivity.
      + right. split; auto. exists rin, rout. auto.
      + reflexivity.
  Qed.

  Lemma finish_dir_ok fg0 fg d :
    feq fg0 fg -> raw_ok fg0 d -> slices_ok fg0 d -> fg_edges fg d = fg_edges fg0 d ->
    exists fg', finish_dir c d n fg = Ok fg' /\ feq fg0 fg' /\
      fg_edges fg' (opp d) = fg_edges fg (opp d) /\
      (forall id e0, getN (fg_edges fg0 d) id = Some e0 ->
         exists e, getN (fg_edges fg' d) id = Some e /\ fin fg0 d e0 e).
  Proof.
    intros F Hraw (Hsl & Hbase & Hiff) Hed.
    set (I := fun (i j : N) (fg' : FastGraph) =>
      feq fg0 fg' /\ fg_edges fg' (opp d) = fg_edges fg (opp d) /\
      forall id e0, getN (fg_edges fg0 d) id = Some e0 ->
        exists e, getN (fg_edges fg' d) id = Some e /\
          (if (fe_base e0 <? i) || ((fe_base e0 =? i) && (id <? j)) then fin fg0 d e0 e else e = e0)).
    assert (wp (fun _ => False) (finish_dir c d n fg) (I n 0)) as G.
    { unfold finish_dir. apply (wp_foldM_range _ _ (fun i => I i 0)); [lia| |].
      - split; auto. split; auto. intros id e0 H. rewrite Hed. exists e0. split; auto.
        destruct (N.ltb_spec (fe_base e0) 0); [lia|]. destruct (N.ltb_spec id 0); [lia|].
        rewrite andb_false_r. reflexivity.
      - intros i fg' Hi (F' & Ho' & Hid').
        destruct (Hsl i) as (b & e & Hs & Hbe); [lia|].
        pose proof (feq_slice _ _ _ _ _ _ F' Hs) as Hs'.
        rewrite (slice_begin _ _ _ _ _ Hs'), (slice_end _ _ _ _ _ Hs'). cbn [bind].
        eapply wp_mono.
        + apply (wp_foldM_range _ _ (I i)); [lia| |].
          * split; auto. split; auto. intros id e0 H. destruct (Hid' id e0 H) as (e1 & H1 & H2).
            exists e1. split; auto.
            destruct (N.ltb_spec (fe_base e0) i); simpl in *; auto.
            destruct (N.ltb_spec id 0); [lia|]. rewrite andb_false_r in H2.
            destruct (N.eqb_spec (fe_base e0) i) as [Hb|]; simpl; auto.
            destruct (N.ltb_spec id b) as [Hlt|]; auto. exfalso.
            apply (proj2 (Hiff _ _ _ _ _ H Hs)) in Hb. lia.
          * intros j fg2 Hj (F2 & Ho2 & Hid2).
            destruct (getN_lt (fg_edges fg0 d) j) as (e0 & H0); [lia|].
            assert (fe_base e0 = i) as Hb by (apply (Hiff _ _ _ _ _ H0 Hs); auto).
            destruct (Hid2 _ _ H0) as (e1 & H1 & H2).
            rewrite Hb, N.ltb_irrefl, N.eqb_refl, N.ltb_irrefl in H2. simpl in H2. subst e1.
            destruct (finish_edge_ok fg0 fg2 d i j e0 F2 Hraw H0 Hb H1) as (e1 & -> & Hf & Hc).
            simpl. split; [eapply feq_set; eauto|]. split; [rewrite fg_edges_set_opp; auto|].
            intros id e0' H0'. rewrite fg_edges_set_same, getN_setN.
            destruct (N.eqb_spec j id) as [<-|Hne].
            -- replace e0' with e0 in * by congruence.
               destruct (N.ltb_spec j (lenN (fg_edges fg2 d))) as [_|Hge];
                 [|apply getN_Some_lt in H1; lia].
               exists e1. split; auto. rewrite Hb, N.ltb_irrefl, N.eqb_refl. simpl.
               destruct (N.ltb_spec j (j + 1)); [auto|lia].
            -- destruct (Hid2 _ _ H0') as (e2 & H3 & H4). exists e2. split; auto.
               destruct (fe_base e0' <? i); simpl in *; auto.
               destruct (fe_base e0' =? i); simpl in *; auto.
               destruct (N.ltb_spec id j), (N.ltb_spec id (j + 1)); auto; lia.
        + intros fg2 (F2 & Ho2 & Hid2). split; auto. split; auto.
          intros id e0 H0. destruct (Hid2 _ _ H0) as (e1 & H1 & H2). exists e1. split; auto.
          destruct (N.ltb_spec id 0); [lia|]. rewrite andb_false_r, orb_false_r.
          destruct (N.ltb_spec (fe_base e0) i), (N.ltb_spec (fe_base e0) (i + 1)); simpl in *; auto; try lia.
          * destruct (N.eqb_spec (fe_base e0) i) as [Hb|]; simpl in *; [|lia].
            apply (proj2 (Hiff _ _ _ _ _ H0 Hs)) in Hb.
            destruct (N.ltb_spec id e); [auto|lia].
          * destruct (N.eqb_spec (fe_base e0) i) as [Hb|]; simpl in *; [lia|auto]. }
    destruct (finish_dir c d n fg) as [fg'| |]; simpl in G; try contradiction.
    destruct G as (F' & Ho & Hid). exists fg'. split; auto. split; auto. split; auto.
    intros id e0 H0. destruct (Hid _ _ H0) as (e1 & H1 & H2). exists e1. split; auto.
    specialize (Hbase _ _ H0). destruct (N.ltb_spec (fe_base e0) n); [auto|lia].
  Qed.

  Lemma finish_ok fg0 :
    (forall d, raw_ok fg0 d) -> (forall d, slices_ok fg0 d) ->
    exists fg', finish_contraction c n fg0 = Ok fg' /\ feq fg0 fg' /\
      (forall d id e0, getN (fg_edges fg0 d) id = Some e0 ->
         exists e, getN (fg_edges fg' d) id = Some e /\ fin fg0 d e0 e).
  Proof.
    intros Hraw Hsl. unfold finish_contraction.
    destruct (finish_dir_ok fg0 fg0 Fwd (feq_refl _) (Hraw _) (Hsl _) eq_refl)
      as (fg1 & -> & F1 & Ho1 & H1). cbn [bind].
    destruct (finish_dir_ok fg0 fg1 Bwd F1 (Hraw _) (Hsl _) Ho1)
      as (fg2 & -> & F2 & Ho2 & H2).
    exists fg2. split; auto. split; auto. intros [] id e0 H0; auto.
    simpl in Ho2. simpl in *. rewrite Ho2. apply H1; auto.
  Qed.

  (** looking up an edge id in a slice *)
  Lemma find_edge_id_ok fg d adj : forall ids,
    (forall i, In i ids -> i < lenN (fg_edges fg d)) ->
    (exists i e, In i ids /\ getN (fg_edges fg d) i = Some e /\ fe_adj e = adj) ->
    exists i e, find_edge_id fg d ids adj = Ok i /\ In i ids /\
      getN (fg_edges fg d) i = Some e /\ fe_adj e = adj.
  Proof.
    induction ids as [|j ids IH]; intros Hl (i & e & Hin & He & Ha); [destruct Hin|]. simpl.
    destruct (getN_lt (fg_edges fg d) j) as (ej & Hej); [apply Hl; simpl; auto|].
    rewrite (idx_Some _ _ _ Hej). cbn [bind].
    destruct (N.eqb_spec (fe_adj ej) adj) as [Hj|Hj].
    - exists j, ej. simpl; auto.
    - destruct Hin as [->|Hin]; [congruence|].
      destruct IH as (i' & e' & H1 & H2 & H3); [intros; apply Hl; simpl; auto|eauto|].
      exists i', e'. simpl; auto.
  Qed.
  Lemma get_edge_id_ok fg d v adj b e :
    slice fg d v b e -> e <= lenN (fg_edges fg d) ->
    (exists i ed, b <= i < e /\ getN (fg_edges fg d) i = Some ed /\ fe_adj ed = adj) ->
    exists i ed, get_edge_id fg d v adj = Ok i /\ b <= i < e /\
      getN (fg_edges fg d) i = Some ed /\ fe_adj ed = adj.
  Proof.
    intros Hs He (i & ed & Hi & Hed & Ha). unfold get_edge_id.
    rewrite (slice_begin _ _ _ _ _ Hs), (slice_end _ _ _ _ _ Hs). cbn [bind].
    destruct (find_edge_id_ok fg d adj (rangeN b e)) as (i' & e' & H1 & H2 & H3).
    - intros j Hj. apply rangeN_In in Hj. lia.
    - exists i, ed. rewrite rangeN_In. auto.
    - exists i', e'. rewrite rangeN_In in H2. auto.
  Qed.
End Rep.
