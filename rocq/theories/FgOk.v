(** * FgOk: the invariant of prepared graphs, and its proof from the contraction records *)
From Verif Require Export SimpleFacts.
Open Scope N_scope.

Definition rk (fg : FastGraph) (v : N) : N :=
  match getN (fg_ranks fg) v with Some r => r | None => 0 end.

(** a stored upward edge *)
Definition up (fg : FastGraph) (d : dir) (u v w : N) : Prop :=
  exists id ed, getN (fg_edges fg d) id = Some ed /\ fe_base ed = u /\ fe_adj ed = v /\ fe_weight ed = w.

(** where the edge comes from: an input edge, or two edges at a center of lower rank *)
Definition edge_src (c : cfg) (E : list Edge) (fg : FastGraph) (d : dir) (ed : FastGraphEdge) : Prop :=
  (fe_replaced_in ed = umax c /\ fe_replaced_out ed = umax c /\
   In (mkEdge (fsrc d (fe_base ed) (fe_adj ed)) (fdst d (fe_base ed) (fe_adj ed)) (fe_weight ed)) E) \/
  (exists ei eo,
     fe_replaced_in ed <> umax c /\ fe_replaced_out ed <> umax c /\
     getN (fg_edges fg Bwd) (fe_replaced_in ed) = Some ei /\
     getN (fg_edges fg Fwd) (fe_replaced_out ed) = Some eo /\
     fe_base ei = fe_base eo /\
     fe_adj ei = fsrc d (fe_base ed) (fe_adj ed) /\
     fe_adj eo = fdst d (fe_base ed) (fe_adj ed) /\
     fe_weight ed = fe_weight ei + fe_weight eo /\
     rk fg (fe_base ei) < rk fg (fe_base ed)).

Record fg_base (c : cfg) (E : list Edge) (n : N) (fg : FastGraph) : Prop := mk_fg_base {
  ok_n : fg_num_nodes fg = n;
  ok_cap : n + 1 <= umax c / 2;
  ok_lr : lenN (fg_ranks fg) = n;
  ok_rank : forall v, v < n -> rk fg v < n;
  ok_inj : forall u v, u < n -> v < n -> rk fg u = rk fg v -> u = v;
  ok_lf : forall d, lenN (fg_first_edge_ids fg d) = n + 1;
  ok_first : forall d, getN (fg_first_edge_ids fg d) 0 = Some 0;
  ok_last : forall d, getN (fg_first_edge_ids fg d) n = Some (lenN (fg_edges fg d));
  ok_slice : forall d v, v < n -> exists b e, slice fg d v b e /\ b <= e <= lenN (fg_edges fg d);
  ok_iff : forall d id ed v b e, getN (fg_edges fg d) id = Some ed -> slice fg d v b e ->
     (b <= id < e <-> fe_base ed = v);
  ok_edge : forall d id ed, getN (fg_edges fg d) id = Some ed ->
     fe_base ed < n /\ fe_adj ed < n /\ 1 <= fe_weight ed <= umax c /\
     rk fg (fe_base ed) < rk fg (fe_adj ed);
  ok_uniq : forall d i1 e1 i2 e2, getN (fg_edges fg d) i1 = Some e1 -> getN (fg_edges fg d) i2 = Some e2 ->
     fe_base e1 = fe_base e2 -> fe_adj e1 = fe_adj e2 -> i1 = i2;
  ok_src : forall d id ed, getN (fg_edges fg d) id = Some ed -> edge_src c E fg d ed;
  ok_len : forall d, lenN (fg_edges fg d) <= umax c / 2
}.
Record fg_ok (c : cfg) (E : list Edge) (n : N) (fg : FastGraph) : Prop := mk_fg_ok {
  ok_base :> fg_base c E n fg;
  ok_complete : forall u v W, path (edge_rel E) u v W -> W < umax c ->
     exists m W1 W2, path (up fg Fwd) u m W1 /\ path (up fg Bwd) v m W2 /\ W1 + W2 <= W
}.

(** in case of [full] the stored shortcuts are lighter than all walks over nodes ranked above the
    middle node *)
Definition fg_min (full : Prop) (c : cfg) (E : list Edge) (fg : FastGraph) : Prop :=
  forall d id ed ei, getN (fg_edges fg d) id = Some ed -> fe_replaced_in ed <> umax c ->
    getN (fg_edges fg Bwd) (fe_replaced_in ed) = Some ei -> full ->
    forall ns W, walk E (fsrc d (fe_base ed) (fe_adj ed)) (fdst d (fe_base ed) (fe_adj ed)) ns W ->
      (forall y, In y ns -> rk fg (fe_base ei) < rk fg y) -> fe_weight ed < W.

(** in case of [full] the middle node of a stored shortcut is on a lightest path, and no other node is
    on both sides of it *)
Definition fg_lean (full : Prop) (c : cfg) (E : list Edge) (fg : FastGraph) : Prop :=
  forall d id ed ei, getN (fg_edges fg d) id = Some ed -> fe_replaced_in ed <> umax c ->
    getN (fg_edges fg Bwd) (fe_replaced_in ed) = Some ei -> full ->
    let u := fsrc d (fe_base ed) (fe_adj ed) in let v := fdst d (fe_base ed) (fe_adj ed) in
    between E u (fe_base ei) v /\
    forall y, y <> fe_base ei -> between E u y (fe_base ei) -> between E (fe_base ei) y v -> False.
Definition fg_exact (full : Prop) (c : cfg) (E : list Edge) (fg : FastGraph) : Prop :=
  fg_min full c E fg /\ fg_lean full c E fg.

Lemma rk_get fg n v : lenN (fg_ranks fg) = n -> v < n -> getN (fg_ranks fg) v = Some (rk fg v).
Proof. intros H1 H2. unfold rk. destruct (getN_lt (fg_ranks fg) v) as [r ->]; [lia|auto]. Qed.

Lemma NoDup_cover (l : list N) n : NoDup l -> (forall x, In x l -> x < n) -> lenN l = n ->
  forall v, v < n -> In v l.
Proof.
  intros H1 H2 H3 v Hv.
  assert (incl (rangeN 0 n) l) as Hi.
  { apply NoDup_length_incl; auto.
    - pose proof (lenN_rangeN 0 n) as H4. unfold lenN in *. lia.
    - intros x Hx. apply rangeN_In. specialize (H2 x Hx). lia. }
  apply Hi, rangeN_In. lia.
Qed.

Section Ok.
  Variables (c : cfg) (n : N) (E : list Edge).
  Hypothesis Hcap : n + 1 <= umax c / 2.
  Hypothesis HE : forall e, In e E -> e_weight e <= umax c.

  Variables (g0 gend : PrepGraph) (R : list crec) (fg0 : FastGraph).
  Hypothesis Hg0 : forall u v w, edge_rel E u v w -> arel g0 u v w.
  Hypothesis Hh : hierc c n g0 R gend.
  Hypothesis Hb : binv c n E R gend.
  Hypothesis Hrep : fg_rep c n R fg0.
  Hypothesis Hnd : NoDup (map cnode R).
  Hypothesis HR : lenN R = n.

  Let Hnu : n < umax c.
  Proof. pose proof (N.div_le_upper_bound (umax c) 2 (umax c)). lia. Qed.

  Lemma rec_node_lt r : In r R -> cnode r < n.
  Proof.
    intros Hr. apply in_split in Hr as (R1 & R2 & H).
    apply (ro_node _ _ _ _ _ (bi_rec _ _ _ _ _ Hb _ _ _ H)).
  Qed.
  Lemma rec_of v : v < n -> exists R1 r R2, R = R1 ++ r :: R2 /\ cnode r = v.
  Proof.
    intros Hv. assert (In v (map cnode R)) as Hin.
    { apply (NoDup_cover _ n); auto.
      - intros x Hx. apply in_map_iff in Hx as (r & <- & Hr). apply rec_node_lt; auto.
      - rewrite lenN_map. auto. }
    apply in_map_iff in Hin as (r & <- & Hr). apply in_split in Hr as (R1 & R2 & H). eauto.
  Qed.
  Lemma rec_rank R1 r R2 : R = R1 ++ r :: R2 -> getN (fg_ranks fg0) (cnode r) = Some (lenN R1).
  Proof.
    intros H. apply (rp_rank _ _ _ _ Hrep _ _ _ H). rewrite H in Hnd. apply NoDup_mid in Hnd. tauto.
  Qed.
  Lemma rec_rk R1 r R2 : R = R1 ++ r :: R2 -> rk fg0 (cnode r) = lenN R1.
  Proof. intros H. unfold rk. rewrite (rec_rank _ _ _ H). auto. Qed.

  Lemma rep_lookup d R1 r R2 a : R = R1 ++ r :: R2 -> In a (carcs d r) ->
    exists id, get_edge_id fg0 d (cnode r) (a_adj a) = Ok id /\
      getN (fg_edges fg0 d) id = Some (enc c (cnode r) a).
  Proof.
    intros H Ha. pose proof (rep_slice c n R fg0 d R1 r R2 Hrep Hnd H) as Hs.
    destruct (In_getN _ _ Ha) as (j & Hj & Hget).
    pose proof (rep_edge c n R fg0 d R1 r R2 j a Hrep H Hget) as He.
    destruct (get_edge_id_ok fg0 d (cnode r) (a_adj a) _ _ Hs) as (i & ed & H1 & H2 & H3 & H4).
    - rewrite (rp_edges _ _ _ _ Hrep), H, edg_app, edg_cons, !lenN_app, lenN_map. lia.
    - exists (lenN (edg c d R1) + j), (enc c (cnode r) a). split; [lia|]. auto.
    - exists i. split; auto. replace ed with (enc c (cnode r) a) in H3; auto.
      destruct (getN_lt (carcs d r) (i - lenN (edg c d R1))) as (a' & Ha'); [lia|].
      pose proof (rep_edge c n R fg0 d R1 r R2 _ a' Hrep H Ha') as He'.
      replace (lenN (edg c d R1) + (i - lenN (edg c d R1))) with i in He' by lia.
      rewrite H3 in He'. injection He' as ->. simpl in H4.
      f_equal. eapply NoDup_adj_inj; [|exact Ha|eapply getN_In; eauto|congruence].
      apply (ro_nodup _ _ _ _ _ (bi_rec _ _ _ _ _ Hb _ _ _ H)).
  Qed.

  Lemma edge_inv0 d id ed : getN (fg_edges fg0 d) id = Some ed ->
    exists R1 r R2 j a, R = R1 ++ r :: R2 /\ getN (carcs d r) j = Some a /\
      id = lenN (edg c d R1) + j /\ ed = enc c (cnode r) a.
  Proof. rewrite (rp_edges _ _ _ _ Hrep). apply edg_inv. Qed.

  Lemma slices_ok0 d : slices_ok n fg0 d.
  Proof.
    split; [|split].
    - intros v Hv. destruct (rec_of v Hv) as (R1 & r & R2 & H & <-).
      exists (lenN (edg c d R1)), (lenN (edg c d R1) + lenN (carcs d r)). split.
      + apply (rep_slice c n R fg0 d R1 r R2 Hrep Hnd H).
      + rewrite (rp_edges _ _ _ _ Hrep), H, edg_app, edg_cons, !lenN_app, lenN_map. lia.
    - intros id ed He. apply edge_inv0 in He as (R1 & r & R2 & j & a & H & _ & _ & ->). simpl.
      apply rec_node_lt. rewrite H. apply in_app_iff; simpl; auto.
    - intros id ed v b e He Hs. apply edge_inv0 in He as (R1 & r & R2 & j & a & H & Hj & -> & ->). simpl.
      apply getN_Some_lt in Hj. split.
      + intros Hid. destruct (N.lt_ge_cases v n) as [Hv|Hv].
        * destruct (rec_of v Hv) as (R1' & r' & R2' & H' & <-).
          pose proof (rep_slice c n R fg0 d R1' r' R2' Hrep Hnd H') as Hs'.
          destruct (slice_fun _ _ _ _ _ _ _ Hs Hs') as [-> ->].
          rewrite H in H'. clear Hs Hs'.
          (* compare the two splits *)
          assert (forall (A1 : list crec) x A2 B1 y B2, A1 ++ x :: A2 = B1 ++ y :: B2 ->
            (A1 = B1 /\ x = y) \/ (exists l, B1 = A1 ++ x :: l) \/ (exists l, A1 = B1 ++ y :: l)) as cmp.
          { clear. induction A1 as [|z A1 IH]; intros x A2 B1 y B2 H; destruct B1 as [|z' B1]; simpl in H.
            - injection H as -> ->. auto.
            - injection H as -> ->. right; left. exists B1. reflexivity.
            - injection H as -> <-. right; right. exists A1. reflexivity.
            - injection H as -> H. apply IH in H as [[-> ->]|[[l ->]|[l ->]]]; auto.
              + right; left. exists l. reflexivity.
              + right; right. exists l. reflexivity. }
          apply cmp in H' as [[_ ->]|[[l ->]|[l ->]]]; auto; exfalso;
            rewrite edg_app, edg_cons, !lenN_app, lenN_map in Hid; lia.
        * exfalso. destruct Hs as (rr & Hr & _). apply getN_Some_lt in Hr.
          rewrite (rp_lr _ _ _ _ Hrep) in Hr. lia.
      + intros <-. pose proof (rep_slice c n R fg0 d R1 r R2 Hrep Hnd H) as Hs'.
        destruct (slice_fun _ _ _ _ _ _ _ Hs Hs') as [-> ->]. lia.
  Qed.

  Lemma arc_src d R1 r R2 a : R = R1 ++ r :: R2 -> In a (carcs d r) ->
    (a_center a = umax c /\ In (mkEdge (fsrc d (cnode r) (a_adj a)) (fdst d (cnode r) (a_adj a)) (a_weight a)) E) \/
    (a_center a <> umax c /\ a_weight a < umax c /\ exists rin rout ei eo,
       get_edge_id fg0 Bwd (a_center a) (fsrc d (cnode r) (a_adj a)) = Ok rin /\
       get_edge_id fg0 Fwd (a_center a) (fdst d (cnode r) (a_adj a)) = Ok rout /\
       getN (fg_edges fg0 Bwd) rin = Some ei /\ getN (fg_edges fg0 Fwd) rout = Some eo /\
       fe_base ei = a_center a /\ fe_base eo = a_center a /\
       fe_adj ei = fsrc d (cnode r) (a_adj a) /\ fe_adj eo = fdst d (cnode r) (a_adj a) /\
       a_weight a = fe_weight ei + fe_weight eo /\ rk fg0 (a_center a) < rk fg0 (cnode r)).
  Proof.
    intros H Ha. pose proof (bi_rec _ _ _ _ _ Hb _ _ _ H) as Hr.
    apply (ro_arc _ _ _ _ _ Hr) in Ha as (_ & _ & _ & _ & Hg).
    assert (agood c n E R1 (fsrc d (cnode r) (a_adj a)) (fdst d (cnode r) (a_adj a)) (a_weight a) (a_center a)) as G
      by (destruct d; exact Hg).
    destruct G as [G|(Hk & Hw & r' & w1 & k1 & w2 & k2 & Hin & Hc & H1 & H2 & Hsum)]; [left; auto|].
    right. split; [lia|]. split; auto.
    apply in_split in Hin as (R1a & R1b & HR1). subst R1. rewrite <- app_assoc in H. simpl in H.
    destruct (rep_lookup Bwd _ _ _ _ H H1) as (rin & G1 & G2).
    destruct (rep_lookup Fwd _ _ _ _ H H2) as (rout & G3 & G4).
    rewrite Hc in *. simpl in G1, G3.
    exists rin, rout, (enc c (a_center a) (mkArc (fsrc d (cnode r) (a_adj a)) w1 k1)),
      (enc c (a_center a) (mkArc (fdst d (cnode r) (a_adj a)) w2 k2)).
    simpl. repeat (split; auto).
    rewrite <- Hc. rewrite (rec_rk _ _ _ H).
    assert (R = (R1a ++ r' :: R1b) ++ r :: R2) as H' by (rewrite <- app_assoc; exact H).
    rewrite (rec_rk _ _ _ H'). rewrite lenN_app, lenN_cons. lia.
  Qed.

  Lemma raw_ok0 d : raw_ok c fg0 d.
  Proof.
    intros id ed He. apply edge_inv0 in He as (R1 & r & R2 & j & a & H & Hj & _ & ->). simpl.
    split; auto. intros Hc. apply getN_In in Hj.
    destruct (arc_src d _ _ _ _ H Hj) as [[G _]|(_ & _ & rin & rout & ei & eo & G1 & G2 & _)]; [congruence|eauto].
  Qed.

  Lemma feq_rk fg v : feq fg0 fg -> rk fg v = rk fg0 v.
  Proof. intros F. unfold rk. rewrite (fq_r _ _ F). auto. Qed.
  Lemma feq_edge fg d id ed : feq fg0 fg -> getN (fg_edges fg d) id = Some ed ->
    exists e0, getN (fg_edges fg0 d) id = Some e0 /\ core e0 = core ed.
  Proof.
    intros F H. pose proof (fq_e _ _ F d id) as G. rewrite H in G. simpl in G.
    destruct (getN (fg_edges fg0 d) id) as [e0|]; [|discriminate]. exists e0. split; auto. simpl in G. congruence.
  Qed.
  Lemma feq_edge' fg d id ed : feq fg0 fg -> getN (fg_edges fg0 d) id = Some ed ->
    exists e0, getN (fg_edges fg d) id = Some e0 /\ core e0 = core ed.
  Proof.
    intros F H. pose proof (fq_e _ _ F d id) as G. rewrite H in G. simpl in G.
    destruct (getN (fg_edges fg d) id) as [e0|]; [|discriminate]. exists e0. split; auto. simpl in G. congruence.
  Qed.
  Lemma feq_len fg d : feq fg0 fg -> lenN (fg_edges fg d) = lenN (fg_edges fg0 d).
  Proof.
    intros F. destruct (N.lt_trichotomy (lenN (fg_edges fg d)) (lenN (fg_edges fg0 d))) as [Hl|[Hl|Hl]]; auto; exfalso.
    - destruct (getN_lt _ _ Hl) as (ed & He). destruct (feq_edge' _ _ _ _ F He) as (e0 & H0 & _).
      apply getN_Some_lt in H0. lia.
    - destruct (getN_lt _ _ Hl) as (ed & He). destruct (feq_edge _ _ _ _ F He) as (e0 & H0 & _).
      apply getN_Some_lt in H0. lia.
  Qed.

  Lemma isolated_end : forall u, outs gend u = [].
  Proof.
    intros u. destruct (N.lt_ge_cases u n) as [Hu|Hu].
    - apply (bi_iso _ _ _ _ _ Hb). destruct (rec_of u Hu) as (R1 & r & R2 & H & <-).
      apply in_map. rewrite H. apply in_app_iff; simpl; auto.
    - unfold outs. rewrite getN_None; auto. rewrite (wf_lo _ _ (bi_wf _ _ _ _ _ Hb)). lia.
  Qed.

  Lemma finish_fg_ok : exists fg, finish_contraction c n fg0 = Ok fg /\ fg_ok c E n fg /\
    fg_ranks fg = fg_ranks fg0.
  Proof.
    destruct (finish_ok c n fg0 raw_ok0 slices_ok0) as (fg & Hf & F & Hfin).
    exists fg. split; auto. split; [|apply (fq_r _ _ F)].
    assert (forall d, lenN (fg_edges fg d) = lenN (fg_edges fg0 d)) as Hlen by (intros; apply feq_len; auto).
    constructor; [constructor|].
    - rewrite (fq_n _ _ F). apply (rp_n _ _ _ _ Hrep).
    - auto.
    - rewrite (fq_r _ _ F). apply (rp_lr _ _ _ _ Hrep).
    - intros v Hv. rewrite feq_rk by auto. destruct (rec_of v Hv) as (R1 & r & R2 & H & <-).
      rewrite (rec_rk _ _ _ H), <- HR, H, lenN_app, lenN_cons. lia.
    - intros u v Hu Hv. rewrite !(feq_rk fg) by auto.
      destruct (rec_of u Hu) as (R1 & r & R2 & H & <-). destruct (rec_of v Hv) as (R1' & r' & R2' & H' & <-).
      rewrite (rec_rk _ _ _ H), (rec_rk _ _ _ H'). intros Hl.
      assert (getN R (lenN R1) = Some r) as G1.
      { rewrite H, getN_app2, N.sub_diag by lia. reflexivity. }
      assert (getN R (lenN R1') = Some r') as G2.
      { rewrite H', getN_app2, N.sub_diag by lia. reflexivity. }
      rewrite <- Hl, G1 in G2. congruence.
    - intros d. rewrite (fq_f _ _ F). apply (rp_lf _ _ _ _ Hrep).
    - intros d. rewrite (fq_f _ _ F). apply (rp_first _ _ _ _ Hrep d [] R eq_refl).
    - intros d. rewrite (fq_f _ _ F), Hlen.
      pose proof (rp_first _ _ _ _ Hrep d R [] (eq_sym (app_nil_r R))) as G. rewrite HR in G.
      rewrite (rp_edges _ _ _ _ Hrep). auto.
    - intros d v Hv. destruct (slices_ok0 d) as (G & _). destruct (G v Hv) as (b & e & Hs & Hbe).
      exists b, e. rewrite Hlen. split; auto. eapply feq_slice; eauto.
    - intros d id ed v b e He (r & S1 & S2 & S3). destruct (feq_edge _ _ _ _ F He) as (e0 & H0 & Hc).
      unfold core in Hc. injection Hc as Hc1 Hc2 Hc3. rewrite <- Hc1.
      apply (slices_ok0 d) with (id := id); auto. exists r. rewrite <- (fq_r _ _ F), <- (fq_f _ _ F). auto.
    - intros d id ed He. rewrite !(feq_rk fg) by auto. destruct (feq_edge _ _ _ _ F He) as (e0 & H0 & Hc).
      unfold core in Hc. injection Hc as Hc1 Hc2 Hc3. rewrite <- Hc1, <- Hc2, <- Hc3.
      apply edge_inv0 in H0 as (R1 & r & R2 & j & a & H & Hj & _ & ->). simpl.
      apply getN_In in Hj. pose proof (bi_rec _ _ _ _ _ Hb _ _ _ H) as Hr.
      pose proof (ro_arc _ _ _ _ _ Hr d a Hj) as (Ha1 & Ha2 & Ha3 & Ha4 & _).
      split; [apply (ro_node _ _ _ _ _ Hr)|]. split; auto. split.
      + split; auto. destruct (arc_src d _ _ _ _ H Hj) as [(_ & G)|(_ & G & _)]; [|lia].
        apply HE in G. auto.
      + destruct (rec_of (a_adj a) Ha1) as (R1' & r' & R2' & H' & Hr').
        rewrite <- Hr'. rewrite (rec_rk _ _ _ H), (rec_rk _ _ _ H').
        assert (In r' R2) as Hin2.
        { assert (In r' (R1 ++ r :: R2)) as Hin by (rewrite <- H, H'; apply in_app_iff; simpl; auto).
          apply in_app_iff in Hin as [Hin|[<-|Hin]]; auto.
          - exfalso. apply Ha3. rewrite <- Hr'. apply in_map; auto.
          - congruence. }
        apply in_split in Hin2 as (A & B & ->).
        assert (R = (R1 ++ r :: A) ++ r' :: B) as H2 by (rewrite <- app_assoc; exact H).
        rewrite H' in H2. apply (NoDup_split_eq cnode) in H2 as (-> & _ & _); auto; [|rewrite <- H'; auto].
        rewrite lenN_app, lenN_cons. lia.
    - intros d i1 e1 i2 e2 G1 G2 Hbase Hadj.
      destruct (feq_edge _ _ _ _ F G1) as (x1 & X1 & Y1). destruct (feq_edge _ _ _ _ F G2) as (x2 & X2 & Y2).
      unfold core in Y1, Y2. injection Y1 as Y1a Y1b _. injection Y2 as Y2a Y2b _.
      apply edge_inv0 in X1 as (R1 & r & R2 & j & a & H & Hj & -> & ->).
      apply edge_inv0 in X2 as (R1' & r' & R2' & j' & a' & H' & Hj' & -> & ->). simpl in *.
      assert (R1 ++ r :: R2 = R1' ++ r' :: R2') as Heq by congruence.
      apply (NoDup_split_eq cnode) in Heq as (<- & <- & <-); [|congruence|rewrite <- H; auto].
      f_equal. pose proof (ro_nodup _ _ _ _ _ (bi_rec _ _ _ _ _ Hb _ _ _ H) d) as ND.
      assert (getN (map a_adj (carcs d r)) j = Some (a_adj a)) as K1 by (rewrite getN_map, Hj; auto).
      assert (getN (map a_adj (carcs d r)) j' = Some (a_adj a)) as K2
        by (rewrite getN_map, Hj'; simpl; f_equal; congruence).
      rewrite getN_nth in K1, K2.
      apply N2Nat.inj. eapply (proj1 (NoDup_nth_error _) ND); [apply nth_error_Some; congruence|congruence].
    - intros d id ed He. destruct (feq_edge _ _ _ _ F He) as (e0 & H0 & Hc).
      destruct (Hfin _ _ _ H0) as (ed' & He' & Hfn). assert (ed' = ed) by congruence. subst ed'. clear He'.
      apply edge_inv0 in H0 as (R1 & r & R2 & j & a & H & Hj & _ & ->). apply getN_In in Hj.
      unfold edge_src. destruct Hfn as [[Hk ->]|(Hk & rin & rout & G1 & G2 & ->)]; simpl in *.
      + left. split; auto. split; auto. destruct (arc_src d _ _ _ _ H Hj) as [(_ & G)|(G & _)]; [auto|congruence].
      + right. destruct (arc_src d _ _ _ _ H Hj) as
          [(G & _)|(_ & _ & rin' & rout' & ei & eo & K1 & K2 & K3 & K4 & K5 & K6 & K7 & K8 & K9 & K10)]; [congruence|].
        assert (rin' = rin) by congruence. assert (rout' = rout) by congruence. subst.
        destruct (feq_edge' _ _ _ _ F K3) as (ei' & L1 & M1). destruct (feq_edge' _ _ _ _ F K4) as (eo' & L2 & M2).
        unfold core in M1, M2. injection M1 as M1a M1b M1c. injection M2 as M2a M2b M2c.
        exists ei', eo'. rewrite !(feq_rk fg) by auto.
        pose proof (rp_cap _ _ _ _ Hrep Bwd). pose proof (rp_cap _ _ _ _ Hrep Fwd).
        pose proof (getN_Some_lt _ _ _ K3). pose proof (getN_Some_lt _ _ _ K4).
        assert (umax c / 2 <= umax c) by (apply N.div_le_upper_bound; lia).
        repeat split; auto; try congruence; try lia.
    - intros d. rewrite Hlen. apply (rp_cap _ _ _ _ Hrep).
    - intros u v W Hp HW.
      assert (path (arel g0) u v W) as Hp0 by (eapply path_sub; eauto).
      destruct (hierc_complete c n g0 R gend Hh isolated_end u v W Hp0 HW) as (m & W1 & W2 & P1 & P2 & Hle).
      assert (forall d a b w, upr R d a b w -> up fg d a b w) as Hup.
      { intros d a b w (r & k & Hr & <- & Hin). apply in_split in Hr as (R1 & R2 & H).
        apply In_getN in Hin as (j & _ & Hj).
        pose proof (rep_edge c n R fg0 d R1 r R2 j _ Hrep H Hj) as He.
        destruct (feq_edge' _ _ _ _ F He) as (ed & Hed & Hc). unfold core in Hc. injection Hc as C1 C2 C3.
        eexists _, ed. eauto. }
      exists m, W1, W2. split; [|split; auto]; (eapply path_sub; [|eauto]; auto).
  Qed.

  Variable full : Prop.
  Hypothesis Hmin : bmin c E full R gend.

  Lemma walk_erx (P : N -> Prop) u v ns W : walk E u v ns W -> (forall y, In y ns -> P y) -> path (erx E P) u v W.
  Proof.
    induction 1 as [u|u v t w ns W He Hw IH]; intros Hns; [constructor|].
    econstructor; [|apply IH; intros y Hy; apply Hns; right; auto].
    split; auto. split; [apply Hns; left; auto|]. apply Hns. right. inversion Hw; left; auto.
  Qed.

  Lemma finish_fg_min fg : finish_contraction c n fg0 = Ok fg -> fg_min full c E fg.
  Proof.
    intros Hf. destruct (finish_ok c n fg0 raw_ok0 slices_ok0) as (fg' & Hf' & F & Hfin).
    assert (fg' = fg) by congruence. subst fg'. clear Hf'.
    intros d id ed ei He Hne Hei Hfull ns W Hwalk Hns.
    destruct (feq_edge _ _ _ _ F He) as (e0 & H0 & Hc).
    destruct (Hfin _ _ _ H0) as (ed' & He' & Hfn). assert (ed' = ed) by congruence. subst ed'. clear He'.
    apply edge_inv0 in H0 as (R1 & r & R2 & j & a & H & Hj & _ & ->). apply getN_In in Hj.
    destruct Hfn as [[Hk ->]|(Hk & rin & rout & G1 & G2 & ->)]; simpl in *; [congruence|].
    destruct (arc_src d _ _ _ _ H Hj) as
      [(G & _)|(_ & _ & rin' & rout' & ei0 & eo & K1 & K2 & K3 & K4 & K5 & K6 & K7 & K8 & K9 & K10)]; [congruence|].
    assert (rin' = rin) by congruence. subst rin'.
    destruct (feq_edge' _ _ _ _ F K3) as (ei' & L1 & M1). simpl in L1.
    assert (ei' = ei) by congruence. subst ei'.
    unfold core in M1. injection M1 as M1a M1b M1c.
    assert (amin c E full R1 (fsrc d (cnode r) (a_adj a)) (fdst d (cnode r) (a_adj a)) (a_weight a) (a_center a)) as Ham.
    { pose proof (bm_rec _ _ _ _ _ Hmin _ _ _ d a H Hj) as G. destruct d; exact G. }
    destruct Ham as [Ham|(R1a & r' & R1b & -> & Hcn & Ham)]; [congruence|].
    apply (Ham Hfull). eapply walk_erx; [exact Hwalk|]. intros y Hy Hin.
    specialize (Hns y Hy). rewrite !(feq_rk fg) in Hns by auto.
    rewrite M1a, K5, <- Hcn in Hns. rewrite <- app_assoc in H. simpl in H. rewrite (rec_rk _ _ _ H) in Hns.
    apply in_map_iff in Hin as (ry & <- & Hry). apply in_app_iff in Hry as [Hry|[<-|[]]].
    - apply in_split in Hry as (A & B & ->). rewrite <- app_assoc in H. simpl in H.
      rewrite (rec_rk _ _ _ H) in Hns. rewrite lenN_app, lenN_cons in Hns. lia.
    - rewrite (rec_rk _ _ _ H) in Hns. lia.
  Qed.

  Hypothesis Hlean : bsimp c E full R gend.
  Lemma finish_fg_exact fg : finish_contraction c n fg0 = Ok fg -> fg_exact full c E fg.
  Proof.
    intros Hf. split; [apply finish_fg_min; auto|].
    destruct (finish_ok c n fg0 raw_ok0 slices_ok0) as (fg' & Hf' & F & Hfin).
    assert (fg' = fg) by congruence. subst fg'. clear Hf'.
    intros d id ed ei He Hne Hei Hfull.
    destruct (feq_edge _ _ _ _ F He) as (e0 & H0 & Hc).
    destruct (Hfin _ _ _ H0) as (ed' & He' & Hfn). assert (ed' = ed) by congruence. subst ed'. clear He'.
    apply edge_inv0 in H0 as (R1 & r & R2 & j & a & H & Hj & _ & ->). apply getN_In in Hj.
    destruct Hfn as [[Hk ->]|(Hk & rin & rout & G1 & G2 & ->)]; simpl in *; [congruence|].
    destruct (arc_src d _ _ _ _ H Hj) as
      [(G & _)|(_ & _ & rin' & rout' & ei0 & eo & K1 & K2 & K3 & K4 & K5 & K6 & K7 & K8 & K9 & K10)]; [congruence|].
    assert (rin' = rin) by congruence. subst rin'.
    destruct (feq_edge' _ _ _ _ F K3) as (ei' & L1 & M1). simpl in L1.
    assert (ei' = ei) by congruence. subst ei'.
    unfold core in M1. injection M1 as M1a M1b M1c. rewrite M1a, K5.
    assert (In r R) as Hr by (rewrite H; apply in_app_iff; simpl; auto).
    destruct (sp_rec _ _ _ _ _ Hlean _ d _ Hr Hj) as [G|G]; [congruence|]. apply G; auto.
  Qed.
End Ok.
