(** * RelFacts: preparation in both build modes, without bounds on the weights *)
From Verif Require Export RelContract.
From Coq Require Import Permutation.
Open Scope N_scope.

(** where a stored edge comes from; weights are added modulo [umax + 1] *)
Definition edge_mod (c : cfg) (E : list Edge) (fg : FastGraph) (d : dir) (ed : FastGraphEdge) : Prop :=
  (fe_replaced_in ed = umax c /\ fe_replaced_out ed = umax c /\
   In (mkEdge (fsrc d (fe_base ed) (fe_adj ed)) (fdst d (fe_base ed) (fe_adj ed)) (fe_weight ed)) E) \/
  (exists ei eo,
     fe_replaced_in ed <> umax c /\ fe_replaced_out ed <> umax c /\
     getN (fg_edges fg Bwd) (fe_replaced_in ed) = Some ei /\
     getN (fg_edges fg Fwd) (fe_replaced_out ed) = Some eo /\
     fe_base ei = fe_base eo /\
     fe_adj ei = fsrc d (fe_base ed) (fe_adj ed) /\
     fe_adj eo = fdst d (fe_base ed) (fe_adj ed) /\
     rk fg (fe_base ei) < rk fg (fe_base ed) /\
     fe_weight ed = (fe_weight ei + fe_weight eo) mod (umax c + 1)).

Lemma edge_mod_str c E fg d ed : edge_mod c E fg d ed -> edge_str c E fg d ed.
Proof.
  intros [(A & B & G)|(ei & eo & G)]; [left; eauto|]. right. exists ei, eo. tauto.
Qed.

(** what is true of all prepared graphs, whatever the weights *)
Record fg_shape (c : cfg) (E : list Edge) (n : N) (fg : FastGraph) : Prop := mk_fg_shape {
  sh_n : fg_num_nodes fg = n;
  sh_cap : n + 1 <= umax c / 2;
  sh_lr : lenN (fg_ranks fg) = n;
  sh_rank : forall v, v < n -> rk fg v < n;
  sh_inj : forall u v, u < n -> v < n -> rk fg u = rk fg v -> u = v;
  sh_lf : forall d, lenN (fg_first_edge_ids fg d) = n + 1;
  sh_first : forall d, getN (fg_first_edge_ids fg d) 0 = Some 0;
  sh_last : forall d, getN (fg_first_edge_ids fg d) n = Some (lenN (fg_edges fg d));
  sh_slice : forall d v, v < n -> exists b e, slice fg d v b e /\ b <= e <= lenN (fg_edges fg d);
  sh_iff : forall d id ed v b e, getN (fg_edges fg d) id = Some ed -> slice fg d v b e ->
     (b <= id < e <-> fe_base ed = v);
  sh_edge : forall d id ed, getN (fg_edges fg d) id = Some ed ->
     fe_base ed < n /\ fe_adj ed < n /\ rk fg (fe_base ed) < rk fg (fe_adj ed);
  sh_uniq : forall d i1 e1 i2 e2, getN (fg_edges fg d) i1 = Some e1 -> getN (fg_edges fg d) i2 = Some e2 ->
     fe_base e1 = fe_base e2 -> fe_adj e1 = fe_adj e2 -> i1 = i2;
  sh_mod : forall d id ed, getN (fg_edges fg d) id = Some ed -> edge_mod c E fg d ed;
  sh_len : forall d, lenN (fg_edges fg d) <= umax c / 2
}.
Lemma shape_str c E n fg : fg_shape c E n fg -> fg_str c E n fg.
Proof.
  intros S. pose proof (sh_cap _ _ _ _ S) as Hc. pose proof (N.mul_div_le (umax c) 2) as Hh.
  assert (umax c / 2 < umax c) as Hlt by (apply N.div_lt; lia).
  destruct S. constructor; auto; try lia.
  - intros d id ed v b e G1 G2 G3. apply (sh_iff0 d id ed v b e G1 G2). auto.
  - intros d id ed G. apply edge_mod_str. eauto.
  - intros d. specialize (sh_len0 d). lia.
Qed.

Section RelRec.
  Variables (c : cfg) (n : N) (E : list Edge).

  Definition rgood (R : list crec) (u v w k : N) : Prop :=
    (k = umax c /\ In (mkEdge u v w) E) \/
    (k < n /\ exists r w1 k1 w2 k2, In r R /\ cnode r = k /\
       In (mkArc u w1 k1) (carcs Bwd r) /\ In (mkArc v w2 k2) (carcs Fwd r) /\ w = (w1 + w2) mod (umax c + 1)).

  Lemma rgood_incl R R' u v w k : incl R R' -> rgood R u v w k -> rgood R' u v w k.
  Proof.
    intros Hi [H|(Hk & r & w1 & k1 & w2 & k2 & Hin & H)]; [left; auto|].
    right. split; auto. exists r, w1, k1, w2, k2. split; auto.
  Qed.

  Definition rpgood (R : list crec) (d : dir) (x : N) (a : Arc) : Prop :=
    rgood R (fsrc d x (a_adj a)) (fdst d x (a_adj a)) (a_weight a) (a_center a).

  Record rrec (R : list crec) (r : crec) : Prop := mk_rrec {
    rr_node : cnode r < n;
    rr_nodup : forall d, NoDup (map a_adj (carcs d r));
    rr_arc : forall d a, In a (carcs d r) ->
       a_adj a < n /\ a_adj a <> cnode r /\ ~ In (a_adj a) (map cnode R) /\ rpgood R d (cnode r) a
  }.
  Definition rrecs (R : list crec) : Prop := forall R1 r R2, R = R1 ++ r :: R2 -> rrec R1 r.

  Lemma rrecs_nil : rrecs [].
  Proof. intros R1 r R2 H. destruct R1; discriminate. Qed.
  Lemma rrecs_snoc R r : rrecs R -> rrec R r -> rrecs (R ++ [r]).
  Proof.
    intros H1 H2 R1 r' R2 H. destruct (exists_last (l := r' :: R2)) as (l & y & Hl); [discriminate|].
    rewrite Hl, app_assoc in H. apply app_inj_tail in H as [HR <-].
    destruct R2 as [|z R2].
    - destruct l as [|a l]; [|destruct l; discriminate]. injection Hl as <-.
      rewrite app_nil_r in HR. subst; auto.
    - destruct l as [|a l]; [discriminate|]. injection Hl as <- Hl. subst R.
      eapply H1; eauto.
  Qed.

  Record rinv (R : list crec) (g : PrepGraph) : Prop := mk_rinv {
    ri_wf : pg_str n g;
    ri_arc : forall u v w k, In (mkArc v w k) (outs g u) -> rgood R u v w k;
    ri_iso : forall x, In x (map cnode R) -> outs g x = [] /\ ins g x = [];
    ri_rec : rrecs R
  }.

  Lemma rinv_step R g x g' : rinv R g -> x < n -> cstr c n g x g' -> rinv (R ++ [(x, outs g x, ins g x)]) g'.
  Proof.
    intros [Hw Ha Hi Hr] Hx Hs.
    assert (rrec R (x, outs g x, ins g x)) as Hrec.
    { constructor; simpl; auto.
      - intros []; simpl; [apply (wf_ndo _ _ Hw)|apply (wf_ndi _ _ Hw)].
      - intros [] [v w k] Hin; simpl in *.
        + pose proof (wf_arc _ _ Hw _ _ _ _ Hin) as (H1 & H2 & H3). split; auto. split; auto. split; [|apply Ha; auto].
          intros HR. apply Hi in HR as [_ HR]. apply (wf_sym _ _ Hw) in Hin. rewrite HR in Hin.
          destruct Hin.
        + apply (wf_sym _ _ Hw) in Hin.
          pose proof (wf_arc _ _ Hw _ _ _ _ Hin) as (H1 & H2 & H3).
          pose proof (outs_src _ _ _ _ _ _ Hw Hin). split; auto. split; auto. split; [|apply Ha; auto].
          intros HR. apply Hi in HR as [HR _]. rewrite HR in Hin. destruct Hin. }
    constructor.
    - apply (ct_wf _ _ _ _ _ Hs).
    - intros u v w k Hin.
      apply (ct_origin _ _ _ _ _ Hs) in Hin as (Hu & Hv & [Hin|(-> & w1 & k1 & w2 & k2 & H1 & H2 & ->)]).
      + eapply rgood_incl; [|apply Ha; eauto]. apply incl_appl, incl_refl.
      + right. split; auto. exists (x, outs g x, ins g x), w1, k1, w2, k2.
        simpl. repeat split; auto.
        * apply in_app_iff; simpl; auto.
        * apply (wf_sym _ _ Hw). auto.
    - assert (outs g' x = [] /\ ins g' x = []) as Hx'.
      { split; [apply (ct_out _ _ _ _ _ Hs)|apply (ct_in _ _ _ _ _ Hs)]. }
      intros y Hy. rewrite map_app, in_app_iff in Hy. simpl in Hy.
      destruct Hy as [Hy|[Hy|[]]]; [|unfold cnode in Hy; simpl in Hy; subst y; auto].
      destruct (Hi y Hy) as [Ho Hin].
      destruct (N.eq_dec y x) as [->|Hyx]; auto.
      split.
      + destruct (outs g' y) as [|[v w k] l] eqn:El; auto. exfalso.
        assert (In (mkArc v w k) (outs g' y)) as Hin' by (rewrite El; simpl; auto).
        apply (ct_origin _ _ _ _ _ Hs) in Hin' as (Hu & Hv & [H1|(-> & w1 & k1 & w2 & k2 & H1 & H2 & ->)]);
          rewrite Ho in H1; destruct H1.
      + destruct (ins g' y) as [|[v w k] l] eqn:El; auto. exfalso.
        assert (In (mkArc v w k) (ins g' y)) as Hin' by (rewrite El; simpl; auto).
        apply (wf_sym _ _ (ct_wf _ _ _ _ _ Hs)) in Hin'.
        apply (ct_origin _ _ _ _ _ Hs) in Hin' as (Hu & Hv & [H1|(-> & w1 & k1 & w2 & k2 & H1 & H2 & ->)]).
        * apply (wf_sym _ _ Hw) in H1. rewrite Hin in H1. destruct H1.
        * apply (wf_sym _ _ Hw) in H2. rewrite Hin in H2. destruct H2.
    - apply rrecs_snoc; auto.
  Qed.
End RelRec.

Section RelOk.
  Variables (c : cfg) (n : N) (E : list Edge).
  Hypothesis Hcap : n + 1 <= umax c / 2.
  Variables (gend : PrepGraph) (R : list crec) (fg0 : FastGraph).
  Hypothesis Hb : rinv c n E R gend.
  Hypothesis Hrep : fg_rep c n R fg0.
  Hypothesis Hnd : NoDup (map cnode R).
  Hypothesis HR : lenN R = n.

  Let Hnu : n < umax c.
  Proof. pose proof (N.div_le_upper_bound (umax c) 2 (umax c)). lia. Qed.

  Lemma q_node_lt r : In r R -> cnode r < n.
  Proof.
    intros Hr. apply in_split in Hr as (R1 & R2 & H).
    apply (rr_node _ _ _ _ _ (ri_rec _ _ _ _ _ Hb _ _ _ H)).
  Qed.
  Lemma q_of v : v < n -> exists R1 r R2, R = R1 ++ r :: R2 /\ cnode r = v.
  Proof.
    intros Hv. assert (In v (map cnode R)) as Hin.
    { apply (NoDup_cover _ n); auto.
      - intros x Hx. apply in_map_iff in Hx as (r & <- & Hr). apply q_node_lt; auto.
      - rewrite lenN_map. auto. }
    apply in_map_iff in Hin as (r & <- & Hr). apply in_split in Hr as (R1 & R2 & H). eauto.
  Qed.
  Lemma q_rk R1 r R2 : R = R1 ++ r :: R2 -> rk fg0 (cnode r) = lenN R1.
  Proof.
    intros H. unfold rk. rewrite (rp_rank _ _ _ _ Hrep _ _ _ H); auto. rewrite H in Hnd. apply NoDup_mid in Hnd. tauto.
  Qed.

  Lemma q_lookup d R1 r R2 a : R = R1 ++ r :: R2 -> In a (carcs d r) ->
    exists id, get_edge_id fg0 d (cnode r) (a_adj a) = Ok id /\
      getN (fg_edges fg0 d) id = Some (enc c (cnode r) a).
  Proof.
    intros H Ha. pose proof (rep_slice c n R fg0 d R1 r R2 Hrep Hnd H) as Hs.
    destruct (In_getN _ _ Ha) as (j & Hj & Hget).
    pose proof (rep_edge c n R fg0 d R1 r R2 j a Hrep H Hget) as He.
    destruct (get_edge_id_ok fg0 d (cnode r) (a_adj a) _ _ Hs) as (i & ed & H1 & H2 & H3 & H4).
    - rewrite (rp_edges _ _ _ _ Hrep), H, edg_app, edg_cons, !lenN_app, lenN_map. lia.
    - exists (lenN (edg c d R1) + j), (enc c (cnode r) a). split; [lia|]. auto.
    - exists i. split; auto. replace ed with (enc c (cnode r) a) in H3; auto.
      destruct (getN_lt (carcs d r) (i - lenN (edg c d R1))) as (a' & Ha'); [lia|].
      pose proof (rep_edge c n R fg0 d R1 r R2 _ a' Hrep H Ha') as He'.
      replace (lenN (edg c d R1) + (i - lenN (edg c d R1))) with i in He' by lia.
      rewrite H3 in He'. injection He' as ->. simpl in H4.
      f_equal. eapply NoDup_adj_inj; [|exact Ha|eapply getN_In; eauto|congruence].
      apply (rr_nodup _ _ _ _ _ (ri_rec _ _ _ _ _ Hb _ _ _ H)).
  Qed.

  Lemma q_inv0 d id ed : getN (fg_edges fg0 d) id = Some ed ->
    exists R1 r R2 j a, R = R1 ++ r :: R2 /\ getN (carcs d r) j = Some a /\
      id = lenN (edg c d R1) + j /\ ed = enc c (cnode r) a.
  Proof. rewrite (rp_edges _ _ _ _ Hrep). apply edg_inv. Qed.

  Lemma q_slices d : slices_ok n fg0 d.
  Proof.
    split; [|split].
    - intros v Hv. destruct (q_of v Hv) as (R1 & r & R2 & H & <-).
      exists (lenN (edg c d R1)), (lenN (edg c d R1) + lenN (carcs d r)). split.
      + apply (rep_slice c n R fg0 d R1 r R2 Hrep Hnd H).
      + rewrite (rp_edges _ _ _ _ Hrep), H, edg_app, edg_cons, !lenN_app, lenN_map. lia.
    - intros id ed He. apply q_inv0 in He as (R1 & r & R2 & j & a & H & _ & _ & ->). simpl.
      apply q_node_lt. rewrite H. apply in_app_iff; simpl; auto.
    - intros id ed v b e He Hs. apply q_inv0 in He as (R1 & r & R2 & j & a & H & Hj & -> & ->). simpl.
      apply getN_Some_lt in Hj. split.
      + intros Hid. destruct (N.lt_ge_cases v n) as [Hv|Hv].
        * destruct (q_of v Hv) as (R1' & r' & R2' & H' & <-).
          pose proof (rep_slice c n R fg0 d R1' r' R2' Hrep Hnd H') as Hs'.
          destruct (slice_fun _ _ _ _ _ _ _ Hs Hs') as [-> ->].
          rewrite H in H'. clear Hs Hs'.
          (* compare the two splits *)
          assert (forall (A1 : list crec) x A2 B1 y B2, A1 ++ x :: A2 = B1 ++ y :: B2 ->
            (A1 = B1 /\ x = y) \/ (exists l, B1 = A1 ++ x :: l) \/ (exists l, A1 = B1 ++ y :: l)) as cmp.
          { clear. induction A1 as [|z A1 IH]; intros x A2 B1 y B2 H; destruct B1 as [|z' B1]; simpl in H.
            - injection H as -> ->. auto.
            - injection H as -> ->. right; left. exists B1. reflexivity.
            - injection H as -> <-. right; right. exists A1. reflexivity.
            - injection H as -> H. apply IH in H as [[-> ->]|[[l ->]|[l ->]]]; auto.
              + right; left. exists l. reflexivity.
              + right; right. exists l. reflexivity. }
          apply cmp in H' as [[_ ->]|[[l ->]|[l ->]]]; auto; exfalso;
            rewrite edg_app, edg_cons, !lenN_app, lenN_map in Hid; lia.
        * exfalso. destruct Hs as (rr & Hr & _). apply getN_Some_lt in Hr.
          rewrite (rp_lr _ _ _ _ Hrep) in Hr. lia.
      + intros <-. pose proof (rep_slice c n R fg0 d R1 r R2 Hrep Hnd H) as Hs'.
        destruct (slice_fun _ _ _ _ _ _ _ Hs Hs') as [-> ->]. lia.
  Qed.

  Lemma q_src d R1 r R2 a : R = R1 ++ r :: R2 -> In a (carcs d r) ->
    (a_center a = umax c /\ In (mkEdge (fsrc d (cnode r) (a_adj a)) (fdst d (cnode r) (a_adj a)) (a_weight a)) E) \/
    (a_center a <> umax c /\ exists rin rout ei eo,
       get_edge_id fg0 Bwd (a_center a) (fsrc d (cnode r) (a_adj a)) = Ok rin /\
       get_edge_id fg0 Fwd (a_center a) (fdst d (cnode r) (a_adj a)) = Ok rout /\
       getN (fg_edges fg0 Bwd) rin = Some ei /\ getN (fg_edges fg0 Fwd) rout = Some eo /\
       fe_base ei = a_center a /\ fe_base eo = a_center a /\
       fe_adj ei = fsrc d (cnode r) (a_adj a) /\ fe_adj eo = fdst d (cnode r) (a_adj a) /\
       a_weight a = (fe_weight ei + fe_weight eo) mod (umax c + 1) /\ rk fg0 (a_center a) < rk fg0 (cnode r)).
  Proof.
    intros H Ha. pose proof (ri_rec _ _ _ _ _ Hb _ _ _ H) as Hr.
    apply (rr_arc _ _ _ _ _ Hr) in Ha as (_ & _ & _ & G). unfold rpgood in G.
    destruct G as [G|(Hk & r' & w1 & k1 & w2 & k2 & Hin & Hc & H1 & H2 & Hsum)]; [left; auto|].
    right. split; [lia|].
    apply in_split in Hin as (R1a & R1b & HR1). subst R1. rewrite <- app_assoc in H. simpl in H.
    destruct (q_lookup Bwd _ _ _ _ H H1) as (rin & G1 & G2).
    destruct (q_lookup Fwd _ _ _ _ H H2) as (rout & G3 & G4).
    rewrite Hc in *. simpl in G1, G3.
    exists rin, rout, (enc c (a_center a) (mkArc (fsrc d (cnode r) (a_adj a)) w1 k1)),
      (enc c (a_center a) (mkArc (fdst d (cnode r) (a_adj a)) w2 k2)).
    cbn [fe_base fe_adj fe_weight enc a_adj a_weight]. repeat (split; auto).
    rewrite <- Hc. rewrite (q_rk _ _ _ H).
    assert (R = (R1a ++ r' :: R1b) ++ r :: R2) as H' by (rewrite <- app_assoc; exact H).
    rewrite (q_rk _ _ _ H'). rewrite lenN_app, lenN_cons. lia.
  Qed.

  Lemma q_raw d : raw_ok c fg0 d.
  Proof.
    intros id ed He. apply q_inv0 in He as (R1 & r & R2 & j & a & H & Hj & _ & ->). simpl.
    split; auto. intros Hc. apply getN_In in Hj.
    destruct (q_src d _ _ _ _ H Hj) as [[G _]|(_ & rin & rout & ei & eo & G1 & G2 & _)]; [congruence|eauto].
  Qed.

  Lemma finish_shape : exists fg, finish_contraction c n fg0 = Ok fg /\ fg_shape c E n fg /\ fg_ranks fg = fg_ranks fg0.
  Proof.
    destruct (finish_ok c n fg0 q_raw q_slices) as (fg & Hf & F & Hfin).
    exists fg. split; auto.
    assert (forall d, lenN (fg_edges fg d) = lenN (fg_edges fg0 d)) as Hlen by (intros; apply (feq_len c n Hcap R fg0 HR); auto).
    assert (umax c / 2 < umax c) as Hhalf by (apply N.div_lt; lia).
    assert (forall d id ed, getN (fg_edges fg d) id = Some ed -> edge_mod c E fg d ed) as Hmod.
    { intros d id ed He. destruct (feq_edge _ _ _ _ _ F He) as (e0 & H0 & Hc).
      destruct (Hfin _ _ _ H0) as (ed' & He' & Hfn). assert (ed' = ed) by congruence. subst ed'. clear He'.
      apply q_inv0 in H0 as (R1 & r & R2 & j & a & H & Hj & _ & ->). apply getN_In in Hj.
      unfold edge_mod. destruct Hfn as [[Hk ->]|(Hk & rin & rout & G1 & G2 & ->)]; cbn [fe_base fe_adj fe_weight fe_replaced_in fe_replaced_out enc] in *.
      + left. split; auto. split; auto. destruct (q_src d _ _ _ _ H Hj) as [(_ & G)|(G & _)]; [auto|congruence].
      + right. destruct (q_src d _ _ _ _ H Hj) as
          [(G & _)|(_ & rin' & rout' & ei & eo & K1 & K2 & K3 & K4 & K5 & K6 & K7 & K8 & K9 & K10)]; [congruence|].
        assert (rin' = rin) by congruence. assert (rout' = rout) by congruence. subst.
        destruct (feq_edge' _ _ _ _ _ F K3) as (ei' & L1 & M1). destruct (feq_edge' _ _ _ _ _ F K4) as (eo' & L2 & M2).
        unfold core in M1, M2. injection M1 as M1a M1b M1c. injection M2 as M2a M2b M2c.
        exists ei', eo'. rewrite !(feq_rk fg0 fg) by auto.
        pose proof (rp_cap _ _ _ _ Hrep Bwd). pose proof (rp_cap _ _ _ _ Hrep Fwd).
        pose proof (getN_Some_lt _ _ _ K3). pose proof (getN_Some_lt _ _ _ K4).
        rewrite M1a, M1b, M1c, M2a, M2b, M2c, K5, K6, K7, K8, K9.
        split; [lia|]. split; [lia|]. repeat split; auto. }
    split; [|apply (fq_r _ _ F)].
    constructor.
    - rewrite (fq_n _ _ F). apply (rp_n _ _ _ _ Hrep).
    - exact Hcap.
    - rewrite (fq_r _ _ F). apply (rp_lr _ _ _ _ Hrep).
    - intros v Hv. rewrite (feq_rk fg0 fg) by auto. destruct (q_of v Hv) as (R1 & r & R2 & H & <-).
      rewrite (q_rk _ _ _ H), <- HR, H, lenN_app, lenN_cons. lia.
    - intros u v Hu Hv. rewrite !(feq_rk fg0 fg) by auto.
      destruct (q_of u Hu) as (R1 & r & R2 & H & <-). destruct (q_of v Hv) as (R1' & r' & R2' & H' & <-).
      rewrite (q_rk _ _ _ H), (q_rk _ _ _ H'). intros Hl.
      assert (getN R (lenN R1) = Some r) as G1.
      { rewrite H, getN_app2, N.sub_diag by lia. reflexivity. }
      assert (getN R (lenN R1') = Some r') as G2.
      { rewrite H', getN_app2, N.sub_diag by lia. reflexivity. }
      rewrite <- Hl, G1 in G2. congruence.
    - intros d. rewrite (fq_f _ _ F). apply (rp_lf _ _ _ _ Hrep).
    - intros d. rewrite (fq_f _ _ F). apply (rp_first _ _ _ _ Hrep d [] R eq_refl).
    - intros d. rewrite (fq_f _ _ F), Hlen.
      pose proof (rp_first _ _ _ _ Hrep d R [] (eq_sym (app_nil_r R))) as G. rewrite HR in G.
      rewrite (rp_edges _ _ _ _ Hrep). auto.
    - intros d v Hv. destruct (q_slices d) as (G & _). destruct (G v Hv) as (b & e & Hs & Hbe).
      exists b, e. rewrite Hlen. split; auto. eapply feq_slice; eauto.
    - intros d id ed v b e He (r & S1 & S2 & S3). destruct (feq_edge _ _ _ _ _ F He) as (e0 & H0 & Hc).
      unfold core in Hc. injection Hc as Hc1 Hc2 Hc3. rewrite <- Hc1.
      apply (q_slices d) with (id := id); auto. exists r. rewrite <- (fq_r _ _ F), <- (fq_f _ _ F). auto.
    - intros d id ed He. rewrite !(feq_rk fg0 fg) by auto. destruct (feq_edge _ _ _ _ _ F He) as (e0 & H0 & Hc).
      unfold core in Hc. injection Hc as Hc1 Hc2 Hc3. rewrite <- Hc1, <- Hc2.
      apply q_inv0 in H0 as (R1 & r & R2 & j & a & H & Hj & _ & ->). simpl.
      apply getN_In in Hj. pose proof (ri_rec _ _ _ _ _ Hb _ _ _ H) as Hr.
      pose proof (rr_arc _ _ _ _ _ Hr d a Hj) as (Ha1 & Ha2 & Ha3 & _).
      split; [apply (rr_node _ _ _ _ _ Hr)|]. split; auto.
      destruct (q_of (a_adj a) Ha1) as (R1' & r' & R2' & H' & Hr').
      rewrite <- Hr'. rewrite (q_rk _ _ _ H), (q_rk _ _ _ H').
      assert (In r' R2) as Hin2.
      { assert (In r' (R1 ++ r :: R2)) as Hin by (rewrite <- H, H'; apply in_app_iff; simpl; auto).
        apply in_app_iff in Hin as [Hin|[<-|Hin]]; auto.
        - exfalso. apply Ha3. rewrite <- Hr'. apply in_map; auto.
        - congruence. }
      apply in_split in Hin2 as (A & B & ->).
      assert (R = (R1 ++ r :: A) ++ r' :: B) as H2 by (rewrite <- app_assoc; exact H).
      rewrite H' in H2. apply (NoDup_split_eq cnode) in H2 as (-> & _ & _); auto; [|rewrite <- H'; auto].
      rewrite lenN_app, lenN_cons. lia.
    - intros d i1 e1 i2 e2 G1 G2 Hbase Hadj.
      destruct (feq_edge _ _ _ _ _ F G1) as (x1 & X1 & Y1). destruct (feq_edge _ _ _ _ _ F G2) as (x2 & X2 & Y2).
      unfold core in Y1, Y2. injection Y1 as Y1a Y1b _. injection Y2 as Y2a Y2b _.
      apply q_inv0 in X1 as (R1 & r & R2 & j & a & H & Hj & -> & ->).
      apply q_inv0 in X2 as (R1' & r' & R2' & j' & a' & H' & Hj' & -> & ->). simpl in *.
      assert (R1 ++ r :: R2 = R1' ++ r' :: R2') as Heq by congruence.
      apply (NoDup_split_eq cnode) in Heq as (<- & <- & <-); [|congruence|rewrite <- H; auto].
      f_equal. pose proof (rr_nodup _ _ _ _ _ (ri_rec _ _ _ _ _ Hb _ _ _ H) d) as ND.
      assert (getN (map a_adj (carcs d r)) j = Some (a_adj a)) as K1 by (rewrite getN_map, Hj; auto).
      assert (getN (map a_adj (carcs d r)) j' = Some (a_adj a)) as K2
        by (rewrite getN_map, Hj'; simpl; f_equal; congruence).
      rewrite getN_nth in K1, K2.
      apply N2Nat.inj. eapply (proj1 (NoDup_nth_error _) ND); [apply nth_error_Some; congruence|congruence].
    - exact Hmod.
    - intros d. rewrite Hlen. apply (rp_cap _ _ _ _ Hrep d).
  Qed.
End RelOk.

(** ** Functions that cannot run for ever *)
Lemma bind_assoc {A B C} (m : res A) (f : A -> res B) (g : B -> res C) : bind (bind m f) g = bind m (fun a => bind (f a) g).
Proof. destruct m; reflexivity. Qed.
Lemma nd_bind {A B} (m : res A) (f : A -> res B) : m <> Diverge -> (forall a, f a <> Diverge) -> bind m f <> Diverge.
Proof. destruct m; simpl; auto. discriminate. Qed.
Lemma nd_foldM {A B} (f : B -> A -> res B) : (forall b a, f b a <> Diverge) -> forall l b, foldM f l b <> Diverge.
Proof. intros Hf. induction l as [|a l IH]; intros b; simpl; [discriminate|]. apply nd_bind; auto. Qed.
Lemma nd_idx {A} (l : list A) i : idx l i <> Diverge.
Proof. unfold idx. destruct (getN l i); discriminate. Qed.
Lemma nd_begin fg d v : fg_begin_edges fg d v <> Diverge.
Proof. apply nd_bind; [apply nd_idx|intros; apply nd_idx]. Qed.
Lemma nd_end fg d v : fg_end_edges fg d v <> Diverge.
Proof. apply nd_bind; [apply nd_idx|intros; apply nd_idx]. Qed.
Lemma nd_find fg d adj : forall ids, find_edge_id fg d ids adj <> Diverge.
Proof.
  induction ids as [|i r IH]; simpl; [discriminate|]. apply nd_bind; [apply nd_idx|]. intros e. destruct (fe_adj e =? adj); auto. discriminate.
Qed.
Lemma nd_get fg d v adj : get_edge_id fg d v adj <> Diverge.
Proof. apply nd_bind; [apply nd_begin|]. intros b. apply nd_bind; [apply nd_end|]. intros e. apply nd_find. Qed.
Lemma nd_finish c n fg : finish_contraction c n fg <> Diverge.
Proof.
  assert (forall d fg, finish_dir c d n fg <> Diverge) as G.
  { intros d fg1. apply nd_foldM. intros fg2 i. apply nd_bind; [apply nd_begin|]. intros b. apply nd_bind; [apply nd_end|]. intros e.
    apply nd_foldM. intros fg3 id. unfold finish_edge. apply nd_bind; [apply nd_idx|]. intros ed.
    destruct (_ =? _).
    - apply nd_bind; [|discriminate]. destruct (debug_build c); [|discriminate]. unfold assert. destruct (_ =? _); discriminate.
    - apply nd_bind; [apply nd_get|]. intros rin. cbn zeta. apply nd_bind; [apply nd_get|]. discriminate. }
  apply nd_bind; auto.
Qed.

Section RelBuild.
  Variables (c : cfg) (H : heap_ops) (hinv : list HeapItem -> Prop).
  Hypothesis HL : heap_laws H hinv.
  Variable ig : InputGraph.
  Hypothesis Hig : ig_ok c ig.
  Let n := ig_num_nodes ig.
  Let E := ig_edges ig.
  Variable P : panic_reason -> Prop.
  Hypothesis HP : debug_build c = false \/ P POverflow.
  Hypothesis HC : umax c / 2 < n * n \/ umax c / 2 < n + 1 -> P PCapacity.
  Hypothesis Hu : 1 <= umax c.

  Lemma r_vpush {A} (l : list A) a (Q : list A -> Prop) : (umax c / 2 <= lenN l -> P PCapacity) ->
    (lenN l < umax c / 2 -> Q (l ++ [a])) -> wp P (vpush c l a) Q.
  Proof. intros H1 HQ. unfold vpush. destruct (N.ltb_spec (lenN l) (umax c / 2)); simpl; auto. Qed.

  Lemma r_outs_len g u : pg_str n g -> lenN (outs g u) <= n.
  Proof.
    intros W. rewrite <- (lenN_map a_adj). apply NoDup_bounded_len; [apply (wf_ndo _ _ W)|].
    intros v Hv. apply in_map_iff in Hv as ([v' w k] & <- & Hin). apply (wf_arc _ _ W) in Hin. tauto.
  Qed.
  Lemma r_ins_len g u : pg_str n g -> lenN (ins g u) <= n.
  Proof.
    intros W. rewrite <- (lenN_map a_adj). apply NoDup_bounded_len; [apply (wf_ndi _ _ W)|].
    intros v Hv. apply in_map_iff in Hv as ([v' w k] & <- & Hin). apply (wf_sym _ _ W) in Hin.
    eapply outs_src; eauto.
  Qed.
  Lemma r_edg_len d R : rrecs c n E R -> lenN (edg c d R) <= lenN R * n.
  Proof.
    intros G. assert (forall r, In r R -> lenN (carcs d r) <= n) as Hl.
    { intros r Hr. apply in_split in Hr as (R1 & R2 & HR). specialize (G _ _ _ HR).
      rewrite <- (lenN_map a_adj). apply NoDup_bounded_len; [apply (rr_nodup _ _ _ _ _ G)|].
      intros v Hv. apply in_map_iff in Hv as (a & <- & Ha). apply (rr_arc _ _ _ _ _ G) in Ha. tauto. }
    clear G. induction R as [|r R IH]; [unfold edg; simpl; rewrite lenN_nil; lia|].
    rewrite edg_cons, lenN_app, lenN_map, lenN_cons.
    specialize (IH (fun r' Hr => Hl r' (or_intror Hr))).
    specialize (Hl r (or_introl eq_refl)). lia.
  Qed.

  Lemma r_store_arcs x es arcs : (umax c / 2 < lenN es + lenN arcs -> P PCapacity) -> lenN es <= umax c / 2 ->
    wp P (store_arcs c x es arcs) (fun es' => es' = es ++ map (enc c x) arcs /\ lenN es' <= umax c / 2).
  Proof.
    intros Ha Hl. unfold store_arcs.
    apply (wp_foldM _ _ (fun pre es' => es' = es ++ map (enc c x) pre /\ lenN es' <= umax c / 2)).
    - simpl. rewrite app_nil_r. auto.
    - intros pre a post es' Epost (-> & Hle). apply r_vpush.
      { intros Hc. apply Ha. rewrite lenN_app, lenN_map in Hc. subst arcs. rewrite lenN_app, lenN_cons. lia. }
      intros Hlt. rewrite map_app, app_assoc. split; auto.
      rewrite lenN_app. change (lenN [_]) with 1. lia.
  Qed.

  Lemma r_store_node R g fg x :
    rinv c n E R g -> fg_rep c n R fg -> x < n -> lenN R < n ->
    wp P (store_node c fg g (lenN R) x) (fun fg' => fg_rep c n (R ++ [(x, outs g x, ins g x)]) fg').
  Proof.
    intros B Hrep Hx HR. pose proof (ri_wf _ _ _ _ _ B) as W.
    assert (forall d, lenN (edg c d R) + n <= n * n) as Hle.
    { intros d. pose proof (r_edg_len d R (ri_rec _ _ _ _ _ B)). nia. }
    unfold store_node. rewrite (outs_idx _ _ _ W Hx). cbn [bind].
    eapply wp_bind_mono.
    { apply r_store_arcs; [|apply (rp_cap _ _ _ _ Hrep Fwd)]. intros Hlt. apply HC. left.
      change (fg_edges_fwd fg) with (fg_edges fg Fwd) in Hlt. rewrite (rp_edges _ _ _ _ Hrep) in Hlt.
      specialize (Hle Fwd). pose proof (r_outs_len g x W). lia. }
    intros ef (Eef & Hcf). change (fg_edges_fwd fg) with (fg_edges fg Fwd) in Eef.
    rewrite (rp_edges _ _ _ _ Hrep) in Eef.
    rewrite upd_eq; [|change (fg_first_edge_ids_fwd fg) with (fg_first_edge_ids fg Fwd);
                      rewrite (rp_lf _ _ _ _ Hrep); lia].
    cbn [bind]. rewrite (ins_idx _ _ _ W Hx). cbn [bind].
    eapply wp_bind_mono.
    { apply r_store_arcs; [|apply (rp_cap _ _ _ _ Hrep Bwd)]. intros Hlt. apply HC. left.
      change (fg_edges_bwd fg) with (fg_edges fg Bwd) in Hlt. rewrite (rp_edges _ _ _ _ Hrep) in Hlt.
      specialize (Hle Bwd). pose proof (r_ins_len g x W). lia. }
    intros eb (Eeb & Hcb). change (fg_edges_bwd fg) with (fg_edges fg Bwd) in Eeb.
    rewrite (rp_edges _ _ _ _ Hrep) in Eeb.
    rewrite upd_eq; [|change (fg_first_edge_ids_bwd fg) with (fg_first_edge_ids fg Bwd);
                      rewrite (rp_lf _ _ _ _ Hrep); lia].
    cbn [bind]. rewrite upd_eq; [|rewrite (rp_lr _ _ _ _ Hrep); auto]. cbn [bind].
    apply wp_Ok. set (r := (x, outs g x, ins g x)).
    assert (forall d, edg c d (R ++ [r]) = match d with Fwd => ef | Bwd => eb end) as Eed.
    { intros d. rewrite edg_app, edg_cons. unfold r; simpl. rewrite app_nil_r.
      destruct d; auto. }
    set (fg' := mkFG _ _ _ _ _ _).
    assert (forall d, fg_first_edge_ids fg' d =
              setN (fg_first_edge_ids fg d) (lenN R + 1) (lenN (edg c d (R ++ [r])))) as Eff.
    { intros d. rewrite Eed. destruct d; reflexivity. }
    constructor.
    - apply (rp_n _ _ _ _ Hrep).
    - simpl. rewrite lenN_setN. apply (rp_lr _ _ _ _ Hrep).
    - intros d. rewrite Eff, lenN_setN. apply (rp_lf _ _ _ _ Hrep).
    - intros d. rewrite Eed. destruct d; reflexivity.
    - intros d R1 R2 HR12. rewrite Eff. apply snoc_split in HR12 as [[-> ->]|(R2' & -> & HR')].
      + rewrite lenN_app. change (lenN [r]) with 1. rewrite getN_setN_eq; auto.
        rewrite (rp_lf _ _ _ _ Hrep). lia.
      + rewrite getN_setN_neq; [eapply (rp_first _ _ _ _ Hrep); eauto|].
        subst R. rewrite lenN_app. lia.
    - intros R1 r' R2 HR12 Hni. simpl. apply snoc_split in HR12 as [[_ HR']|(R2' & HR' & ->)].
      + discriminate.
      + destruct R2' as [|r2 R2'].
        * injection HR' as -> ->. rewrite app_nil_r. rewrite getN_setN_eq; auto.
          rewrite (rp_lr _ _ _ _ Hrep). auto.
        * injection HR' as -> ->. rewrite getN_setN_neq.
          -- eapply (rp_rank _ _ _ _ Hrep); eauto. intros Hin. apply Hni.
             rewrite map_app, in_app_iff. auto.
          -- intros Heq. apply Hni. rewrite map_app, in_app_iff. right. left. exact Heq.
    - intros []; simpl; auto.
  Qed.

  Lemma r_fg_new : wp P (fg_new c n) (fun fg => fg_rep c n [] fg /\ n + 1 <= umax c / 2).
  Proof.
    unfold fg_new. destruct (N.leb_spec n (umax c / 2)); [|apply HC; right; lia].
    assert (umax c / 2 < umax c) as Hhalf by (apply N.div_lt; lia).
    unfold uadd. destruct (N.leb_spec (n + 1) (umax c)); [|lia]. cbn [bind].
    destruct (N.leb_spec (n + 1) (umax c / 2)); [|apply HC; right; lia]. apply wp_Ok.
    split; auto. constructor; simpl; auto.
    - apply lenN_repeat.
    - intros []; simpl; apply lenN_repeat.
    - intros []; reflexivity.
    - intros d R1 R2 HR. destruct R1; [|discriminate]. destruct d; simpl; apply getN_repeat; rewrite lenN_nil; lia.
    - intros R1 r R2 HR. destruct R1; discriminate.
    - intros []; simpl; rewrite lenN_nil; lia.
  Qed.

  (** the state after the contractions recorded in [R] *)
  Record rstate (R : list crec) (fg : FastGraph) (g : PrepGraph) (ws : WitnessSearch) : Prop := mk_rstate {
    rt_b : rinv c n E R g;
    rt_r : fg_rep c n R fg;
    rt_w : ws_base n ws
  }.

  Lemma rstate_init fg0 : fg_rep c n [] fg0 -> exists g0, pg_from_input_graph c ig = Ok g0 /\
    rstate [] fg0 g0 (ws_new c n).
  Proof.
    intros Hr. destruct (from_input_ok c ig Hig) as (g0 & Hg & W & Hin). exists g0.
    split; auto. constructor; auto.
    - constructor; auto.
      + apply wf_str. exact W.
      + intros u v w k Ha. apply Hin in Ha as [-> Ha]. left. auto.
      + intros x [].
      + apply rrecs_nil.
    - apply ws_new_base.
  Qed.

  Lemma rstate_step R fg g ws x maxs : n <= umax c -> rstate R fg g ws -> x < n -> lenN R < n ->
    wp P (fg' <- store_node c fg g (lenN R) x ;;
          '(g', ws') <- contract_node c H g ws x maxs ;; Ok (fg', g', ws'))
       (fun '(fg', g', ws') => exists a b, rstate (R ++ [(x, a, b)]) fg' g' ws').
  Proof.
    intros Hn [Hb Hr Hw] Hx HR.
    eapply wp_bind_mono; [apply r_store_node; eauto|]. intros fg' Hr'.
    eapply wp_bind_mono.
    { apply (contract_str c H hinv HL n P HP Hn); eauto. apply (ri_wf _ _ _ _ _ Hb). }
    intros [g' ws'] (Hs & Hw'). apply wp_Ok. exists (outs g x), (ins g x). constructor; auto.
    apply rinv_step; auto.
  Qed.

  Definition good_fg (fg : FastGraph) : Prop := fg_shape c E n fg.

  Lemma rstate_finish R fg g ws : rstate R fg g ws -> n + 1 <= umax c / 2 -> NoDup (map cnode R) -> lenN R = n ->
    exists fg', finish_contraction c n fg = Ok fg' /\ good_fg fg' /\
      forall i x, getN (map cnode R) i = Some x -> rk fg' x = i.
  Proof.
    intros [Hb Hr Hw] Hcap Hnd HR.
    destruct (finish_shape c n E Hcap g R fg Hb Hr Hnd HR) as (fg' & Hf & S & Hrk). exists fg'. split; auto. split; auto.
    intros i x Hi. rewrite getN_map in Hi. destruct (getN R i) as [r|] eqn:Gi; [|discriminate]. injection Hi as <-.
    rewrite getN_nth in Gi. apply nth_error_split in Gi as (R1 & R2 & -> & Hl).
    replace i with (lenN R1) by (unfold lenN; lia).
    unfold rk. rewrite Hrk. fold (rk fg (cnode r)). rewrite (q_rk c n (R1 ++ r :: R2) fg Hr Hnd R1 r R2 eq_refl). reflexivity.
  Qed.

  (** ** Fixed order *)
  Lemma r_contract_order fg0 g0 order params : n <= umax c ->
    rstate [] fg0 g0 (ws_new c n) -> (forall x, In x order -> x < n) \/ (forall r, P r) -> lenN order <= n ->
    wp P
      (foldM (fun '(fg, g, ws, rank) node =>
             if n <=? node then Panic (PExplicit "Order contains invalid node id")
             else
               fg' <- store_node c fg g rank node ;;
               '(g', ws') <- contract_node c H g ws node
                               (po_max_settled_nodes_contraction_with_order params) ;;
               Ok (fg', g', ws', rank + 1))
          order (fg0, g0, ws_new c n, 0))
      (fun '(fg, g, ws, rank) => exists R, map cnode R = order /\ rstate R fg g ws).
  Proof.
    intros Hn Hb0 Hord Hlo.
    eapply wp_mono.
    { apply (wp_foldM _ _ (fun pre '(fg, g, ws, rank) =>
        exists R, map cnode R = pre /\ rank = lenN R /\ rstate R fg g ws)).
      - exists []. auto.
      - intros pre x post [[[fg g] ws] rank] Heq (R & HR & -> & Hb).
        destruct (N.leb_spec n x) as [Hge|Hx].
        { destruct Hord as [Hord|HA]; [|apply HA]. exfalso.
          assert (x < n) as Hx by (apply Hord; rewrite Heq; apply in_app_iff; simpl; auto). lia. }
        assert (lenN R < n) as HRn.
        { rewrite <- (lenN_map cnode), HR. rewrite Heq, lenN_app, lenN_cons in Hlo. lia. }
        pose proof (rstate_step R fg g ws x
          (po_max_settled_nodes_contraction_with_order params) Hn Hb Hx HRn) as Hs.
        destruct (store_node c fg g (lenN R) x) as [fg'| |]; cbn [bind] in *; auto.
        destruct (contract_node c H g ws x _) as [[g' ws']| |]; cbn [bind] in *; auto.
        simpl in Hs. destruct Hs as (a & b & Hs). simpl.
        exists (R ++ [(x, a, b)]). rewrite map_app, HR, lenN_app. simpl. auto. }
    intros [[[fg g] ws] rank] (R & HR & _ & Hb). eauto.
  Qed.

  Lemma r_half : umax c / 2 <= umax c.
  Proof. apply N.div_le_upper_bound; lia. Qed.

  Lemma build_order_str order params :
    (NoDup order /\ (forall x, In x order -> x < n) /\ lenN order = n) \/ (forall r, P r) ->
    wp P (build_with_order_with_params c H ig order params)
       (fun r => NoDup order -> forall fg, r = inl fg -> good_fg fg /\ forall i x, getN order i = Some x -> rk fg x = i).
  Proof.
    intros Hord. unfold build_with_order_with_params, ig_get_num_nodes, ig_check_frozen.
    rewrite (ig_ok_frozen _ _ Hig). cbn [bind]. fold n.
    destruct (N.eqb_spec n (lenN order)) as [Hl|Hl]; cbn [negb]; [|apply wp_Ok; discriminate].
    pose proof r_half.
    eapply wp_bind_mono; [apply r_fg_new|]. intros fg0 (Hr0 & Hcap).
    unfold run_contraction_with_order.
    destruct (rstate_init fg0 Hr0) as (g0 & -> & Hb0). cbn [bind].
    rewrite bind_assoc. eapply wp_bind_mono.
    { apply r_contract_order; auto; try lia. tauto. }
    intros [[[fg g] ws] rank] (R & HR & Hb). cbn beta iota.
    assert (NoDup order -> exists fg', finish_contraction c n fg = Ok fg' /\ good_fg fg' /\
      forall i x, getN order i = Some x -> rk fg' x = i) as Hfin.
    { intros Hnd. rewrite <- HR. apply (rstate_finish R fg g ws Hb Hcap); [rewrite HR; auto|].
      rewrite <- (lenN_map cnode), HR; auto. }
    pose proof (nd_finish c n fg) as Hdiv.
    destruct (finish_contraction c n fg) as [fg'|r|] eqn:Ef; [| |congruence].
    - cbn [bind]. apply wp_Ok. intros Hnd fg2 [= <-]. destruct (Hfin Hnd) as (fg3 & [= ->] & G). auto.
    - cbn [bind wp]. destruct Hord as [(Hnd & _)|HA]; auto. destruct (Hfin Hnd) as (fg3 & HH & _). discriminate.
  Qed.

  (** ** Priority queue *)
  Variables (Q : pq_ops) (qinv : list (N * N) -> Prop).
  Hypothesis QL : pq_laws Q qinv.

  Lemma r_neighbors g x : pg_str n g -> x < n ->
    exists l, neighbors_of g x = Ok l /\ (forall y, In y l -> y < n).
  Proof.
    intros W Hx. unfold neighbors_of. rewrite (outs_idx _ _ _ W Hx), (ins_idx _ _ _ W Hx). cbn [bind].
    eexists; split; [reflexivity|]. intros y Hy.
    assert (forall (l : list Arc) s, In y (fold_left (fun s a => btree_insert (a_adj a) s) l s) <->
              In y s \/ In y (map a_adj l)) as G.
    { induction l as [|a l IH]; intros s; simpl; [tauto|]. rewrite IH, btree_insert_In. intuition. }
    apply G in Hy as [[]|Hy]. rewrite map_app, in_app_iff in Hy.
    destruct Hy as [Hy|Hy]; apply in_map_iff in Hy as ([v w k] & <- & Ha); simpl.
    - apply (wf_arc _ _ W) in Ha. tauto.
    - apply (wf_sym _ _ W) in Ha. eapply outs_src; eauto.
  Qed.

  Record rqstate (R : list crec) (st : BState) : Prop := mk_rqstate {
    rq_b : rstate R (bs_fg st) (bs_pg st) (bs_ws st);
    rq_q : qinv (bs_queue st);
    rq_l : lenN (bs_levels st) = n
  }.

  Lemma r_relevance R fg g ws params x level maxs : n <= umax c -> rstate R fg g ws -> x < n ->
    wp P (calc_relevance c H g params ws x level maxs) (fun '(_, g', ws') => g' = g /\ rstate R fg g ws').
  Proof.
    intros Hn [Hb Hr Hw] Hx. eapply wp_mono.
    { apply (relevance_str c H hinv HL n P HP Hn); auto. apply (ri_wf _ _ _ _ _ Hb). }
    intros [[r g'] ws'] (-> & Hw'). split; auto. constructor; auto.
  Qed.

  Lemma r_init_queue g0 fg0 params : n <= umax c -> rstate [] fg0 g0 (ws_new c n) ->
    wp P (foldM (init_queue_step c H Q params) (rangeN 0 n)
                     (mkBState fg0 g0 (ws_new c n) (vec_repeat 0 n) [] 0))
       (fun st => rqstate [] st /\ bs_rank st = 0 /\ NoDup (map fst (bs_queue st)) /\
          (forall v, In v (map fst (bs_queue st)) <-> v < n)).
  Proof.
    intros Hn Hb.
    apply (wp_foldM_range _ _ (fun i st => rqstate [] st /\ bs_rank st = 0 /\
       NoDup (map fst (bs_queue st)) /\ (forall v, In v (map fst (bs_queue st)) <-> v < i))); [lia| |].
    - split; [|split; [auto|split; [constructor|]]].
      + constructor; simpl; auto; [apply QL|apply lenN_repeat].
      + simpl. intros v. split; [tauto|lia].
    - intros i st Hi (Hq & Hrk & Hnd & Hin). unfold init_queue_step.
      eapply wp_bind_mono.
      { apply r_relevance with (R := []) (fg := bs_fg st); auto; [apply (rq_b _ _ Hq)|lia]. }
      intros [[r g'] ws'] (-> & Hb'). simpl.
      destruct QL as (_ & Qpush & _). destruct (Qpush (bs_queue st) i (f32_as_usize c r) (rq_q _ _ Hq)) as (Q1 & Q2).
      { rewrite Hin. lia. }
      apply (Permutation_map fst) in Q2. simpl in Q2.
      split; [constructor; simpl; auto; apply (rq_l _ _ Hq)|]. split; auto. split.
      + eapply Permutation_NoDup; [symmetry; exact Q2|]. constructor; auto. rewrite Hin. lia.
      + intros v. split.
        * intros Hv. eapply Permutation_in in Hv; [|exact Q2]. destruct Hv as [<-|Hv]; [lia|]. apply Hin in Hv. lia.
        * intros Hv. eapply Permutation_in; [symmetry; exact Q2|]. simpl. rewrite Hin. lia.
  Qed.

  Lemma r_update_neighbor R params x y st : n <= umax c -> rqstate R st -> x < n -> y < n ->
    wp P (update_neighbor c H Q params x st y)
       (fun st' => rqstate R st' /\ bs_rank st' = bs_rank st /\
          Permutation (map fst (bs_queue st')) (map fst (bs_queue st))).
  Proof.
    intros Hn Hq Hx Hy. unfold update_neighbor.
    apply wp_bind, wp_idx; [rewrite (rq_l _ _ Hq); auto|]. intros ln _.
    apply wp_bind, wp_idx; [rewrite (rq_l _ _ Hq); auto|]. intros lx _.
    apply wp_bind, wp_upd; [rewrite (rq_l _ _ Hq); auto|].
    eapply wp_bind_mono; [apply r_relevance with (R := R) (fg := bs_fg st); auto; apply (rq_b _ _ Hq)|].
    intros [[r g'] ws'] (-> & Hb'). simpl.
    destruct QL as (_ & _ & _ & _ & Qch). destruct (Qch (bs_queue st) y (f32_as_usize c r) (rq_q _ _ Hq)) as (Q1 & Q2).
    split; [constructor; simpl; auto; rewrite lenN_setN; apply (rq_l _ _ Hq)|].
    split; auto.
    apply (Permutation_map fst) in Q2. rewrite set_priority_keys in Q2. auto.
  Qed.

  Lemma r_contraction_loop params : n <= umax c ->
    forall fuel st R, rqstate R st -> bs_rank st = lenN R ->
    NoDup (map cnode R ++ map fst (bs_queue st)) ->
    (forall v, In v (map cnode R ++ map fst (bs_queue st)) <-> v < n) ->
    (List.length (bs_queue st) < fuel)%nat ->
    wp P (contraction_loop fuel c H Q params st)
       (fun st' => exists R', rstate R' (bs_fg st') (bs_pg st') (bs_ws st') /\
          NoDup (map cnode R') /\ lenN R' = n).
  Proof.
    intros Hn. induction fuel as [|fuel IH]; intros st R Hq Hrk Hnd Hin Hf; [lia|]. simpl.
    destruct QL as (_ & _ & Qnone & Qpop & _).
    destruct (pq_pop Q (bs_queue st)) as [[[x p] q']|] eqn:Epop.
    - destruct (Qpop _ _ _ _ (rq_q _ _ Hq) Epop) as (Hq' & Hperm & _).
      pose proof (Permutation_map fst Hperm) as Hpk. simpl in Hpk.
      assert (x < n) as Hx.
      { apply Hin, in_app_iff. right. eapply Permutation_in; [symmetry; exact Hpk|]. simpl; auto. }
      pose proof (ri_wf _ _ _ _ _ (rt_b _ _ _ _ (rq_b _ _ Hq))) as W.
      destruct (r_neighbors (bs_pg st) x W Hx) as (nbs & Hnb & Hnlt). rewrite Hnb. cbn [bind].
      assert (NoDup (map cnode R ++ x :: map fst q')) as Hnd'.
      { eapply Permutation_NoDup; [|exact Hnd]. apply Permutation_app_head; auto. }
      assert (forall v, In v (map cnode R ++ x :: map fst q') <-> v < n) as Hin'.
      { intros v. rewrite <- Hin, !in_app_iff.
        split; (intros [G|G]; [left; auto|right]); [eapply Permutation_in; [symmetry; exact Hpk|]; auto|
          eapply Permutation_in; [exact Hpk|]; auto]. }
      assert (lenN R < n) as HRn.
      { pose proof (NoDup_bounded_len _ n Hnd' (fun v Hv => proj1 (Hin' v) Hv)) as G.
        rewrite lenN_app, lenN_map, lenN_cons in G. lia. }
      pose proof (rstate_step R (bs_fg st) (bs_pg st) (bs_ws st) x (p_max_settled_nodes_contraction params)
                    Hn (rq_b _ _ Hq) Hx HRn) as Hs.
      rewrite <- Hrk in Hs.
      destruct (store_node c (bs_fg st) (bs_pg st) (bs_rank st) x) as [fg'| |]; cbn [bind] in *; auto.
      destruct (contract_node c H (bs_pg st) (bs_ws st) x _) as [[g' ws']| |]; cbn [bind] in *; auto.
      simpl in Hs. destruct Hs as (a & b & Hs).
      set (R' := R ++ [(x, a, b)]) in *.
      assert (map cnode R' = map cnode R ++ [x]) as ER' by (unfold R'; rewrite map_app; reflexivity).
      assert (lenN R' = lenN R + 1) as EL' by (unfold R'; rewrite lenN_app; reflexivity).
      eapply wp_bind_mono.
      { apply (wp_foldM_inv _ _ (fun st' => rqstate R' st' /\ bs_rank st' = lenN R /\
                 Permutation (map fst (bs_queue st')) (map fst q'))).
        - split; [constructor; simpl; auto; apply (rq_l _ _ Hq)|]. simpl. auto.
        - intros y st' Hy (Hq2 & Hrk2 & Hp2). eapply wp_mono.
          + apply (r_update_neighbor R' params x y st'); auto.
          + intros st'' (Hq3 & Hrk3 & Hp3). split; auto. split; [congruence|].
            eapply Permutation_trans; eauto. }
      intros st' (Hq2 & Hrk2 & Hp2).
      apply (IH _ R').
      + constructor; simpl; apply Hq2.
      + simpl. lia.
      + simpl. rewrite ER', <- app_assoc. simpl.
        eapply Permutation_NoDup; [|exact Hnd']. apply Permutation_app_head. constructor. symmetry; auto.
      + simpl. intros v. rewrite <- Hin', ER', <- app_assoc. simpl. rewrite !in_app_iff. simpl.
        split; (intros [G|[G|G]]; [left; auto|right; left; auto|right; right]);
          (eapply Permutation_in; [|exact G]; auto). symmetry; auto.
      + simpl. apply Permutation_length in Hp2. rewrite !map_length in Hp2.
        apply Permutation_length in Hperm. simpl in Hperm. lia.
    - apply Qnone in Epop; [|apply (rq_q _ _ Hq)]. simpl. exists R.
      rewrite Epop in *. simpl in *. rewrite app_nil_r in *.
      split; [apply (rq_b _ _ Hq)|]. split; auto.
      apply N.le_antisymm.
      + rewrite <- (lenN_map cnode). apply NoDup_bounded_len; auto. intros v Hv. apply Hin; auto.
      + assert (incl (rangeN 0 n) (map cnode R)) as Hi.
        { intros v Hv. apply rangeN_In in Hv. apply Hin. lia. }
        pose proof (NoDup_incl_length (rangeN_NoDup 0 n) Hi) as G. rewrite map_length in G.
        pose proof (lenN_rangeN 0 n) as G2. unfold lenN in *. lia.
  Qed.

  Lemma build_params_str params : wp P (build_with_params c H Q ig params) good_fg.
  Proof.
    unfold build_with_params, ig_get_num_nodes, ig_check_frozen.
    rewrite (ig_ok_frozen _ _ Hig). cbn [bind]. fold n. pose proof r_half.
    eapply wp_bind_mono; [apply r_fg_new|].
    intros fg0 (Hr0 & Hcap). unfold run_contraction.
    destruct (rstate_init fg0 Hr0) as (g0 & -> & Hb0). cbn [bind].
    assert (n <= umax c) as Hn by lia.
    eapply wp_bind_mono; [apply r_init_queue; eauto|].
    intros st (Hq & Hrk & Hnd & Hin).
    eapply wp_bind_mono.
    { apply (r_contraction_loop params Hn _ st []); auto.
      rewrite <- (map_length fst). pose proof (NoDup_bounded_len _ n Hnd (fun v Hv => proj1 (Hin v) Hv)) as G.
      unfold lenN in G. lia. }
    intros st' (R & Hb & HndR & HRn).
    destruct (rstate_finish R _ _ _ Hb Hcap HndR HRn) as (fg' & -> & G & _). exact G.
  Qed.
End RelBuild.
