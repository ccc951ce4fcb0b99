(** * QueryResult: what a query returns *)
From Verif Require Export QueryFacts.
From Coq Require Import Permutation.
Open Scope N_scope.

(** State of a calculator between queries, for graphs with [n] nodes. *)
Definition pc_ok (n : N) (pc : PathCalculator) : Prop :=
  pc_num_nodes pc = n /\ side_base n (pc_fwd pc) /\ side_base n (pc_bwd pc).

Lemma side_new_ok c n : side_base n (side_new c n) /\ forall v, lab (side_new c n) v = None.
Proof.
  destruct (vf_new_ok n) as [H1 H2]. split; [split; auto; simpl; apply lenN_repeat|].
  intros v. unfold lab, view; simpl. rewrite H2. auto.
Qed.
Lemma pc_new_ok c n : pc_ok n (pc_new c n).
Proof. split; auto. split; apply side_new_ok. Qed.

(** What a query returns: the lightest total below the maximum weight, or nothing. *)
Definition answer_ok (c : cfg) (E : list Edge) (starts ends : list (N * N)) (r : option ShortestPath) : Prop :=
  match r with
  | None => forall s t ns W, total E starts ends s t ns W -> umax c <= W
  | Some sp => total E starts ends (sp_source sp) (sp_target sp) (sp_nodes sp) (sp_weight sp) /\
      sp_weight sp < umax c /\ forall s t ns W, total E starts ends s t ns W -> sp_weight sp <= W
  end.

Lemma filter_len_le {A} (f : A -> bool) l : (List.length (filter f l) <= List.length l)%nat.
Proof. induction l as [|a l IH]; simpl; auto. destruct (f a); simpl; lia. Qed.

Section Result.
  Variables (c : cfg) (H : heap_ops) (hinv : list HeapItem -> Prop).
  Hypothesis HL : heap_laws H hinv.
  Hypothesis Hdbg : debug_build c = true.
  Variables (E : list Edge) (n : N) (fg : FastGraph).
  Hypothesis Hok : fg_base c E n fg.
  Variables (starts ends : list (N * N)).
  Variables (K : dir -> N) (Bd : N -> N) (Bm : N) (allow : Prop).
  Notation roots := (roots starts ends).
  Hypothesis Hroots : forall d v w, In (v, w) (roots d) -> v < n.
  Hypothesis HK : forall d v w, In (v, w) (roots d) -> w < umax c -> w <= K d.
  Hypothesis HW : forall d id ed, getN (fg_edges fg d) id = Some ed ->
    Bd (rk fg (fe_base ed)) + fe_weight ed <= Bd (rk fg (fe_adj ed)).
  Hypothesis HB : forall v, v < n -> Bd (rk fg v) <= Bm.
  Hypothesis Hallow : umax c < K Fwd + K Bwd + 2 * Bm -> allow.

  Notation sinv := (sinv c hinv n fg starts ends K Bd).
  Notation minv := (minv c hinv n fg starts ends K Bd).

  (** ** Initialisation *)
  Lemma init_best_spec :
    wp (ovf allow) (init_best c starts ends) (fun '(bw, mn) => (mn = umax c /\ bw = umax c) \/
      (bw < umax c /\ exists sw ew, In (mn, sw) starts /\ In (mn, ew) ends /\ sw + ew = bw /\ sw < umax c /\ ew < umax c)).
  Proof.
    unfold init_best. eapply wp_mono.
    - apply (wp_foldM_inv _ _ (fun '(bw, mn) => (mn = umax c /\ bw = umax c) \/
      (bw < umax c /\ exists sw ew, In (mn, sw) starts /\ In (mn, ew) ends /\ sw + ew = bw /\ sw < umax c /\ ew < umax c))).
      + left. auto.
      + intros [sn sw] [bw mn] Hs J.
        apply (wp_foldM_inv _ _ (fun '(bw, mn) => (mn = umax c /\ bw = umax c) \/
          (bw < umax c /\ exists sw ew, In (mn, sw) starts /\ In (mn, ew) ends /\ sw + ew = bw /\ sw < umax c /\ ew < umax c))); auto.
        clear bw mn J. intros [en ew] [bw mn] He J. unfold WEIGHT_MAX.
        destruct (N.eqb_spec sn en) as [->|]; simpl; auto.
        destruct (N.ltb_spec sw (umax c)) as [Hsw|]; simpl; auto.
        destruct (N.ltb_spec ew (umax c)) as [Hew|]; simpl; auto.
        apply wp_bind, wp_uadd_ovf; auto.
        * intros Hgt. apply Hallow. pose proof (HK Fwd _ _ Hs Hsw). pose proof (HK Bwd _ _ He Hew). lia.
        * intros _. destruct (N.ltb_spec (sw + ew) bw); simpl; auto.
          right. split; [lia|]. exists sw, ew. auto.
    - intros [bw mn] J. exact J.
  Qed.

  Record iinv (d : dir) (pre : list (N * N)) (s : Side) : Prop := mk_iinv {
    ii_base : side_base n s;
    ii_heap : hinv (s_heap s);
    ii_lab : forall v dt, lab s v = Some dt -> d_weight dt < umax c /\ d_settled dt = false /\
      d_inc_edge dt = umax c /\ d_parent dt = v /\ In (v, d_weight dt) (roots d) /\
      In (mkHeapItem (d_weight dt) v) (s_heap s);
    ii_items : forall it, In it (s_heap s) -> hi_weight it < umax c /\
      exists dt, lab s (hi_node it) = Some dt /\ d_weight dt <= hi_weight it;
    ii_roots : forall v w, In (v, w) pre -> w < umax c -> wt c s v <= w;
    ii_len : (List.length (s_heap s) <= List.length pre)%nat
  }.

  Lemma init_side_spec d s0 : side_base n s0 -> (forall v, lab s0 v = None) -> s_heap s0 = [] ->
    wp (ovf allow) (init_side c H s0 (roots d)) (iinv d (roots d)).
  Proof.
    intros B0 L0 E0. unfold init_side.
    apply wp_foldM with (I := fun pre s => iinv d pre s).
    - constructor; auto.
      + rewrite E0. apply HL.
      + intros v dt Hl. rewrite L0 in Hl. discriminate.
      + rewrite E0. intros it [].
      + intros v w [].
      + rewrite E0. simpl. lia.
    - intros pre [v w] post s Eq I.
      assert (In (v, w) (roots d)) as Hin by (rewrite Eq; apply in_or_app; simpl; auto).
      pose proof (Hroots _ _ _ Hin) as Hv.
      rewrite (get_weight_ok c n); [|apply I|auto]. cbn [bind].
      assert (forall u, wt c s u <= umax c) as Hle.
      { intros u. unfold wt. destruct (lab s u) eqn:El; [|lia]. apply (ii_lab _ _ _ I) in El. lia. }
      destruct (N.ltb_spec w (wt c s v)) as [Hlt|Hge].
      2:{ simpl. destruct I as [H1 H2 H3 H4 H5 H6]. constructor; auto.
          - intros v' w' Hi Hw. apply in_app_or in Hi as [Hi|[Hi|[]]]; auto. injection Hi as <- <-. auto.
          - rewrite app_length; simpl; lia. }
      destruct (update_ok n s v w v (INVALID_EDGE c) (ii_base _ _ _ I) Hv) as (s1 & -> & B1 & Hh1 & Hl1).
      cbn [bind]. apply wp_Ok. rewrite Hh1.
      destruct HL as (_ & Hpush & _). destruct (Hpush (s_heap s) (mkHeapItem w v) (ii_heap _ _ _ I)) as (P1 & P2).
      set (s' := s_set_heap s1 (hp_push H (s_heap s) (mkHeapItem w v))).
      assert (forall it, In it (s_heap s') <-> it = mkHeapItem w v \/ In it (s_heap s)) as Hits.
      { intros it. unfold s'; simpl. split.
        - intros Hi. eapply Permutation_in in Hi; [|exact P2]. destruct Hi; auto.
        - intros Hi. eapply Permutation_in; [symmetry; exact P2|]. simpl. destruct Hi; auto. }
      assert (forall u, lab s' u = if u =? v then Some (mkData false w v (umax c)) else lab s u) as Hl by (intros; apply Hl1).
      assert (forall u, wt c s' u = if u =? v then w else wt c s u) as Hwt.
      { intros u. unfold wt. rewrite Hl. destruct (u =? v); auto. }
      pose proof (Hle v).
      constructor.
      + exact B1.
      + exact P1.
      + intros u dt Hu. rewrite Hl in Hu. destruct (N.eqb_spec u v) as [->|Hne].
        * injection Hu as <-. simpl. repeat split; auto; [lia|]. apply Hits; auto.
        * apply (ii_lab _ _ _ I) in Hu as (A1 & A2 & A3 & A4 & A5 & A6). repeat split; auto. apply Hits; auto.
      + intros it Hit. rewrite Hl. apply Hits in Hit as [->|Hit].
        * simpl. rewrite N.eqb_refl. split; [lia|]. eexists; split; [reflexivity|]. simpl. lia.
        * apply (ii_items _ _ _ I) in Hit as (A1 & dt & A2 & A3). split; auto.
          destruct (N.eqb_spec (hi_node it) v) as [Hn'|]; [|eauto]. eexists; split; [reflexivity|]. simpl.
          rewrite Hn' in A2. rewrite (lab_wt c _ _ _ A2) in Hlt. lia.
      + intros u w' Hi Hw. rewrite Hwt. apply in_app_or in Hi as [Hi|[Hi|[]]].
        * pose proof (ii_roots _ _ _ I _ _ Hi Hw). destruct (N.eqb_spec u v) as [->|]; lia.
        * injection Hi as <- <-. rewrite N.eqb_refl. lia.
      + apply Permutation_length in P2. unfold s'; simpl. rewrite P2, app_length. simpl.
        pose proof (ii_len _ _ _ I). lia.
  Qed.

  Lemma iinv_sinv d best s : iinv d (roots d) s -> sinv d best None s.
  Proof.
    intros [H1 H2 H3 H4 H5 H6].
    assert (forall v, stl s v = false) as Hst.
    { intros v. unfold stl. destruct (lab s v) eqn:El; auto. apply H3 in El. intuition. }
    constructor; auto.
    - intros v dt Hl. apply H3 in Hl as (A1 & A2 & A3 & A4 & A5 & A6). split; auto. split.
      + pose proof (HK _ _ _ A5 A1). lia.
      + left. auto.
    - intros v it [G|G]; [rewrite Hst in G|]; discriminate.
    - intros v dt Hl _ _. left. apply H3 in Hl. intuition.
    - intros id ed _ G. rewrite Hst in G. discriminate.
  Qed.

  Lemma init_minv fwd bwd bw mn :
    iinv Fwd starts fwd -> iinv Bwd ends bwd ->
    ((mn = umax c /\ bw = umax c) \/
      (bw < umax c /\ exists sw ew, In (mn, sw) starts /\ In (mn, ew) ends /\ sw + ew = bw /\ sw < umax c /\ ew < umax c)) ->
    minv Fwd fwd bwd bw mn.
  Proof.
    intros F B Hm. constructor; [apply (iinv_sinv Fwd); exact F|apply (iinv_sinv Bwd); exact B| |].
    - destruct Hm as [Hm|(Hbw & sw & ew & G1 & G2 & G3 & G4 & G5)]; auto. right.
      split; [apply (Hroots Fwd _ _ G1)|]. split; auto.
      pose proof (ii_roots _ _ _ F _ _ G1 G4). pose proof (ii_roots _ _ _ B _ _ G2 G5).
      destruct (wt_lt_lab c fwd mn) as (d1 & D1 & D2); [lia|].
      destruct (wt_lt_lab c bwd mn) as (d2 & D3 & D4); [lia|].
      exists d1, d2. repeat split; auto. lia.
    - intros v G. unfold stl in G. destruct (lab fwd v) eqn:El; [|discriminate].
      apply (ii_lab _ _ _ F) in El. intuition congruence.
  Qed.

  (** ** Labels are weights of real paths *)
  Definition real (d : dir) (u v W : N) : Prop :=
    match d with Fwd => path (edge_rel E) u v W | Bwd => path (edge_rel E) v u W end.
  Lemma real_app d u v t W1 W2 : real d u v W1 -> real d v t W2 -> real d u t (W1 + W2).
  Proof. destruct d; simpl; intros; [|rewrite N.add_comm]; eapply path_app; eauto. Qed.
  Lemma real_nil d u : real d u u 0. Proof. destruct d; constructor. Qed.
  Lemma real_edge d id ed : getN (fg_edges fg d) id = Some ed -> real d (fe_base ed) (fe_adj ed) (fe_weight ed).
  Proof. intros Hed. pose proof (edge_path _ _ _ _ Hok _ _ _ Hed) as G. destruct d; exact G. Qed.
  Lemma real_up d u v W : path (up fg d) u v W -> real d u v W.
  Proof.
    intros G. destruct d; simpl; [eapply up_fwd_path|eapply up_bwd_path]; eauto.
  Qed.
  Lemma real_opp d u v W : real (opp d) u v W <-> real d v u W.
  Proof. destruct d; simpl; tauto. Qed.

  Lemma lab_real d best x s : sinv d best x s -> forall v dt, lab s v = Some dt ->
    exists r rw P, In (r, rw) (roots d) /\ real d r v P /\ d_weight dt = rw + P.
  Proof.
    intros I. assert (forall k v dt, (N.to_nat (rk fg v) < k)%nat -> lab s v = Some dt ->
      exists r rw P, In (r, rw) (roots d) /\ real d r v P /\ d_weight dt = rw + P) as G.
    { induction k as [|k IH]; intros v dt Hk Hl; [lia|].
      destruct (si_lab _ _ _ _ _ _ _ _ _ _ _ _ I _ _ Hl) as (_ & _ & [(A1 & A2 & A3)|(ed & dp & A1 & A2 & A3 & A4 & A5 & A6)]).
      - exists v, (d_weight dt), 0. split; auto. split; [apply real_nil|lia].
      - destruct (ok_edge _ _ _ _ Hok _ _ _ A1) as (_ & _ & _ & Hr). rewrite A2, A3 in Hr.
        destruct (IH (d_parent dt) dp) as (r & rw & P & B1 & B2 & B3); [lia|auto|].
        exists r, rw, (P + fe_weight ed). split; auto. split; [|lia].
        eapply real_app; [exact B2|]. pose proof (real_edge _ _ _ A1) as B4. rewrite A2, A3 in B4. auto. }
    intros v dt Hl. eapply G; eauto.
  Qed.

  (** labels are also weights of climbs *)
  Lemma lab_up d best x s : sinv d best x s -> forall v dt, lab s v = Some dt ->
    exists r rw P, In (r, rw) (roots d) /\ path (up fg d) r v P /\ d_weight dt = rw + P.
  Proof.
    intros I. assert (forall k v dt, (N.to_nat (rk fg v) < k)%nat -> lab s v = Some dt ->
      exists r rw P, In (r, rw) (roots d) /\ path (up fg d) r v P /\ d_weight dt = rw + P) as G.
    { induction k as [|k IH]; intros v dt Hk Hl; [lia|].
      destruct (si_lab _ _ _ _ _ _ _ _ _ _ _ _ I _ _ Hl) as (_ & _ & [(A1 & A2 & A3)|(ed & dp & A1 & A2 & A3 & A4 & A5 & A6)]).
      - exists v, (d_weight dt), 0. split; auto. split; [constructor|lia].
      - destruct (ok_edge _ _ _ _ Hok _ _ _ A1) as (_ & _ & _ & Hr). rewrite A2, A3 in Hr.
        destruct (IH (d_parent dt) dp) as (r & rw & P & B1 & B2 & B3); [lia|auto|].
        exists r, rw, (P + (fe_weight ed + 0)). split; auto. split; [|lia].
        eapply path_app; [exact B2|]. econstructor; [|constructor]. exists (d_inc_edge dt), ed. auto. }
    intros v dt Hl. eapply G; eauto.
  Qed.

  (** ** Optimality *)
  Definition ptot (W : N) : Prop :=
    exists s sw t tw W0, In (s, sw) starts /\ In (t, tw) ends /\ path (edge_rel E) s t W0 /\ W = sw + W0 + tw.
  Definition dtot (d : dir) (W : N) : Prop :=
    exists s sw t tw W0, In (s, sw) (roots d) /\ In (t, tw) (roots (opp d)) /\ real d s t W0 /\ W = sw + W0 + tw.
  Lemma dtot_ptot d W : dtot d W -> ptot W.
  Proof.
    intros (s & sw & t & tw & W0 & H1 & H2 & H3 & H4). destruct d; simpl in *.
    - exists s, sw, t, tw, W0. auto.
    - exists t, tw, s, sw, W0. repeat split; auto. lia.
  Qed.

  Section Opt.
    Variables (d : dir) (best W : N) (s : Side).
    Hypothesis I : sinv d best None s.
    Hypothesis Hheap : s_heap s = [].
    Hypothesis Hb : W < best.
    Hypothesis HWu : W < umax c.
    Hypothesis Hmin : forall W', dtot d W' -> W <= W'.

    Definition rest (y B : N) : Prop :=
      exists t tw P, In (t, tw) (roots (opp d)) /\ real d y t P /\ B = P + tw.

    Lemma lab_min y dt B : lab s y = Some dt -> rest y B -> W <= d_weight dt + B.
    Proof.
      intros Hl (t & tw & P & G1 & G2 & ->).
      destruct (lab_real _ _ _ _ I _ _ Hl) as (r & rw & P' & B1 & B2 & B3).
      apply Hmin. exists r, rw, t, tw, (P' + P). repeat split; auto; [eapply real_app; eauto|lia].
    Qed.

    Lemma opt_step y a B : wt c s y <= a -> rest y B -> a + B = W -> stl s y = true /\ wt c s y = a.
    Proof.
      intros Hle Hr Hs. destruct (wt_lt_lab c s y) as (dt & Hl & Hd); [lia|].
      pose proof (lab_min _ _ _ Hl Hr) as Hm. assert (wt c s y = a) as Ha by lia. split; auto.
      destruct (stl s y) eqn:Es; auto. exfalso.
      destruct (si_Q _ _ _ _ _ _ _ _ _ _ _ _ I _ _ Hl Es) as [G|[G|G]]; [discriminate|rewrite Hheap in G; destruct G| |lia].
      destruct G as (id & ed & G1 & G2 & G3 & G4).
      destruct (wt_lt_lab c s (fe_adj ed) G3) as (du & Hlu & Hdu).
      assert (rest (fe_adj ed) (fe_weight ed + B)) as Hru.
      { destruct Hr as (t & tw & P & R1 & R2 & ->). exists t, tw, (fe_weight ed + P). repeat split; auto; [|lia].
        eapply real_app; [|exact R2]. apply real_opp. rewrite <- G2. apply real_edge with (id := id); auto. }
      pose proof (lab_min _ _ _ Hlu Hru). lia.
    Qed.

    Lemma opt_path y z P : path (up fg d) y z P -> forall a B, wt c s y <= a -> rest z B -> a + P + B = W ->
      stl s z = true /\ wt c s z = a + P.
    Proof.
      induction 1 as [y|y x z w P Hu Hp IH]; intros a B Hle Hr Hs.
      - rewrite N.add_0_r. eapply opt_step; eauto. lia.
      - destruct (opt_step y a (w + P + B)) as [Hst Hwt]; auto; [|lia|].
        + destruct Hr as (t & tw & P' & R1 & R2 & ->). exists t, tw, (w + P + P'). repeat split; auto; [|lia].
          eapply real_app; [|exact R2]. apply real_up. econstructor; eauto.
        + destruct Hu as (id & ed & Hed & H1 & H2 & H3). subst y x w.
          pose proof (si_relaxed _ _ _ _ _ _ _ _ _ _ _ _ I _ _ Hed Hst) as Hrel. rewrite Hwt in Hrel.
          destruct (IH (a + fe_weight ed) B) as [G1 G2]; auto; [apply Hrel; lia|lia|]. split; auto. lia.
    Qed.
  End Opt.

  Lemma best_opt fwd bwd best mn : fg_ok c E n fg -> minv Fwd fwd bwd best mn -> s_heap fwd = [] -> s_heap bwd = [] ->
    forall W, ptot W -> W < umax c -> best <= W.
  Proof.
    intros Hfull M Ef Eb W. induction W as [W IH] using (well_founded_induction N.lt_wf_0). intros Ht HWu.
    destruct (N.le_gt_cases best W) as [|Hb]; auto. exfalso.
    assert (forall W', ptot W' -> W <= W') as Hmin.
    { intros W' Ht'. destruct (N.le_gt_cases W W') as [|Hlt]; auto.
      specialize (IH W' Hlt Ht' ltac:(lia)). lia. }
    destruct Ht as (s & sw & t & tw & W0 & Hs & Ht & Hp & HW0).
    destruct (ok_complete _ _ _ _ Hfull _ _ _ Hp) as (m & W1 & W2 & Hf & Hbk & Hle); [lia|].
    assert (sw + (W1 + W2) + tw = W) as Heq.
    { assert (W <= sw + (W1 + W2) + tw); [|lia]. apply Hmin. exists s, sw, t, tw, (W1 + W2). repeat split; auto.
      eapply path_app; [eapply up_fwd_path|eapply up_bwd_path]; eauto. }
    destruct (opt_path Fwd best W fwd (mi_own _ _ _ _ _ _ _ _ _ _ _ _ _ M) Ef Hb HWu
      (fun W' G => Hmin W' (dtot_ptot _ _ G)) s m W1 Hf sw (W2 + tw)) as [F1 F2].
    { apply (si_roots _ _ _ _ _ _ _ _ _ _ _ _ (mi_own _ _ _ _ _ _ _ _ _ _ _ _ _ M)); auto. lia. }
    { exists t, tw, W2. repeat split; auto. apply (real_up Bwd); auto. }
    { lia. }
    destruct (opt_path Bwd best W bwd (mi_other _ _ _ _ _ _ _ _ _ _ _ _ _ M) Eb Hb HWu
      (fun W' G => Hmin W' (dtot_ptot _ _ G)) t m W2 Hbk tw (W1 + sw)) as [B1 B2].
    { apply (si_roots _ _ _ _ _ _ _ _ _ _ _ _ (mi_other _ _ _ _ _ _ _ _ _ _ _ _ _ M)); auto. lia. }
    { exists s, sw, W1. repeat split; auto. apply (real_up Fwd); auto. }
    { lia. }
    pose proof (mi_both _ _ _ _ _ _ _ _ _ _ _ _ _ M m F1 B1). lia.
  Qed.

  (** ** Extraction of the node list *)
  Lemma lab_data (s : Side) v dt : lab s v = Some dt -> getN (s_data s) v = Some dt.
  Proof. unfold lab, view. destruct (vfb (s_flags s) v); [auto|discriminate]. Qed.

  Definition ext_list (d : dir) (L : list N) : list N := match d with Fwd => rev L | Bwd => L end.
  Definition ext_walk (d : dir) (v r : N) (L : list N) (P : N) : Prop :=
    match d with Fwd => walk E r v (L ++ [v]) P | Bwd => walk E v r (L ++ [r]) P end.

  Lemma unpack_tree_spec d best x s : sinv d best x s -> forall k v dt, (N.to_nat (rk fg v) < k)%nat -> lab s v = Some dt ->
    exists r rw P L, In (r, rw) (roots d) /\ d_weight dt = rw + P /\ ext_walk d v r L P /\
      forall result, unpack_tree k c fg d s result v = Ok (result ++ ext_list d L, r).
  Proof.
    intros I. induction k as [|k IH]; intros v dt Hk Hl; [lia|].
    destruct (si_lab _ _ _ _ _ _ _ _ _ _ _ _ I _ _ Hl) as (_ & _ & [(A1 & A2 & A3)|(ed & dp & A1 & A2 & A3 & A4 & A5 & A6)]).
    - exists v, (d_weight dt), 0, []. split; auto. split; [lia|]. split; [destruct d; constructor|].
      intros result. simpl. rewrite (idx_Some _ _ _ (lab_data _ _ _ Hl)). cbn [bind].
      unfold INVALID_EDGE. rewrite A1, N.eqb_refl. destruct d; simpl; rewrite app_nil_r; auto.
    - destruct (ok_edge _ _ _ _ Hok _ _ _ A1) as (Hbn & _ & _ & Hr).
      destruct (IH (d_parent dt) dp) as (r & rw & P & L & B1 & B2 & B3 & B4); [rewrite <- A2; rewrite A3 in Hr; lia|auto|].
      destruct (unpack_spec _ _ _ _ Hok (unpack_fuel fg) d _ _ A1) as (L' & U1 & U2 & U3).
      { unfold unpack_fuel. rewrite (ok_n _ _ _ _ Hok). pose proof (ok_rank _ _ _ _ Hok _ Hbn). lia. }
      exists r, rw, (P + fe_weight ed), (match d with Fwd => L ++ L' | Bwd => L' ++ L end).
      split; auto. split; [lia|]. split.
      + destruct d; simpl in *; rewrite A2, A3 in U1.
        * rewrite <- app_assoc. eapply walk_app; eauto.
        * rewrite <- app_assoc, N.add_comm. eapply walk_app; eauto.
      + intros result. cbn [unpack_tree]. rewrite (idx_Some _ _ _ (lab_data _ _ _ Hl)). cbn [bind].
        apply getN_Some_lt in A1. pose proof (umax_pos c E n fg Hok) as (_ & Hu). specialize (Hu d).
        unfold INVALID_EDGE. destruct (N.eqb_spec (d_inc_edge dt) (umax c)) as [He|_]; [lia|].
        destruct d.
        * rewrite U3. cbn [bind]. rewrite B4. simpl. rewrite rev_app_distr, app_assoc. auto.
        * rewrite U2. cbn [bind]. rewrite B4. simpl. rewrite app_assoc. auto.
  Qed.

  Lemma ptot_total W : ptot W <-> exists s t ns, total E starts ends s t ns W.
  Proof.
    split.
    - intros (s & sw & t & tw & W0 & H1 & H2 & H3 & H4). apply path_walk in H3 as (ns & H3).
      exists s, t, ns, sw, tw, W0. auto.
    - intros (s & t & ns & sw & tw & W0 & H1 & H2 & H3 & H4). apply walk_path in H3.
      exists s, sw, t, tw, W0. auto.
  Qed.

  Lemma idx_0 {A} (a : A) l : idx (a :: l) 0 = Ok a.
  Proof. reflexivity. Qed.
  Lemma idx_last {A} (l : list A) a : idx (l ++ [a]) (lenN (l ++ [a]) - 1) = Ok a.
  Proof.
    apply idx_Some. rewrite lenN_app. change (lenN [a]) with 1.
    replace (lenN l + 1 - 1) with (lenN l) by lia.
    rewrite getN_app2, N.sub_diag by lia. auto.
  Qed.

  (** a climb from both ends to a common node, together no heavier than [W] *)
  Definition climbs (W : N) : Prop :=
    exists s sw t tw m W1 W2, In (s, sw) starts /\ In (t, tw) ends /\ path (up fg Fwd) s m W1 /\ path (up fg Bwd) t m W2 /\
      sw + W1 + (tw + W2) <= W.

  Theorem calc_base pc : pc_ok n pc -> starts <> [] -> ends <> [] ->
    wp (ovf allow) (pc_calc_path_multiple c H pc fg starts ends)
       (fun '(pc', r) => pc_ok n pc' /\ (fg_ok c E n fg -> answer_ok c E starts ends r) /\
          forall sp, r = Some sp -> climbs (sp_weight sp)).
  Proof.
    intros (Hn & Bf & Bb) Hs He. unfold pc_calc_path_multiple.
    rewrite (ok_n _ _ _ _ Hok), Hn, N.eqb_refl. cbn [assert bind].
    destruct starts as [|s0 sr] eqn:Est; [congruence|]. rewrite <- Est in *.
    destruct ends as [|e0 er] eqn:Een; [congruence|]. rewrite <- Een in *.
    replace (is_nil starts) with false by (rewrite Est; auto).
    replace (is_nil ends) with false by (rewrite Een; auto). clear Est Een s0 sr e0 er. cbn [assert bind negb].
    assert (forallb (fun '(v, _) => v <? n) starts = true) as ->.
    { apply forallb_forall. intros [v w] Hi. apply N.ltb_lt. apply (Hroots Fwd _ _ Hi). }
    assert (forallb (fun '(v, _) => v <? n) ends = true) as ->.
    { apply forallb_forall. intros [v w] Hi. apply N.ltb_lt. apply (Hroots Bwd _ _ Hi). }
    cbn [assert bind].
    destruct (reset_ok n _ Bf) as [Rf1 Rf2]. destruct (reset_ok n _ Bb) as [Rb1 Rb2].
    eapply wp_bind_mono; [apply init_best_spec|]. intros [bw0 mn0] Hm0.
    eapply wp_bind_mono; [apply (init_side_spec Fwd _ Rf1 Rf2); auto|]. intros fwd1 F1.
    eapply wp_bind_mono; [apply (init_side_spec Bwd _ Rb1 Rb2); auto|]. intros bwd1 B1.
    eapply wp_bind_mono.
    { eapply (main_loop_spec c H hinv HL Hdbg E n fg Hok); eauto.
      - apply init_minv; eauto.
      - unfold meas, query_fuel. rewrite fsize_of. unfold lenN.
        assert (forall s d, (ucnt fg s d <= List.length (fg_edges fg d))%nat) as Hu.
        { intros s d. unfold ucnt. pose proof (filter_len_le (uns fg s d) (rangeN 0 (lenN (fg_edges fg d)))). pose proof (lenN_rangeN 0 (lenN (fg_edges fg d))) as G.
          unfold lenN in *. lia. }
        pose proof (Hu fwd1 Fwd). pose proof (Hu bwd1 Bwd).
        pose proof (ii_len _ _ _ F1). pose proof (ii_len _ _ _ B1). simpl in *. lia. }
    intros [[[fwd2 bwd2] best] mn] (M & Ef & Eb).
    assert (pc_ok n (mkPC n fwd2 bwd2)) as Hpc.
    { split; auto. split; [apply (mi_own _ _ _ _ _ _ _ _ _ _ _ _ _ M)|apply (mi_other _ _ _ _ _ _ _ _ _ _ _ _ _ M)]. }
    unfold INVALID_NODE, WEIGHT_MAX.
    destruct (mi_meet _ _ _ _ _ _ _ _ _ _ _ _ _ M) as [(-> & ->)|(Hmn & Hbest & d1 & d2 & L1 & L2 & Hsum)].
    - rewrite N.eqb_refl. simpl. split; auto. split; [|discriminate]. intros Hfull s t ns W Ht.
      destruct (N.le_gt_cases (umax c) W) as [|Hlt]; auto.
      apply (best_opt _ _ _ _ Hfull M Ef Eb); auto. apply ptot_total. eauto.
    - destruct (umax_pos c E n fg Hok) as [Hnu _].
      destruct (N.eqb_spec mn (umax c)) as [|_]; [lia|].
      destruct (N.ltb_spec best (umax c)); [|lia]. cbn [assert bind].
      unfold extract_nodes. unfold INVALID_NODE. destruct (N.eqb_spec mn (umax c)) as [|_]; [lia|]. cbn [assert bind negb].
      rewrite (valid_ok n); [|apply (mi_own _ _ _ _ _ _ _ _ _ _ _ _ _ M)|auto].
      rewrite (valid_ok n); [|apply (mi_other _ _ _ _ _ _ _ _ _ _ _ _ _ M)|auto].
      rewrite L1, L2. cbn [assert bind]. rewrite (ok_n _ _ _ _ Hok).
      assert ((N.to_nat (rk fg mn) < S (N.to_nat n))%nat) as Hrk.
      { pose proof (ok_rank _ _ _ _ Hok _ Hmn). lia. }
      destruct (unpack_tree_spec _ _ _ _ (mi_own _ _ _ _ _ _ _ _ _ _ _ _ _ M) _ _ _ Hrk L1)
        as (r1 & rw1 & P1 & Lf & A1 & A2 & A3 & ->).
      cbn [bind].
      destruct (unpack_tree_spec _ _ _ _ (mi_other _ _ _ _ _ _ _ _ _ _ _ _ _ M) _ _ _ Hrk L2)
        as (r2 & rw2 & P2 & Lb & C1 & C2 & C3 & C4).
      change (opp Fwd) with Bwd in *. rewrite C4. cbn [bind]. simpl ext_list. simpl app. rewrite rev_involutive.
      rewrite <- app_assoc.
      assert (walk E r1 r2 (Lf ++ Lb ++ [r2]) (P1 + P2)) as Hwalk by (eapply walk_app; [exact A3|exact C3]).
      assert (total E starts ends r1 r2 (Lf ++ Lb ++ [r2]) (d_weight d1 + d_weight d2)) as Htot.
      { exists rw1, rw2, (P1 + P2). repeat split; auto. lia. }
      destruct (walk_head _ _ _ _ _ Hwalk) as (rr & Err).
      replace (is_nil (Lf ++ Lb ++ [r2])) with false by (rewrite Err; auto). cbn [assert bind negb].
      rewrite Err at 1. rewrite idx_0. cbn [bind]. rewrite app_assoc, idx_last. cbn [bind]. apply wp_Ok.
      split; auto. split.
      2:{ intros sp [= <-]. cbn [sp_weight].
          destruct (lab_up _ _ _ _ (mi_own _ _ _ _ _ _ _ _ _ _ _ _ _ M) _ _ L1) as (q1 & v1 & Q1 & D1 & D2 & D3).
          destruct (lab_up _ _ _ _ (mi_other _ _ _ _ _ _ _ _ _ _ _ _ _ M) _ _ L2) as (q2 & v2 & Q2 & F1' & F2 & F3).
          exists q1, v1, q2, v2, mn, Q1, Q2. repeat split; auto. lia. }
      intros Hfull.
      assert (best <= d_weight d1 + d_weight d2) as Hbo.
      { apply (best_opt _ _ _ _ Hfull M Ef Eb); [|lia]. apply ptot_total. eauto. }
      simpl. rewrite <- app_assoc. replace best with (d_weight d1 + d_weight d2) by lia.
      split; auto. split; [lia|]. intros s t ns W Ht.
      destruct (N.le_gt_cases (umax c) W) as [|Hlt]; [lia|].
      assert (best <= W); [|lia]. apply (best_opt _ _ _ _ Hfull M Ef Eb); auto. apply ptot_total. eauto.
  Qed.

  Theorem calc_spec pc : fg_ok c E n fg -> pc_ok n pc -> starts <> [] -> ends <> [] ->
    wp (ovf allow) (pc_calc_path_multiple c H pc fg starts ends)
       (fun '(pc', r) => pc_ok n pc' /\ answer_ok c E starts ends r).
  Proof.
    intros Hfull Hpc Hs He. eapply wp_mono; [apply calc_base; auto|]. intros [pc' r] (H1 & H2 & _). auto.
  Qed.
End Result.
