(** * QueryFacts: invariants of the bidirectional search *)
From Verif Require Export UnpackFacts FlagFacts.
From Coq Require Import Permutation.
Open Scope N_scope.

(** Only an overflow of an addition is excusable, and only if [allow] holds. *)
Definition ovf (allow : Prop) (r : panic_reason) : Prop :=
  match r with POverflow => allow | _ => False end.
Lemma wp_uadd_ovf c (allow : Prop) a b (Q : N -> Prop) :
  debug_build c = true ->
  (umax c < a + b -> allow) -> (a + b <= umax c -> Q (a + b)) ->
  wp (ovf allow) (uadd c a b) Q.
Proof.
  intros Hd H1 H2. unfold uadd. destruct (N.leb_spec (a + b) (umax c)); simpl; auto.
  rewrite Hd. simpl; auto.
Qed.

Definition lab (s : Side) (v : N) : option Data := view (s_flags s) (s_data s) v.
Definition stl (s : Side) (v : N) : bool :=
  match lab s v with Some dt => d_settled dt | None => false end.
Definition wt (c : cfg) (s : Side) (v : N) : N :=
  match lab s v with Some dt => d_weight dt | None => umax c end.

Definition side_base (n : N) (s : Side) : Prop := vf_inv n (s_flags s) /\ lenN (s_data s) = n.

Lemma lab_lt n s v dt : side_base n s -> lab s v = Some dt -> v < n.
Proof. intros [H _] Hl. eapply view_lt; eauto. Qed.

Lemma is_settled_ok n s v : side_base n s -> v < n -> s_is_settled s v = Ok (stl s v).
Proof.
  intros [H1 H2] Hv. unfold s_is_settled, stl, lab, view. rewrite (vf_is_valid_ok n); auto. cbn [bind].
  destruct (vfb (s_flags s) v); auto. unfold idx. destruct (getN_lt (s_data s) v) as [x ->]; [lia|]. reflexivity.
Qed.
Lemma get_weight_ok c n s v : side_base n s -> v < n -> s_get_weight c s v = Ok (wt c s v).
Proof.
  intros [H1 H2] Hv. unfold s_get_weight, wt, lab, view. rewrite (vf_is_valid_ok n); auto. cbn [bind].
  destruct (vfb (s_flags s) v); auto. unfold idx. destruct (getN_lt (s_data s) v) as [x ->]; [lia|]. reflexivity.
Qed.
Lemma valid_ok n s v : side_base n s -> v < n ->
  vf_is_valid (s_flags s) v = Ok (match lab s v with Some _ => true | None => false end).
Proof.
  intros [H1 H2] Hv. rewrite (vf_is_valid_ok n); auto. unfold lab, view.
  destruct (vfb (s_flags s) v); auto. destruct (getN_lt (s_data s) v) as [x ->]; [lia|]. reflexivity.
Qed.
Lemma update_ok n s v w p i : side_base n s -> v < n ->
  exists s', s_update_node s v w p i = Ok s' /\ side_base n s' /\ s_heap s' = s_heap s /\
    (forall u, lab s' u = if u =? v then Some (mkData false w p i) else lab s u).
Proof.
  intros [H1 H2] Hv. unfold s_update_node.
  destruct (vf_set_valid_ok n (s_flags s) v H1 Hv) as (f' & -> & Hf' & Hb). cbn [bind].
  rewrite upd_eq by lia. cbn [bind]. eexists; split; [reflexivity|]. split; [split; simpl; auto; rewrite lenN_setN; auto|].
  split; auto. intros u. unfold lab, view; simpl. rewrite Hb, getN_setN.
  rewrite (N.eqb_sym v u). destruct (N.eqb_spec u v) as [->|]; simpl; auto.
  destruct (N.ltb_spec v (lenN (s_data s))); [auto|lia].
Qed.
Lemma settle_node_ok n s v dt : side_base n s -> lab s v = Some dt ->
  exists s', s_settle s v = Ok s' /\ side_base n s' /\ s_heap s' = s_heap s /\
    (forall u, lab s' u = if u =? v then Some (mkData true (d_weight dt) (d_parent dt) (d_inc_edge dt)) else lab s u).
Proof.
  intros Hs Hl. pose proof (lab_lt _ _ _ _ Hs Hl) as Hv. destruct Hs as [H1 H2].
  unfold s_settle. unfold lab, view in Hl. destruct (vfb (s_flags s) v) eqn:Ef; [|discriminate].
  rewrite (idx_Some _ _ _ Hl). cbn [bind]. rewrite upd_eq by lia. cbn [bind].
  eexists; split; [reflexivity|]. split; [split; simpl; auto; rewrite lenN_setN; auto|].
  split; auto. intros u. unfold lab, view; simpl. rewrite getN_setN. rewrite (N.eqb_sym v u).
  destruct (N.eqb_spec u v) as [->|]; simpl; auto. rewrite Ef.
  destruct (N.ltb_spec v (lenN (s_data s))); [auto|lia].
Qed.
Lemma reset_ok n s : side_base n s -> side_base n (reset_side s) /\ (forall v, lab (reset_side s) v = None).
Proof.
  intros [H1 H2]. destruct (vf_invalidate_ok n _ H1) as [H3 H4]. split; [split; auto|].
  intros v. unfold lab, view; simpl. rewrite H4. auto.
Qed.

Lemma wt_lt_lab c s v : wt c s v < umax c -> exists dt, lab s v = Some dt /\ d_weight dt = wt c s v.
Proof. unfold wt. destruct (lab s v) as [dt|]; [eauto|lia]. Qed.
Lemma lab_wt c s v dt : lab s v = Some dt -> wt c s v = d_weight dt.
Proof. unfold wt. intros ->. auto. Qed.

  Lemma umax_pos c E n fg (Hok : fg_base c E n fg) : n < umax c /\ forall d, lenN (fg_edges fg d) < umax c.
  Proof.
    pose proof (ok_cap _ _ _ _ Hok) as H1. pose proof (N.div_lt (umax c) 2) as H2.
    assert (0 < umax c). { destruct (N.eq_dec (umax c) 0) as [E0|]; [|lia]. rewrite E0 in H1. change (0 / 2) with 0 in H1. lia. }
    split; [lia|]. intros d. pose proof (ok_len _ _ _ _ Hok d). lia.
  Qed.

Section Query.
  Variables (c : cfg) (H : heap_ops) (hinv : list HeapItem -> Prop).
  Hypothesis HL : heap_laws H hinv.
  Hypothesis Hdbg : debug_build c = true.
  Variables (E : list Edge) (n : N) (fg : FastGraph).
  Hypothesis Hok : fg_base c E n fg.
  Variables (starts ends : list (N * N)).
  Variables (K : dir -> N) (Bd : N -> N) (Bm : N) (allow : Prop).

  Definition roots (d : dir) := match d with Fwd => starts | Bwd => ends end.
  Hypothesis Hroots : forall d v w, In (v, w) (roots d) -> v < n.
  Hypothesis HK : forall d v w, In (v, w) (roots d) -> w < umax c -> w <= K d.
  Hypothesis HW : forall d id ed, getN (fg_edges fg d) id = Some ed ->
    Bd (rk fg (fe_base ed)) + fe_weight ed <= Bd (rk fg (fe_adj ed)).
  Hypothesis HB : forall v, v < n -> Bd (rk fg v) <= Bm.
  Hypothesis Hallow : umax c < K Fwd + K Bwd + 2 * Bm -> allow.


  (** [v] may be stalled: a higher node leads to it more cheaply than its label says *)
  Definition stallw (d : dir) (s : Side) (v : N) : Prop :=
    exists id ed, getN (fg_edges fg (opp d)) id = Some ed /\ fe_base ed = v /\
      wt c s (fe_adj ed) < umax c /\ wt c s (fe_adj ed) + fe_weight ed < wt c s v.

  Definition done (x : option N) (s : Side) (v : N) : Prop := stl s v = true \/ x = Some v.

  Record sinv (d : dir) (best : N) (x : option N) (s : Side) : Prop := mk_sinv {
    si_base : side_base n s;
    si_heap : hinv (s_heap s);
    si_lab : forall v dt, lab s v = Some dt ->
      d_weight dt < umax c /\ d_weight dt <= K d + Bd (rk fg v) /\
      ((d_inc_edge dt = umax c /\ d_parent dt = v /\ In (v, d_weight dt) (roots d)) \/
       (exists ed dp, getN (fg_edges fg d) (d_inc_edge dt) = Some ed /\
          fe_base ed = d_parent dt /\ fe_adj ed = v /\ lab s (d_parent dt) = Some dp /\
          done x s (d_parent dt) /\ d_weight dt = d_weight dp + fe_weight ed));
    si_items : forall it, In it (s_heap s) -> hi_weight it < umax c /\
      exists dt, lab s (hi_node it) = Some dt /\ d_weight dt <= hi_weight it;
    si_mono : forall v it, done x s v -> In it (s_heap s) -> wt c s v <= hi_weight it;
    si_Q : forall v dt, lab s v = Some dt -> stl s v = false -> x <> Some v ->
      In (mkHeapItem (d_weight dt) v) (s_heap s) \/ stallw d s v \/ best < d_weight dt;
    si_relaxed : forall id ed, getN (fg_edges fg d) id = Some ed -> stl s (fe_base ed) = true ->
      wt c s (fe_base ed) + fe_weight ed < umax c ->
      wt c s (fe_adj ed) <= wt c s (fe_base ed) + fe_weight ed;
    si_roots : forall v w, In (v, w) (roots d) -> w < umax c -> wt c s v <= w
  }.

  Lemma wt_le d best x s v : sinv d best x s -> wt c s v <= umax c.
  Proof.
    intros I. unfold wt. destruct (lab s v) as [dt|] eqn:El; [|lia].
    apply (si_lab _ _ _ _ I) in El. lia.
  Qed.
  Lemma wt_bound d best x s v dt : sinv d best x s -> lab s v = Some dt -> d_weight dt <= K d + Bd (rk fg v) /\ Bd (rk fg v) <= Bm.
  Proof.
    intros I Hl. pose proof (lab_lt _ _ _ _ (si_base _ _ _ _ I) Hl) as Hv.
    apply (si_lab _ _ _ _ I) in Hl as (_ & Hl & _). split; auto.
  Qed.

  Lemma sinv_best d best best' x s : best' <= best -> sinv d best x s -> sinv d best' x s.
  Proof.
    intros Hle [H1 H2 H3 H4 H5 H6 H7 H8]. constructor; auto.
    intros v dt Hl Hs Hx. destruct (H6 v dt Hl Hs Hx) as [G|[G|G]]; auto. right; right. lia.
  Qed.

  (** ** Stalling *)
  Lemma stall_spec d best s curr b e :
    sinv d best None s -> slice fg (opp d) (hi_node curr) b e -> e <= lenN (fg_edges fg (opp d)) ->
    forall ids, (forall i, In i ids -> b <= i < e) ->
    wp (ovf allow) (stall_loop c fg d s curr ids)
       (fun r => (r = true -> exists id ed, getN (fg_edges fg (opp d)) id = Some ed /\ fe_base ed = hi_node curr /\
                     wt c s (fe_adj ed) < umax c /\ wt c s (fe_adj ed) + fe_weight ed < hi_weight curr) /\
                 (r = false -> forall id ed, In id ids -> getN (fg_edges fg (opp d)) id = Some ed ->
                     wt c s (fe_adj ed) < umax c -> hi_weight curr <= wt c s (fe_adj ed) + fe_weight ed)).
  Proof.
    intros I Hs He. induction ids as [|i ids IH]; intros Hi; simpl.
    { split; [discriminate|]. intros _ id ed []. }
    assert (b <= i < e) as Hie by (apply Hi; simpl; auto).
    destruct (getN_lt (fg_edges fg (opp d)) i) as (ed & Hed); [lia|].
    rewrite (idx_Some _ _ _ Hed). cbn [bind].
    assert (fe_base ed = hi_node curr) as Hb by (apply (ok_iff _ _ _ _ Hok _ _ _ _ _ _ Hed Hs); auto).
    destruct (ok_edge _ _ _ _ Hok _ _ _ Hed) as (_ & Ha & _ & _).
    rewrite (get_weight_ok c n); [|apply I|auto]. cbn [bind].
    specialize (IH (fun j Hj => Hi j (or_intror Hj))).
    unfold WEIGHT_MAX. destruct (N.eqb_spec (wt c s (fe_adj ed)) (umax c)) as [Hw|Hw].
    - eapply wp_mono; [exact IH|]. intros r [R1 R2]. split; auto.
      intros Hr id ed' [<-|Hin] Hg Hlt; [|eauto]. replace ed' with ed in * by congruence. lia.
    - pose proof (wt_le _ _ _ _ (fe_adj ed) I).
      apply wp_bind, wp_uadd_ovf; auto.
      + intros Hgt. apply Hallow. destruct (wt_lt_lab c s (fe_adj ed)) as (dt & Hl & Hdt); [lia|].
        pose proof (wt_bound _ _ _ _ _ _ I Hl). pose proof (HW _ _ _ Hed). destruct d; lia.
      + intros _. destruct (N.ltb_spec (wt c s (fe_adj ed) + fe_weight ed) (hi_weight curr)) as [Hlt|Hge].
        * simpl. split; [|discriminate]. intros _. exists i, ed. repeat split; auto. lia.
        * eapply wp_mono; [exact IH|]. intros r [R1 R2]. split; auto.
          intros Hr id ed' [<-|Hin] Hg Hlt; [|eauto]. replace ed' with ed in * by congruence. auto.
  Qed.

  Lemma stall_set_heap d s h curr ids : stall_loop c fg d (s_set_heap s h) curr ids = stall_loop c fg d s curr ids.
  Proof.
    induction ids as [|i ids IH]; simpl; auto. destruct (idx (fg_edges fg (opp d)) i); cbn [bind]; auto.
    change (s_get_weight c (s_set_heap s h)) with (s_get_weight c s).
    destruct (s_get_weight c s (fe_adj a)); cbn [bind]; auto. rewrite IH. auto.
  Qed.

  (** ** Relaxation *)
  Lemma stallw_mono d s s' v : (forall u, wt c s' u <= wt c s u) -> wt c s' v = wt c s v ->
    stallw d s v -> stallw d s' v.
  Proof.
    intros Hm Hv (id & ed & H1 & H2 & H3 & H4). exists id, ed. split; auto. split; auto.
    specialize (Hm (fe_adj ed)). lia.
  Qed.

  Lemma relax_edge_spec d best s x wx dx id ed :
    sinv d best (Some x) s -> lab s x = Some dx -> d_weight dx = wx -> stl s x = false ->
    (forall v, stl s v = true -> wt c s v <= wx) ->
    (forall it, In it (s_heap s) -> wx <= hi_weight it) ->
    getN (fg_edges fg d) id = Some ed -> fe_base ed = x ->
    wp (ovf allow) (relax_edge c H fg d (mkHeapItem wx x) s id)
       (fun s' => sinv d best (Some x) s' /\ lab s' x = Some dx /\ (forall v, stl s' v = stl s v) /\
          (forall v, stl s v = true -> wt c s' v = wt c s v) /\
          (forall it, In it (s_heap s') -> wx <= hi_weight it) /\
          (forall u, wt c s' u <= wt c s u) /\
          (wx + fe_weight ed < umax c -> wt c s' (fe_adj ed) <= wx + fe_weight ed) /\
          (List.length (s_heap s') <= S (List.length (s_heap s)))%nat).
  Proof.
    intros I Hx Hwx Hsx Hset Hheap Hed Hbase. unfold relax_edge.
    rewrite (idx_Some _ _ _ Hed). cbn [bind hi_weight hi_node].
    destruct (ok_edge _ _ _ _ Hok _ _ _ Hed) as (_ & Ha & (Hw1 & _) & Hrk). rewrite Hbase in Hrk.
    apply wp_bind, wp_uadd_ovf; auto.
    { intros Hgt. apply Hallow. pose proof (wt_bound _ _ _ _ _ _ I Hx). pose proof (HW _ _ _ Hed) as G.
      rewrite Hbase in G. pose proof (HB _ Ha). destruct d; lia. }
    intros Hsum. rewrite (get_weight_ok c n); [|apply I|auto]. cbn [bind].
    destruct (N.ltb_spec (wx + fe_weight ed) (wt c s (fe_adj ed))) as [Hlt|Hge].
    2:{ simpl. repeat (split; auto); try lia. }
    pose proof (wt_le _ _ _ _ (fe_adj ed) I) as Hle.
    destruct (update_ok n s (fe_adj ed) (wx + fe_weight ed) x id (si_base _ _ _ _ I) Ha)
      as (s1 & -> & B1 & Hh1 & Hl1). cbn [bind]. apply wp_Ok. rewrite Hh1.
    set (y := fe_adj ed) in *. set (wy := wx + fe_weight ed) in *.
    set (s' := s_set_heap s1 (hp_push H (s_heap s) (mkHeapItem wy y))).
    assert (forall u, lab s' u = if u =? y then Some (mkData false wy x id) else lab s u) as Hl by (intros; apply Hl1).
    assert (x <> y) as Hxy by (intros ->; lia).
    assert (stl s y = false) as Hsy.
    { destruct (stl s y) eqn:Ey; auto. apply Hset in Ey. lia. }
    assert (forall v, stl s' v = stl s v) as Hstl.
    { intros v. unfold stl at 1. rewrite Hl. destruct (N.eqb_spec v y) as [->|]; auto. }
    assert (forall v, wt c s' v = if v =? y then wy else wt c s v) as Hwt.
    { intros v. unfold wt. rewrite Hl. destruct (v =? y); auto. }
    assert (forall u, wt c s' u <= wt c s u) as Hwle.
    { intros u. rewrite Hwt. destruct (N.eqb_spec u y) as [->|]; lia. }
    destruct HL as (_ & Hpush & _). destruct (Hpush (s_heap s) (mkHeapItem wy y) (si_heap _ _ _ _ I)) as (P1 & P2).
    assert (forall it, In it (s_heap s') <-> it = mkHeapItem wy y \/ In it (s_heap s)) as Hits.
    { intros it. unfold s'; simpl. split.
      - intros Hi. eapply Permutation_in in Hi; [|exact P2]. destruct Hi; auto.
      - intros Hi. eapply Permutation_in; [symmetry; exact P2|]. simpl. destruct Hi; auto. }
    assert (lab s' x = Some dx) as Hx'. { rewrite Hl. destruct (N.eqb_spec x y); [congruence|auto]. }
    split; [|split; [auto|split; [auto|split; [|split; [|split; [auto|split]]]]]].
    - constructor.
      + exact B1.
      + exact P1.
      + intros v dt Hv. rewrite Hl in Hv. destruct (N.eqb_spec v y) as [->|Hvy].
        * injection Hv as <-. simpl. split; [lia|]. split.
          -- apply (si_lab _ _ _ _ I) in Hx as (_ & Hx2 & _). pose proof (HW _ _ _ Hed) as G. rewrite Hbase in G.
             unfold wy, y. lia.
          -- right. exists ed, dx. rewrite Hbase. repeat (split; auto). right; auto. unfold wy. congruence.
        * apply (si_lab _ _ _ _ I) in Hv as (V1 & V2 & [V3|(ed' & dp & V3 & V4 & V5 & V6 & V7 & V8)]).
          -- split; auto.
          -- split; auto. split; auto. right. exists ed', dp. repeat (split; auto).
             ++ rewrite Hl. destruct (N.eqb_spec (d_parent dt) y) as [Hp|]; auto. exfalso.
                destruct V7 as [V7|V7]; [congruence|]. congruence.
             ++ destruct V7 as [V7|V7]; [left; rewrite Hstl; auto|right; auto].
      + intros it Hit. apply Hits in Hit as [->|Hit].
        * simpl. split; [lia|]. eexists. rewrite Hl, N.eqb_refl. split; [reflexivity|]. simpl. lia.
        * apply (si_items _ _ _ _ I) in Hit as (I1 & dt & I2 & I3). split; auto.
          rewrite Hl. destruct (N.eqb_spec (hi_node it) y) as [Hn'|]; [|eauto].
          eexists; split; [reflexivity|]. simpl. rewrite Hn' in I2. rewrite (lab_wt c _ _ _ I2) in Hlt. lia.
      + intros v it Hd Hit. specialize (Hwle v). destruct Hd as [Hd|Hd].
        * rewrite Hstl in Hd. apply Hits in Hit as [->|Hit].
          -- simpl. apply Hset in Hd. lia.
          -- pose proof (si_mono _ _ _ _ I v it (or_introl Hd) Hit). lia.
        * injection Hd as <-. rewrite (lab_wt c _ _ _ Hx'). apply Hits in Hit as [->|Hit]; [simpl; lia|].
          apply Hheap in Hit. lia.
      + intros v dt Hv Hs' Hne. rewrite Hl in Hv. rewrite Hstl in Hs'. destruct (N.eqb_spec v y) as [->|Hvy].
        * injection Hv as <-. left. apply Hits. auto.
        * destruct (si_Q _ _ _ _ I v dt Hv Hs' Hne) as [G|[G|G]]; auto.
          -- left. apply Hits. auto.
          -- right; left. eapply stallw_mono; eauto. rewrite Hwt. destruct (N.eqb_spec v y); [congruence|auto].
      + intros id' ed' He' Hs'. rewrite Hstl in Hs'.
        assert (wt c s' (fe_base ed') = wt c s (fe_base ed')) as Hwb.
        { rewrite Hwt. destruct (N.eqb_spec (fe_base ed') y); [congruence|auto]. }
        rewrite Hwb. intros Hlt'. pose proof (si_relaxed _ _ _ _ I _ _ He' Hs' Hlt').
        specialize (Hwle (fe_adj ed')). lia.
      + intros v w Hin Hw. pose proof (si_roots _ _ _ _ I _ _ Hin Hw). specialize (Hwle v). lia.
    - intros v Hv. rewrite Hwt. destruct (N.eqb_spec v y); [congruence|auto].
    - intros it Hit. apply Hits in Hit as [->|Hit]; [simpl; lia|auto].
    - intros _. rewrite Hwt, N.eqb_refl. lia.
    - apply Permutation_length in P2. unfold s'; simpl. rewrite P2. simpl. lia.
  Qed.

  Lemma relax_all_spec d best s x wx dx b e :
    sinv d best (Some x) s -> lab s x = Some dx -> d_weight dx = wx -> stl s x = false ->
    (forall v, stl s v = true -> wt c s v <= wx) ->
    (forall it, In it (s_heap s) -> wx <= hi_weight it) ->
    slice fg d x b e -> b <= e -> e <= lenN (fg_edges fg d) ->
    wp (ovf allow) (foldM (relax_edge c H fg d (mkHeapItem wx x)) (rangeN b e) s)
       (fun s' => sinv d best (Some x) s' /\ lab s' x = Some dx /\ (forall v, stl s' v = stl s v) /\
          (forall v, stl s v = true -> wt c s' v = wt c s v) /\
          (forall it, In it (s_heap s') -> wx <= hi_weight it) /\
          (forall u, wt c s' u <= wt c s u) /\
          (forall id ed, getN (fg_edges fg d) id = Some ed -> fe_base ed = x ->
             wx + fe_weight ed < umax c -> wt c s' (fe_adj ed) <= wx + fe_weight ed) /\
          (List.length (s_heap s') <= List.length (s_heap s) + N.to_nat (e - b))%nat).
  Proof.
    intros I Hx Hwx Hsx Hset Hheap Hs Hbe He.
    eapply wp_mono.
    - apply (wp_foldM_range _ _ (fun i s' => sinv d best (Some x) s' /\ lab s' x = Some dx /\
        (forall v, stl s' v = stl s v) /\
        (forall v, stl s v = true -> wt c s' v = wt c s v) /\
        (forall it, In it (s_heap s') -> wx <= hi_weight it) /\
        (forall u, wt c s' u <= wt c s u) /\
        (forall id ed, getN (fg_edges fg d) id = Some ed -> b <= id < i ->
           wx + fe_weight ed < umax c -> wt c s' (fe_adj ed) <= wx + fe_weight ed) /\
        (List.length (s_heap s') <= List.length (s_heap s) + N.to_nat (i - b))%nat)); [auto| |].
      + repeat (split; auto); try lia. 
      + intros i s1 Hi (J1 & J2 & J3 & J4 & J5 & J6 & J7 & J8).
        destruct (getN_lt (fg_edges fg d) i) as (ed & Hed); [lia|].
        assert (fe_base ed = x) as Hb by (apply (ok_iff _ _ _ _ Hok _ _ _ _ _ _ Hed Hs); lia).
        assert (forall v, stl s1 v = true -> wt c s1 v <= wx) as Hset1.
        { intros v Hv. rewrite J3 in Hv. rewrite J4; auto. }
        eapply wp_mono; [apply (relax_edge_spec d best s1 x wx dx i ed); auto; rewrite J3; auto|].
        * intros s2 (G1 & G2 & G3 & G4 & G5 & G6 & G7 & G8).
          split; auto. split; auto. split; [intros; rewrite G3; auto|].
          split; [intros v Hv; rewrite G4, J4; auto; rewrite J3; auto|]. split; auto.
          split; [intros u; specialize (G6 u); specialize (J6 u); lia|]. split; [|lia].
          intros id' ed' He' Hid' Hlt'. destruct (N.eq_dec id' i) as [->|Hne].
          -- replace ed' with ed in * by congruence. auto.
          -- specialize (J7 _ _ He'). specialize (G6 (fe_adj ed')). lia.
    - intros s' (J1 & J2 & J3 & J4 & J5 & J6 & J7 & J8). repeat (split; auto).
      intros id ed Hed Hb. apply (J7 id ed Hed). apply (ok_iff _ _ _ _ Hok _ _ _ _ _ _ Hed Hs). auto.
  Qed.

  (** ** Measure: heap size plus the edges of unsettled nodes *)
  Definition uns (s : Side) (d : dir) (id : N) : bool :=
    match getN (fg_edges fg d) id with Some ed => negb (stl s (fe_base ed)) | None => false end.
  Definition ucnt (s : Side) (d : dir) : nat :=
    List.length (filter (uns s d) (rangeN 0 (lenN (fg_edges fg d)))).
  Definition meas (s : Side) (d : dir) : nat := (List.length (s_heap s) + ucnt s d)%nat.

  Lemma filter_ext_in' {A} (f g : A -> bool) l : (forall a, In a l -> f a = g a) -> filter f l = filter g l.
  Proof. intros G. induction l as [|a l IH]; simpl; auto. rewrite (G a), IH; simpl; auto. intros; apply G; simpl; auto. Qed.
  Lemma filter_all {A} (f : A -> bool) l : (forall a, In a l -> f a = true) -> filter f l = l.
  Proof. intros G. induction l as [|a l IH]; simpl; auto. rewrite (G a), IH; simpl; auto. intros; apply G; simpl; auto. Qed.
  Lemma filter_none {A} (f : A -> bool) l : (forall a, In a l -> f a = false) -> filter f l = [].
  Proof. intros G. induction l as [|a l IH]; simpl; auto. rewrite (G a), IH; simpl; auto. intros; apply G; simpl; auto. Qed.

  Lemma ucnt_ext s s' d : (forall v, stl s' v = stl s v) -> ucnt s' d = ucnt s d.
  Proof.
    intros G. unfold ucnt. f_equal. apply filter_ext_in'. intros id _. unfold uns.
    destruct (getN (fg_edges fg d) id); auto. rewrite G; auto.
  Qed.
  Lemma ucnt_settle s s' d x b e : slice fg d x b e -> b <= e <= lenN (fg_edges fg d) ->
    stl s x = false -> stl s' x = true -> (forall v, v <> x -> stl s' v = stl s v) ->
    (ucnt s' d + N.to_nat (e - b) = ucnt s d)%nat.
  Proof.
    intros Hs Hbe Hx Hx' Ho. unfold ucnt.
    rewrite (rangeN_app 0 b (lenN (fg_edges fg d))), (rangeN_app b e (lenN (fg_edges fg d))) by lia.
    rewrite !filter_app, !app_length.
    assert (forall id, In id (rangeN 0 (lenN (fg_edges fg d))) -> ~ (b <= id < e) -> uns s' d id = uns s d id) as G1.
    { intros id _ Hn. unfold uns. destruct (getN (fg_edges fg d) id) as [ed|] eqn:Ed; auto. f_equal. apply Ho.
      intros Hb. apply (ok_iff _ _ _ _ Hok _ _ _ _ _ _ Ed Hs) in Hb. auto. }
    rewrite (filter_ext_in' (uns s' d) (uns s d) (rangeN 0 b)).
    2:{ intros id Hid. apply rangeN_In in Hid. apply G1; [apply rangeN_In|]; lia. }
    rewrite (filter_ext_in' (uns s' d) (uns s d) (rangeN e _)).
    2:{ intros id Hid. apply rangeN_In in Hid. apply G1; [apply rangeN_In|]; lia. }
    assert (forall id, In id (rangeN b e) -> exists ed, getN (fg_edges fg d) id = Some ed /\ fe_base ed = x) as G2.
    { intros id Hid. apply rangeN_In in Hid. destruct (getN_lt (fg_edges fg d) id) as (ed & Hed); [lia|].
      exists ed. split; auto. apply (ok_iff _ _ _ _ Hok _ _ _ _ _ _ Hed Hs); auto. }
    rewrite (filter_none (uns s' d) (rangeN b e)).
    2:{ intros id Hid. destruct (G2 id Hid) as (ed & Hed & Hb). unfold uns. rewrite Hed, Hb, Hx'. auto. }
    rewrite (filter_all (uns s d) (rangeN b e)).
    2:{ intros id Hid. destruct (G2 id Hid) as (ed & Hed & Hb). unfold uns. rewrite Hed, Hb, Hx. auto. }
    pose proof (lenN_rangeN b e) as G3. unfold lenN in G3. simpl. lia.
  Qed.

  (** ** The two sides together *)
  Record minv (d : dir) (own other : Side) (best mn : N) : Prop := mk_minv {
    mi_own : sinv d best None own;
    mi_other : sinv (opp d) best None other;
    mi_meet : (mn = umax c /\ best = umax c) \/
       (mn < n /\ best < umax c /\ exists d1 d2, lab own mn = Some d1 /\ lab other mn = Some d2 /\
          d_weight d1 + d_weight d2 <= best);
    mi_both : forall v, stl own v = true -> stl other v = true -> best <= wt c own v + wt c other v
  }.

  Lemma opp_opp d : opp (opp d) = d. Proof. destruct d; auto. Qed.
  Lemma minv_swap d own other best mn : minv d own other best mn -> minv (opp d) other own best mn.
  Proof.
    intros [H1 H2 H3 H4]. constructor; auto.
    - rewrite opp_opp; auto.
    - destruct H3 as [H3|(A & B & d1 & d2 & G1 & G2 & G3)]; auto. right. split; auto. split; auto.
      exists d2, d1. repeat split; auto. lia.
    - intros v G1 G2. specialize (H4 v G2 G1). lia.
  Qed.

  Lemma pop_inv d best s curr h' : sinv d best None s -> hp_pop H (s_heap s) = Some (curr, h') ->
    hinv h' /\ Permutation (s_heap s) (curr :: h') /\ (forall it, In it (s_heap s) -> hi_weight curr <= hi_weight it).
  Proof.
    intros I Hp. destruct HL as (_ & _ & _ & Hpop & _).
    destruct (Hpop _ _ _ (si_heap _ _ _ _ I) Hp) as (P1 & P2 & P3). split; auto. split; auto.
    intros it Hit. apply P3 in Hit. unfold heap_item_le, heap_item_cmp in Hit.
    destruct (N.compare_spec (hi_weight it) (hi_weight curr)); simpl in Hit; try lia; discriminate.
  Qed.

  (** dropping a popped item that is settled, stallable or too heavy *)
  Lemma drop_inv d best s curr h' : sinv d best None s -> hp_pop H (s_heap s) = Some (curr, h') ->
    (stl s (hi_node curr) = true \/ stallw d s (hi_node curr) \/ best < wt c s (hi_node curr) \/
     wt c s (hi_node curr) < hi_weight curr) ->
    sinv d best None (s_set_heap s h').
  Proof.
    intros I Hp Hd. destruct (pop_inv _ _ _ _ _ I Hp) as (P1 & P2 & P3).
    assert (forall it, In it h' -> In it (s_heap s)) as Hsub.
    { intros it Hit. eapply Permutation_in; [symmetry; exact P2|]. simpl; auto. }
    destruct I as [H1 H2 H3 H4 H5 H6 H7 H8]. constructor; auto.
    - intros it Hit. apply (H4 it). auto.
    - intros v it Hd' Hit. apply (H5 v it); auto.
    - intros v dt Hl Hs Hx. destruct (H6 v dt Hl Hs Hx) as [G|[G|G]]; auto.
      eapply Permutation_in in G; [|exact P2]. destruct G as [G|G]; auto. subst curr. simpl in *.
      rewrite (lab_wt c s v dt Hl) in Hd. change (stl (s_set_heap s h') v) with (stl s v) in Hs.
      destruct Hd as [Hd|[Hd|[Hd|Hd]]]; auto; [congruence|lia].
  Qed.

  Lemma lab_fresh d best s curr h' : sinv d best None s -> hp_pop H (s_heap s) = Some (curr, h') ->
    stl s (hi_node curr) = false -> ~ stallw d s (hi_node curr) -> hi_weight curr <= best ->
    exists dt, lab s (hi_node curr) = Some dt /\ d_weight dt = hi_weight curr.
  Proof.
    intros I Hp Hs Hst Hb. destruct (pop_inv _ _ _ _ _ I Hp) as (P1 & P2 & P3).
    assert (In curr (s_heap s)) as Hin by (eapply Permutation_in; [symmetry; exact P2|simpl; auto]).
    destruct (si_items _ _ _ _ I _ Hin) as (_ & dt & Hl & Hle). exists dt. split; auto.
    destruct (si_Q _ _ _ _ I _ _ Hl Hs) as [G|[G|G]]; [discriminate| |contradiction|lia].
    apply P3 in G. simpl in G. lia.
  Qed.

  Lemma search_dir_spec d : forall fuel own other best mn,
    minv d own other best mn -> (List.length (s_heap own) < fuel)%nat ->
    wp (ovf allow) (search_dir fuel c H fg d own other best mn)
       (fun '(own', best', mn') => minv d own' other best' mn' /\
          (meas own' d <= meas own d)%nat /\
          (s_heap own <> [] -> (meas own' d < meas own d)%nat) /\
          (s_heap own = [] -> own' = own)).
  Proof.
    induction fuel as [|fuel IH]; intros own other best mn M Hf; [lia|]. simpl.
    pose proof (mi_own _ _ _ _ _ M) as I.
    destruct (hp_pop H (s_heap own)) as [[curr h']|] eqn:Ep.
    2:{ destruct HL as (_ & _ & Hnone & _). apply Hnone in Ep; [|apply I]. simpl. split; auto. split; [lia|].
        split; [congruence|auto]. }
    destruct (pop_inv _ _ _ _ _ I Ep) as (P1 & P2 & P3).
    assert (In curr (s_heap own)) as Hin by (eapply Permutation_in; [symmetry; exact P2|simpl; auto]).
    pose proof (Permutation_length P2) as Plen. simpl in Plen.
    destruct (si_items _ _ _ _ I _ Hin) as (Hcw & dt & Hl & Hle).
    pose proof (lab_lt _ _ _ _ (si_base _ _ _ _ I) Hl) as Hv.
    set (own1 := s_set_heap own h').
    assert (side_base n own1) as B1 by exact (si_base _ _ _ _ I).
    assert (s_heap own <> []) as Hnn by (intros E0; rewrite E0 in Hin; destruct Hin).
    rewrite (is_settled_ok n own1 _ B1 Hv). cbn [bind].
    change (stl own1 (hi_node curr)) with (stl own (hi_node curr)).
    assert (forall best0 mn0, best0 = best -> mn0 = mn -> sinv d best None own1 -> minv d own1 other best0 mn0) as Mdrop.
    { intros ? ? -> -> I'. constructor; auto; [apply (mi_other _ _ _ _ _ M)|apply (mi_meet _ _ _ _ _ M)|
        apply (mi_both _ _ _ _ _ M)]. }
    assert (forall r, wp (ovf allow) r (fun '(own', best', mn') => minv d own' other best' mn' /\
          (meas own' d <= meas own1 d)%nat /\ (s_heap own1 <> [] -> (meas own' d < meas own1 d)%nat) /\
          (s_heap own1 = [] -> own' = own1)) ->
        wp (ovf allow) r (fun '(own', best', mn') => minv d own' other best' mn' /\
          (meas own' d <= meas own d)%nat /\ (s_heap own <> [] -> (meas own' d < meas own d)%nat) /\
          (s_heap own = [] -> own' = own))) as Hrec.
    { intros r Hr. eapply wp_mono; [exact Hr|]. intros [[own' best'] mn'] (R1 & R2 & _ & _).
      unfold meas in *. rewrite (ucnt_ext own own1) in R2 by auto. unfold own1 in R2 at 1. simpl in R2.
      split; auto. split; [lia|]. split; [lia|congruence]. }
    destruct (stl own (hi_node curr)) eqn:Es.
    { apply Hrec, IH; [|unfold own1; simpl; lia]. apply Mdrop; auto. eapply drop_inv; eauto. }
    destruct (N.ltb_spec best (hi_weight curr)) as [Hbw|Hbw].
    { simpl. split; [|unfold meas; rewrite (ucnt_ext own own1) by auto; unfold own1; simpl; split; [lia|split; [lia|congruence]]].
      apply Mdrop; auto. eapply drop_inv; eauto. right. right.
      rewrite (lab_wt c _ _ _ Hl). lia. }
    (* stalling *)
    unfold is_stallable. destruct (ok_slice _ _ _ _ Hok (opp d) _ Hv) as (b & e & Hsl & Hbe).
    rewrite (slice_begin _ _ _ _ _ Hsl), (slice_end _ _ _ _ _ Hsl). cbn [bind].
    assert (forall u, wt c own1 u = wt c own u) as Hwt1 by reflexivity.
    unfold own1 at 1. rewrite stall_set_heap. eapply wp_bind_mono.
    { eapply (stall_spec d best own curr b e I Hsl); [lia|]. intros i Hi. apply rangeN_In in Hi. auto. }
    intros st (St & Sf). destruct st.
    { destruct (St eq_refl) as (id & ed & Hed & Hb & Hw1 & Hw2).
      apply Hrec, IH; [|unfold own1; simpl; lia]. apply Mdrop; auto. eapply drop_inv; eauto.
      destruct (N.lt_ge_cases (wt c own (hi_node curr)) (hi_weight curr)) as [Hlt|Hge]; auto.
      right; left. exists id, ed. repeat split; auto. lia. }
    assert (~ stallw d own (hi_node curr)) as Hns.
    { intros (id & ed & Hed & Hb & Hw1 & Hw2).
      assert (In id (rangeN b e)) as Hid by (apply rangeN_In, (ok_iff _ _ _ _ Hok _ _ _ _ _ _ Hed Hsl); auto).
      pose proof (Sf eq_refl _ _ Hid Hed Hw1). rewrite (lab_wt c _ _ _ Hl) in Hw2. lia. }
    destruct (lab_fresh _ _ _ _ _ I Ep Es Hns Hbw) as (dt' & Hl' & Hdw).
    assert (dt' = dt) by congruence. subst dt'. clear Hl' Hle St Sf.
    destruct (ok_slice _ _ _ _ Hok d _ Hv) as (b2 & e2 & Hsl2 & Hbe2).
    rewrite (slice_begin _ _ _ _ _ Hsl2), (slice_end _ _ _ _ _ Hsl2). cbn [bind].
    destruct curr as [wx x]. simpl in *.
    assert (sinv d best (Some x) own1) as I1.
    { assert (forall it, In it h' -> In it (s_heap own)) as Hsub.
      { intros it Hit. eapply Permutation_in; [symmetry; exact P2|]. simpl; auto. }
      destruct I as [H1 H2 H3 H4 H5 H6 H7 H8]. constructor; auto.
      - intros v dv Hlv. destruct (H3 v dv Hlv) as (A1 & A2 & [A3|(ed & dp & A3 & A4 & A5 & A6 & A7 & A8)]); [auto|].
        split; auto. split; auto. right. exists ed, dp. repeat (split; auto).
        destruct A7 as [A7|A7]; [left; auto|discriminate].
      - intros it Hit. apply (H4 it). auto.
      - intros v it [Hd|Hd] Hit; [apply (H5 v it); auto; left; auto|]. injection Hd as <-.
        rewrite Hwt1, (lab_wt c _ _ _ Hl). apply Hsub, P3 in Hit. lia.
      - intros v dv Hlv Hsv Hxv. destruct (H6 v dv Hlv Hsv) as [G|[G|G]]; auto; [discriminate|].
        eapply Permutation_in in G; [|exact P2]. destruct G as [G|G]; auto. injection G as _ ->. congruence. }
    eapply wp_bind_mono.
    { apply (relax_all_spec d best own1 x wx dt b2 e2 I1); auto; try lia.
      - intros v Hsv. rewrite Hwt1. pose proof (si_mono _ _ _ _ I v _ (or_introl Hsv) Hin). auto.
      - intros it Hit. apply P3. eapply Permutation_in; [symmetry; exact P2|]. simpl; auto. }
    intros own2 (J1 & J2 & J3 & J4 & J5 & J6 & J7 & J8).
    destruct (settle_node_ok n own2 x dt (si_base _ _ _ _ J1) J2) as (own3 & -> & B3 & Hh3 & Hl3). cbn [bind].
    assert (forall v, stl own3 v = if v =? x then true else stl own v) as Hstl3.
    { intros v. unfold stl at 1. rewrite Hl3. destruct (N.eqb_spec v x); simpl; auto. apply J3. }
    assert (forall v, wt c own3 v = wt c own2 v) as Hwt3.
    { intros v. unfold wt. rewrite Hl3. destruct (N.eqb_spec v x) as [->|]; auto. rewrite J2. auto. }
    assert (forall v, done None own3 v <-> done (Some x) own2 v) as Hdone.
    { intros v. unfold done. rewrite Hstl3, J3. change (stl own1 v) with (stl own v).
      destruct (N.eqb_spec v x) as [->|Hne]; split; auto.
      - intros [G|G]; [auto|discriminate].
      - intros [G|G]; [auto|congruence]. }
    assert (sinv d best None own3) as I3.
    { destruct J1 as [H1 H2 H3 H4 H5 H6 H7 H8]. constructor; auto.
      - rewrite Hh3; auto.
      - intros v dv Hlv. assert (exists dv', lab own2 v = Some dv' /\ d_weight dv' = d_weight dv /\
            d_parent dv' = d_parent dv /\ d_inc_edge dv' = d_inc_edge dv) as (dv' & L1 & L2 & L3 & L4).
        { rewrite Hl3 in Hlv. destruct (N.eqb_spec v x) as [->|]; [|eauto]. injection Hlv as <-. exists dt. auto. }
        apply H3 in L1. rewrite L2, L3, L4 in L1. destruct L1 as (A1 & A2 & [A3|(ed & dp & A3 & A4 & A5 & A6 & A7 & A8)]); [auto|].
        split; auto. split; auto. right.
        assert (exists dp', lab own3 (d_parent dv) = Some dp' /\ d_weight dp' = d_weight dp) as (dp' & M1 & M2).
        { rewrite Hl3. destruct (N.eqb_spec (d_parent dv) x) as [Hpx|]; [|eauto].
          eexists; split; [reflexivity|]. simpl. rewrite Hpx, J2 in A6. congruence. }
        exists ed, dp'. repeat (split; auto); [apply Hdone; auto|congruence].
      - intros it Hit. rewrite Hh3 in Hit. apply H4 in Hit as (A1 & dv & A2 & A3). split; auto.
        rewrite Hl3. destruct (N.eqb_spec (hi_node it) x) as [Hx|]; [|eauto]. eexists; split; [reflexivity|].
        simpl. rewrite Hx, J2 in A2. injection A2 as <-. auto.
      - intros v it Hd Hit. rewrite Hwt3. rewrite Hh3 in Hit. apply Hdone in Hd. auto.
      - intros v dv Hlv Hsv _. rewrite Hl3 in Hlv. rewrite Hstl3 in Hsv. destruct (N.eqb_spec v x) as [->|Hne]; [discriminate|].
        destruct (H6 v dv Hlv) as [G|[G|G]]; auto.
        + rewrite J3; auto.
        + congruence.
        + rewrite Hh3; auto.
        + right; left. destruct G as (id & ed & G1 & G2 & G3 & G4). exists id, ed. rewrite !Hwt3. auto.
      - intros id ed Hed Hsb. rewrite !Hwt3. rewrite Hstl3 in Hsb.
        destruct (N.eqb_spec (fe_base ed) x) as [Hb|Hne].
        + intros Hlt. rewrite Hb in *. rewrite (lab_wt c _ _ _ J2), Hdw in *. apply (J7 id ed); auto.
        + apply (H7 id ed Hed). rewrite J3; auto.
      - intros v w Hin' Hw. rewrite Hwt3. auto. }
    assert ((meas own3 d < meas own d)%nat) as Hmeas.
    { unfold meas. rewrite Hh3.
      pose proof (ucnt_settle own own3 d x b2 e2 Hsl2 Hbe2 Es) as U.
      rewrite Hstl3, N.eqb_refl in U. specialize (U eq_refl). simpl in J8.
      assert (forall v, v <> x -> stl own3 v = stl own v) as U2.
      { intros v Hne. rewrite Hstl3. destruct (N.eqb_spec v x); [congruence|auto]. }
      specialize (U U2). unfold own1 in J8. simpl in J8. lia. }
    assert (forall v dv, lab own v = Some dv -> exists dv', lab own3 v = Some dv' /\ d_weight dv' <= d_weight dv) as Hlm.
    { intros v dv Hlv. destruct (wt_lt_lab c own3 v) as (dv' & L1 & L2).
      - rewrite Hwt3. specialize (J6 v). rewrite Hwt1, (lab_wt c _ _ _ Hlv) in J6.
        apply (si_lab _ _ _ _ I) in Hlv. lia.
      - exists dv'. split; auto. rewrite L2, Hwt3. specialize (J6 v). rewrite Hwt1, (lab_wt c _ _ _ Hlv) in J6. auto. }
    assert (forall best', best' <= best ->
       (forall v, v <> x -> stl own3 v = true -> stl other v = true -> best' <= wt c own3 v + wt c other v)) as Hboth.
    { intros best' Hb' v Hne Hs1 Hs2. rewrite Hstl3 in Hs1. destruct (N.eqb_spec v x); [congruence|].
      pose proof (mi_both _ _ _ _ _ M v Hs1 Hs2). rewrite Hwt3, J4, Hwt1; auto. lia. }
    assert (forall mn', mn' = mn ->
       ((mn' = umax c /\ best = umax c) \/
       (mn' < n /\ best < umax c /\ exists d1 d2, lab own3 mn' = Some d1 /\ lab other mn' = Some d2 /\
          d_weight d1 + d_weight d2 <= best))) as Hmeet.
    { intros mn' ->. destruct (mi_meet _ _ _ _ _ M) as [G|(G1 & G2 & d1 & d2 & G3 & G4 & G5)]; auto.
      right. split; auto. split; auto. destruct (Hlm _ _ G3) as (d1' & G6 & G7). exists d1', d2. repeat split; auto. lia. }
    pose proof (mi_other _ _ _ _ _ M) as Io.
    rewrite (valid_ok n); [|apply Io|auto]. cbn [bind].
    assert (wt c own3 x = wx) as Hwx3 by (rewrite Hwt3, (lab_wt c _ _ _ J2); auto).
    destruct (lab other x) as [dox|] eqn:Elo.
    - rewrite (get_weight_ok c n); [|apply Io|auto]. cbn [bind]. rewrite (lab_wt c _ _ _ Elo).
      apply wp_bind, wp_uadd_ovf; auto.
      + intros Hgt. apply Hallow. pose proof (wt_bound _ _ _ _ _ _ Io Elo). pose proof (wt_bound _ _ _ _ _ _ I Hl).
        destruct d; simpl in *; lia.
      + intros Hle. destruct (N.ltb_spec (wx + d_weight dox) best) as [Hlt|Hge]; simpl.
        * split; [|split; [lia|split; [auto|congruence]]]. constructor.
          -- eapply sinv_best; [|exact I3]. lia.
          -- eapply sinv_best; [|exact Io]. lia.
          -- right. split; auto. split; [pose proof (mi_meet _ _ _ _ _ M); lia|]. eexists _, dox. rewrite Hl3, N.eqb_refl. split; [reflexivity|].
             split; auto. simpl. lia.
          -- intros v. destruct (N.eq_dec v x) as [->|Hne]; [|apply Hboth; auto; lia].
             intros _ _. rewrite Hwx3, (lab_wt c _ _ _ Elo). lia.
        * split; [|split; [lia|split; [auto|congruence]]]. constructor; auto.
          intros v. destruct (N.eq_dec v x) as [->|Hne]; [|apply Hboth; auto; lia].
          intros _ _. rewrite Hwx3, (lab_wt c _ _ _ Elo). lia.
    - simpl. split; [|split; [lia|split; [auto|congruence]]]. constructor; auto.
      intros v Hs1 Hs2. destruct (N.eq_dec v x) as [->|Hne]; [|apply (Hboth best); auto; lia].
      unfold stl in Hs2. rewrite Elo in Hs2. discriminate.
  Qed.

  Lemma main_loop_spec : forall fuel fwd bwd best mn,
    minv Fwd fwd bwd best mn -> (meas fwd Fwd + meas bwd Bwd < fsize fuel)%nat ->
    wp (ovf allow) (main_loop fuel c H fg fwd bwd best mn)
       (fun '(fwd', bwd', best', mn') => minv Fwd fwd' bwd' best' mn' /\ s_heap fwd' = [] /\ s_heap bwd' = []).
  Proof.
    induction fuel as [|rest IH]; [|specialize (IH tt)]; intros fwd bwd best mn M Hf; cbn [fsize] in Hf; [lia|]. cbn [main_loop].
    assert ((s_heap fwd = [] /\ s_heap bwd = []) \/ (s_heap fwd <> [] \/ s_heap bwd <> [])) as [[E1 E2]|Hne].
    { destruct (s_heap fwd), (s_heap bwd); auto; right; [right|left|left]; discriminate. }
    { rewrite E1, E2. simpl. auto. }
    assert (forall (A : Type) (x y : A), match s_heap fwd, s_heap bwd with [], [] => x | _, _ => y end = y) as Em.
    { intros A x y. destruct (s_heap fwd), (s_heap bwd); auto. destruct Hne; congruence. }
    rewrite Em. clear Em.
    eapply wp_bind_mono; [apply (search_dir_spec Fwd); [exact M|lia]|].
    intros [[fwd' bw1] mn1] (M1 & F1 & F2 & F3).
    eapply wp_bind_mono; [apply (search_dir_spec Bwd); [apply (minv_swap Fwd); exact M1|lia]|].
    intros [[bwd' bw2] mn2] (M2 & B1 & B2 & B3).
    apply IH; [apply (minv_swap Bwd); exact M2|].
    destruct Hne as [Hne|Hne]; [specialize (F2 Hne)|specialize (B2 Hne)]; lia.
  Qed.
End Query.
