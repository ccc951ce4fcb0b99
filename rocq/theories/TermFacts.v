(** * TermFacts: queries on arbitrary graphs *)
From Verif Require Export SpecTerm ApiFacts.
From Coq Require Import Permutation.
Open Scope N_scope.

(** ** Nested shortcuts *)
Section Nesting.
  Variables (c : cfg) (fg : FastGraph).
  Hypothesis Hac : ~ nesting_cycle c fg.

  Definition valid (x : dir * N) : Prop := snd x < lenN (fg_edges fg (fst x)).
  Definition valids : list (dir * N) :=
    map (pair Fwd) (rangeN 0 (lenN (fg_edges_fwd fg))) ++ map (pair Bwd) (rangeN 0 (lenN (fg_edges_bwd fg))).
  Lemma valids_In x : valid x -> In x valids.
  Proof.
    destruct x as [[] i]; unfold valid, valids; simpl; intros H; apply in_or_app; [left|right];
      apply in_map, rangeN_In; lia.
  Qed.
  Lemma valids_len : List.length valids = (List.length (fg_edges_fwd fg) + List.length (fg_edges_bwd fg))%nat.
  Proof.
    unfold valids. rewrite app_length, !map_length.
    pose proof (lenN_rangeN 0 (lenN (fg_edges_fwd fg))). pose proof (lenN_rangeN 0 (lenN (fg_edges_bwd fg))).
    unfold lenN in *. lia.
  Qed.

  (** above [x]: shortcuts that contain [x] *)
  Lemma unpack_bounded : forall k d nodes id b above,
    NoDup above -> (forall y, In y above -> valid y /\ clos_trans_1n _ (nested c fg) y (d, id)) ->
    (List.length (fg_edges_fwd fg) + List.length (fg_edges_bwd fg) < k + List.length above)%nat ->
    unpack k c fg d nodes id b <> Diverge.
  Proof.
    induction k as [|k IH]; intros d nodes id b above Hnd Hab Hk.
    - exfalso.
      assert (incl above valids) as Hi by (intros y Hy; apply valids_In, Hab; auto).
      pose proof (NoDup_incl_length Hnd Hi) as Hl. rewrite valids_len in Hl. lia.
    - cbn [unpack]. unfold idx. destruct (getN (fg_edges fg d) id) as [e|] eqn:Ee; [|discriminate]. cbn [bind].
      unfold fe_is_shortcut. unfold INVALID_EDGE.
      destruct (N.eqb_spec (fe_replaced_in e) (umax c)) as [Ei|Ei], (N.eqb_spec (fe_replaced_out e) (umax c)) as [Eo|Eo];
        cbn [assert bind negb andb orb]; try discriminate.
      assert (~ In (d, id) above) as Hni.
      { intros Hi. apply Hac. exists (d, id). apply Hab; auto. }
      assert (NoDup ((d, id) :: above)) as Hnd' by (constructor; auto).
      assert (valid (d, id)) as Hv by (apply getN_Some_lt in Ee; exact Ee).
      assert (forall x, nested c fg (d, id) x -> forall y, In y ((d, id) :: above) ->
                valid y /\ clos_trans_1n _ (nested c fg) y x) as Hab'.
      { intros x Hx y [<-|Hy]; [split; auto; apply t1n_step; auto|]. destruct (Hab y Hy) as [H1 H2]. split; auto.
        clear - H2 Hx. induction H2 as [y z Hyz|y z w Hyz H2 IH].
        - eapply t1n_trans; [exact Hyz|]. apply t1n_step; auto.
        - eapply t1n_trans; [exact Hyz|]. auto. }
      assert (nested c fg (d, id) (Bwd, fe_replaced_in e)) as N1 by (exists e; auto 6).
      assert (nested c fg (d, id) (Fwd, fe_replaced_out e)) as N2 by (exists e; auto 6).
      assert (forall ns, unpack k c fg Bwd ns (fe_replaced_in e) b <> Diverge) as G1.
      { intros ns. apply (IH _ _ _ _ ((d, id) :: above)); auto; try (apply Hab'; auto). simpl. lia. }
      assert (forall ns, unpack k c fg Fwd ns (fe_replaced_out e) b <> Diverge) as G2.
      { intros ns. apply (IH _ _ _ _ ((d, id) :: above)); auto; try (apply Hab'; auto). simpl. lia. }
      destruct b.
      + specialize (G2 nodes). destruct (unpack k c fg Fwd nodes _ _); cbn [bind]; auto; discriminate.
      + specialize (G1 nodes). destruct (unpack k c fg Bwd nodes _ _); cbn [bind]; auto; discriminate.
  Qed.

  Lemma unpack_terminates d nodes id b : unpack (unpack_fuel fg) c fg d nodes id b <> Diverge.
  Proof.
    apply (unpack_bounded _ _ _ _ _ []); [constructor|intros y []|]. unfold unpack_fuel. simpl. lia.
  Qed.
End Nesting.

Lemma idx_end {A} (l : list A) a : idx (l ++ [a]) (lenN (l ++ [a]) - 1) = Ok a.
Proof.
  apply idx_Some. rewrite lenN_app. change (lenN [a]) with 1.
  replace (lenN l + 1 - 1) with (lenN l) by lia.
  rewrite getN_app2, N.sub_diag by lia. auto.
Qed.

(** ** The sum of all labels *)
Definition sumN (l : list N) : N := fold_right N.add 0 l.
Definition phi (c : cfg) (n : N) (s : Side) : N := sumN (map (wt c s) (rangeN 0 n)).

Lemma sumN_const (f : N -> N) k l : (forall x, In x l -> f x = k) -> sumN (map f l) = lenN l * k.
Proof.
  induction l as [|x l IH]; intros Hf; simpl; auto. rewrite IH by (intros; apply Hf; simpl; auto).
  rewrite (Hf x) by (simpl; auto). rewrite lenN_cons. lia.
Qed.
Lemma sumN_ext (f g : N -> N) l : (forall x, In x l -> f x = g x) -> sumN (map f l) = sumN (map g l).
Proof. intros Hf. f_equal. apply map_ext_in. auto. Qed.
Lemma sumN_less (f g : N -> N) v : forall l, NoDup l -> In v l -> f v < g v -> (forall x, x <> v -> f x = g x) ->
  sumN (map f l) + 1 <= sumN (map g l).
Proof.
  induction l as [|x l IH]; intros Hnd Hin Hlt He; [destruct Hin|].
  apply NoDup_cons_iff in Hnd as [Hx Hnd]. simpl. destruct (N.eq_dec x v) as [->|Hne].
  - rewrite (sumN_ext f g l); [lia|]. intros y Hy. apply He. intros ->. auto.
  - destruct Hin as [->|Hin]; [congruence|]. specialize (IH Hnd Hin Hlt He). rewrite (He x Hne). lia.
Qed.

Definition mu (c : cfg) (n : N) (s : Side) : N := phi c n s + lenN (s_heap s).

(** The parts of [fg_ok] that do not mention weights. *)
Definition edge_str (c : cfg) (E : list Edge) (fg : FastGraph) (d : dir) (ed : FastGraphEdge) : Prop :=
  (fe_replaced_in ed = umax c /\ fe_replaced_out ed = umax c /\
   exists w, In (mkEdge (fsrc d (fe_base ed) (fe_adj ed)) (fdst d (fe_base ed) (fe_adj ed)) w) E) \/
  (exists ei eo,
     fe_replaced_in ed <> umax c /\ fe_replaced_out ed <> umax c /\
     getN (fg_edges fg Bwd) (fe_replaced_in ed) = Some ei /\
     getN (fg_edges fg Fwd) (fe_replaced_out ed) = Some eo /\
     fe_base ei = fe_base eo /\
     fe_adj ei = fsrc d (fe_base ed) (fe_adj ed) /\
     fe_adj eo = fdst d (fe_base ed) (fe_adj ed) /\
     rk fg (fe_base ei) < rk fg (fe_base ed)).

Record fg_str (c : cfg) (E : list Edge) (n : N) (fg : FastGraph) : Prop := mk_fg_str {
  fs_n : fg_num_nodes fg = n;
  fs_umax : n < umax c;
  fs_lr : lenN (fg_ranks fg) = n;
  fs_rank : forall v, v < n -> rk fg v < n;
  fs_slice : forall d v, v < n -> exists b e, slice fg d v b e /\ b <= e <= lenN (fg_edges fg d);
  fs_base : forall d id ed v b e, getN (fg_edges fg d) id = Some ed -> slice fg d v b e ->
     b <= id < e -> fe_base ed = v;
  fs_edge : forall d id ed, getN (fg_edges fg d) id = Some ed ->
     fe_base ed < n /\ fe_adj ed < n /\ rk fg (fe_base ed) < rk fg (fe_adj ed);
  fs_src : forall d id ed, getN (fg_edges fg d) id = Some ed -> edge_str c E fg d ed;
  fs_len : forall d, lenN (fg_edges fg d) < umax c
}.

Lemma ok_str c E n fg : fg_ok c E n fg -> fg_str c E n fg.
Proof.
  intros Hok. pose proof (umax_pos c E n fg Hok) as [H1 H2]. destruct Hok as [Hok _]. destruct Hok. constructor; auto.
  - intros d id ed v b e G1 G2 G3. apply (ok_iff d id ed v b e G1 G2). auto.
  - intros d id ed G. apply ok_edge in G. tauto.
  - intros d id ed G. apply ok_src in G as [(A1 & A2 & A3)|(ei & eo & A)]; [left; eauto|].
    right. exists ei, eo. tauto.
Qed.

Lemma begin_end_slice fg d u b e : fg_begin_edges fg d u = Ok b -> fg_end_edges fg d u = Ok e -> slice fg d u b e.
Proof.
  unfold fg_begin_edges, fg_end_edges, slice, idx. destruct (getN (fg_ranks fg) u) as [r|]; [|discriminate]. cbn [bind].
  destruct (getN (fg_first_edge_ids fg d) r) eqn:E1; [|discriminate].
  destruct (getN (fg_first_edge_ids fg d) (r + 1)) eqn:E2; [|discriminate].
  intros [= <-] [= <-]. eauto.
Qed.

Lemma str_upward c E n fg : fg_str c E n fg -> upward fg.
Proof.
  intros S. exists (rk fg). intros d u b e id ed Hb He Hid Hed.
  rewrite <- (fs_base _ _ _ _ S d id ed u b e Hed (begin_end_slice _ _ _ _ _ Hb He) Hid).
  apply (fs_edge _ _ _ _ S d id ed Hed).
Qed.

(** ** Queries *)
Section Term.
  Variables (c : cfg) (H : heap_ops) (hinv : list HeapItem -> Prop).
  Hypothesis HL : heap_laws H hinv.
  Variables (E : list Edge) (n : N) (fg : FastGraph) (P : panic_reason -> Prop).
  Hypothesis HP : (forall r, P r) \/ ((debug_build c = false \/ P POverflow) /\ fg_str c E n fg).

  Lemma any_or {A} (m : res A) (Q : A -> Prop) : (fg_str c E n fg -> wp P m Q) -> m <> Diverge ->
    (forall a, m = Ok a -> Q a) -> wp P m Q.
  Proof.
    intros H1 H2 H3. destruct HP as [HA|[_ HS]]; [|auto]. destruct m; simpl; auto.
  Qed.

  Lemma p_idx {A} (l : list A) i (Q : A -> Prop) : (fg_str c E n fg -> i < lenN l) ->
    (forall a, getN l i = Some a -> Q a) -> wp P (idx l i) Q.
  Proof.
    intros H1 H2. apply any_or; [intros S; apply wp_idx; auto| |].
    - unfold idx. destruct (getN l i); discriminate.
    - intros a G. apply H2, idx_Ok; auto.
  Qed.
  Lemma p_uadd a b (Q : N -> Prop) : (forall x, x <= umax c -> (debug_build c = true -> x = a + b) -> Q x) ->
    wp P (uadd c a b) Q.
  Proof.
    intros HQ. unfold uadd. destruct (N.leb_spec (a + b) (umax c)); [simpl; auto|].
    destruct (debug_build c) eqn:Ed; simpl.
    - destruct HP as [HA|[[HF|HA] _]]; auto; congruence.
    - apply HQ; [|congruence]. pose proof (N.mod_upper_bound (a + b) (umax c + 1)). lia.
  Qed.

  (** [v] can only be looked up if it is a node *)
  Lemma p_get_weight s v (Q : N -> Prop) : side_base n s -> (fg_str c E n fg -> v < n) ->
    (v < n -> Q (wt c s v)) -> wp P (s_get_weight c s v) Q.
  Proof.
    intros B Hv HQ. destruct (N.lt_ge_cases v n) as [Hlt|Hge].
    - rewrite (get_weight_ok c n); auto. simpl. auto.
    - destruct HP as [HA|[_ HS]]; [|specialize (Hv HS); lia].
      unfold s_get_weight, vf_is_valid, idx. destruct B as [(HB & _) _].
      destruct (getN (vf_flags (s_flags s)) v) eqn:G; [apply getN_Some_lt in G; lia|]. simpl. auto.
  Qed.

  (** the edges listed for [u] *)
  Definition listed (d : dir) (u id : N) (ed : FastGraphEdge) : Prop :=
    exists b e, fg_begin_edges fg d u = Ok b /\ fg_end_edges fg d u = Ok e /\ b <= id < e /\
      getN (fg_edges fg d) id = Some ed.

  Definition rooted (roots : list (N * N)) (s : Side) (d : dir) (v : N) (dt : Data) : Prop :=
    (d_inc_edge dt = umax c /\ d_parent dt = v /\ exists w, In (v, w) roots) \/
    (exists ed, listed d (d_parent dt) (d_inc_edge dt) ed /\ fe_adj ed = v /\ lab s (d_parent dt) <> None).

  (** with overflow checks: labels of settled nodes are final, and parents were settled before *)
  Record dtree (cur : option N) (M : N) (s : Side) : Prop := mk_dtree {
    dt_item : forall it, In it (s_heap s) -> M <= hi_weight it /\ wt c s (hi_node it) <= hi_weight it;
    dt_set : forall v, stl s v = true -> wt c s v <= M;
    dt_cur : forall v, cur = Some v -> exists dt, lab s v = Some dt /\ d_weight dt <= M /\ d_settled dt = false /\
      (d_inc_edge dt <> umax c -> stl s (d_parent dt) = true);
    dt_ord : exists (f : N -> N) k, (forall v, stl s v = true -> f v < k) /\
      forall v dt, lab s v = Some dt -> d_inc_edge dt <> umax c ->
        (stl s v = true -> stl s (d_parent dt) = true /\ f (d_parent dt) < f v) /\
        (stl s v = false -> stl s (d_parent dt) = true \/ cur = Some (d_parent dt))
  }.

  Record tinv (d : dir) (roots : list (N * N)) (cur : option N) (M : N) (s : Side) : Prop := mk_tinv {
    ti_base : side_base n s;
    ti_heap : hinv (s_heap s);
    ti_item : forall it, In it (s_heap s) -> lab s (hi_node it) <> None;
    ti_lab : forall v dt, lab s v = Some dt -> rooted roots s d v dt;
    ti_dbg : debug_build c = true -> dtree cur M s
  }.

  Definition grows (s s' : Side) : Prop := forall v, lab s v <> None -> lab s' v <> None.
  Lemma grows_refl s : grows s s. Proof. intros v; auto. Qed.
  Lemma grows_trans s1 s2 s3 : grows s1 s2 -> grows s2 s3 -> grows s1 s3.
  Proof. intros H1 H2 v Hv. auto. Qed.

  (** a smaller label for [v] *)
  Lemma label_step d roots cur M s v w p i : tinv d roots cur M s -> v < n -> w < wt c s v ->
    rooted roots s d v (mkData false w p i) ->
    (debug_build c = true -> M <= w /\ (i <> umax c -> cur = Some p)) ->
    exists s', s_update_node s v w p i = Ok s' /\
      let s'' := s_set_heap s' (hp_push H (s_heap s') (mkHeapItem w v)) in
      tinv d roots cur M s'' /\ mu c n s'' <= mu c n s /\ grows s s'' /\ lab s'' v <> None.
  Proof.
    intros I Hv Hw Hr Hd.
    destruct (update_ok n s v w p i (ti_base _ _ _ _ _ I) Hv) as (s1 & -> & B1 & Hh1 & Hl1).
    exists s1. split; [reflexivity|]. cbn zeta. rewrite Hh1.
    destruct HL as (_ & Hpush & _). destruct (Hpush (s_heap s) (mkHeapItem w v) (ti_heap _ _ _ _ _ I)) as (P1 & P2).
    set (s' := s_set_heap s1 (hp_push H (s_heap s) (mkHeapItem w v))).
    assert (forall it, In it (s_heap s') <-> it = mkHeapItem w v \/ In it (s_heap s)) as Hits.
    { intros it. unfold s'; simpl. split.
      - intros Hi. eapply Permutation_in in Hi; [|exact P2]. destruct Hi; auto.
      - intros Hi. eapply Permutation_in; [symmetry; exact P2|]. simpl. destruct Hi; auto. }
    assert (forall u, lab s' u = if u =? v then Some (mkData false w p i) else lab s u) as Hl by (intros; apply Hl1).
    assert (forall u, wt c s' u = if u =? v then w else wt c s u) as Hwt.
    { intros u. unfold wt. rewrite Hl. destruct (u =? v); auto. }
    assert (grows s s') as Hg.
    { intros u Hu. rewrite Hl. destruct (u =? v); [discriminate|auto]. }
    assert (forall u dt, rooted roots s d u dt -> rooted roots s' d u dt) as Hrt.
    { intros u dt [A|(ed & A1 & A2 & A3)]; [left; auto|right]. exists ed. auto. }
    split; [|split; [|split; auto]].
    - constructor; auto.
      + intros it Hit. rewrite Hl. apply Hits in Hit as [->|Hit]; cbn [hi_node].
        * rewrite N.eqb_refl. discriminate.
        * destruct (hi_node it =? v); [discriminate|]. apply (ti_item _ _ _ _ _ I); auto.
      + intros u dt Hu. rewrite Hl in Hu. destruct (N.eqb_spec u v) as [->|Hne].
        * injection Hu as <-. auto.
        * apply Hrt. apply (ti_lab _ _ _ _ _ I). auto.
      + intros Ed. destruct (Hd Ed) as [HM Hc]. pose proof (ti_dbg _ _ _ _ _ I Ed) as T.
        assert (stl s v = false) as Hsv.
        { destruct (stl s v) eqn:Es; auto. apply (dt_set _ _ _ T) in Es. lia. }
        assert (forall u, stl s' u = stl s u) as Hst.
        { intros u. unfold stl in *. rewrite Hl. destruct (N.eqb_spec u v) as [->|]; auto. }
        assert (forall u, cur = Some u -> u <> v) as Hcv.
        { intros u Hu ->. destruct (dt_cur _ _ _ T _ Hu) as (dt & Hl' & Hle & _). rewrite (lab_wt c _ _ _ Hl') in Hw. lia. }
        constructor.
        * intros it Hit. rewrite Hwt. apply Hits in Hit as [->|Hit]; cbn [hi_node hi_weight].
          -- rewrite N.eqb_refl. lia.
          -- destruct (dt_item _ _ _ T _ Hit). destruct (N.eqb_spec (hi_node it) v) as [<-|]; [|auto]. split; [auto|lia].
        * intros u Hu. rewrite Hst in Hu. rewrite Hwt. destruct (N.eqb_spec u v) as [->|]; [congruence|].
          apply (dt_set _ _ _ T); auto.
        * intros u Hu. destruct (dt_cur _ _ _ T _ Hu) as (dt & A1 & A2 & A3 & A4). exists dt.
          rewrite Hl. destruct (N.eqb_spec u v) as [->|]; [destruct (Hcv _ Hu); auto|]. rewrite Hst. auto.
        * destruct (dt_ord _ _ _ T) as (f & k & F1 & F2). exists f, k. split; [intros u Hu; rewrite Hst in Hu; auto|].
          intros u dt Hu Hi. rewrite !Hst. rewrite Hl in Hu. destruct (N.eqb_spec u v) as [->|].
          -- injection Hu as <-. cbn [d_inc_edge d_parent] in *. split; [congruence|]. auto.
          -- apply F2; auto.
    - unfold mu. unfold s' at 2. cbn [s_heap s_set_heap].
      replace (lenN (hp_push H (s_heap s) (mkHeapItem w v))) with (lenN (s_heap s) + 1).
      2:{ unfold lenN. rewrite (Permutation_length P2). simpl. lia. }
      assert (phi c n s' + 1 <= phi c n s); [|lia]. unfold phi.
      apply sumN_less with (v := v); [apply rangeN_NoDup|apply rangeN_In; lia|rewrite Hwt, N.eqb_refl; auto|].
      intros x Hx. rewrite Hwt. destruct (N.eqb_spec x v); [congruence|auto].
    - rewrite Hl, N.eqb_refl. discriminate.
  Qed.

  Lemma relax_step d roots curr s id : tinv d roots (Some (hi_node curr)) (hi_weight curr) s ->
    lab s (hi_node curr) <> None ->
    (exists b e, fg_begin_edges fg d (hi_node curr) = Ok b /\ fg_end_edges fg d (hi_node curr) = Ok e /\ b <= id < e) ->
    wp P (relax_edge c H fg d curr s id) (fun s' =>
      tinv d roots (Some (hi_node curr)) (hi_weight curr) s' /\ mu c n s' <= mu c n s /\ grows s s').
  Proof.
    intros I Hlc (b & e & Hb & He & Hid). unfold relax_edge. apply wp_bind, p_idx.
    - intros S. destruct (fs_slice _ _ _ _ S d (hi_node curr)) as (b' & e' & Hs & Hbe).
      { destruct (lab s (hi_node curr)) as [dt|] eqn:El; [|congruence]. eapply lab_lt; eauto. apply I. }
      pose proof (begin_end_slice _ _ _ _ _ Hb He) as Hs'. destruct (slice_fun _ _ _ _ _ _ _ Hs Hs') as [-> ->]. lia.
    - intros ed Hed. apply wp_bind, p_uadd. intros w Hw Hdw. apply wp_bind, p_get_weight; [apply I| |].
      + intros S. apply (fs_edge _ _ _ _ S d id ed Hed).
      + intros Hv. destruct (N.ltb_spec w (wt c s (fe_adj ed))) as [Hlt|].
        2:{ apply wp_Ok. split; auto. split; [lia|apply grows_refl]. }
        destruct (label_step d roots (Some (hi_node curr)) (hi_weight curr) s (fe_adj ed) w (hi_node curr) id I Hv Hlt)
          as (s1 & -> & I' & Hm & Hg & _).
        * right. exists ed. cbn [d_parent d_inc_edge]. split; [exists b, e; auto|]. auto.
        * intros Ed. specialize (Hdw Ed). split; [lia|auto].
        * cbn [bind]. apply wp_Ok. auto.
  Qed.

  Lemma slice_lt S d v : fg_str c E n S -> v < n -> exists b e, fg_begin_edges S d v = Ok b /\ fg_end_edges S d v = Ok e.
  Proof.
    intros HS Hv. destruct (fs_slice _ _ _ _ HS d v Hv) as (b & e & Hs & _). exists b, e.
    split; [eapply slice_begin|eapply slice_end]; eauto.
  Qed.
  Lemma p_begin d v (Q : N -> Prop) : (fg_str c E n fg -> v < n) -> (forall b, fg_begin_edges fg d v = Ok b -> Q b) ->
    wp P (fg_begin_edges fg d v) Q.
  Proof.
    intros Hv HQ. apply any_or; [| |auto].
    - intros S. destruct (slice_lt fg d v S (Hv S)) as (b & e & Hb & _). rewrite Hb. simpl. auto.
    - unfold fg_begin_edges, idx. destruct (getN (fg_ranks fg) v) as [r|]; cbn [bind]; [|discriminate].
      destruct (getN _ r); discriminate.
  Qed.
  Lemma p_end d v (Q : N -> Prop) : (fg_str c E n fg -> v < n) -> (forall b, fg_end_edges fg d v = Ok b -> Q b) ->
    wp P (fg_end_edges fg d v) Q.
  Proof.
    intros Hv HQ. apply any_or; [| |auto].
    - intros S. destruct (slice_lt fg d v S (Hv S)) as (b & e & _ & He). rewrite He. simpl. auto.
    - unfold fg_end_edges, idx. destruct (getN (fg_ranks fg) v) as [r|]; cbn [bind]; [|discriminate].
      destruct (getN _ (r + 1)); discriminate.
  Qed.

  Lemma stall_total d s curr : side_base n s -> (fg_str c E n fg -> hi_node curr < n) ->
    wp P (is_stallable c fg d s curr) (fun _ => True).
  Proof.
    intros B Hc. unfold is_stallable. apply wp_bind, p_begin; auto. intros b Hb.
    apply wp_bind, p_end; auto. intros e He.
    assert (forall ids, (forall i, In i ids -> fg_str c E n fg -> i < lenN (fg_edges fg (opp d))) ->
      wp P (stall_loop c fg d s curr ids) (fun _ => True)) as G.
    { induction ids as [|i ids IH]; intros Hids; cbn [stall_loop]; [simpl; auto|].
      apply wp_bind, p_idx; [intros S; apply Hids; simpl; auto|]. intros ed Hed.
      apply wp_bind, p_get_weight; auto; [intros S; apply (fs_edge _ _ _ _ S _ _ _ Hed)|]. intros _.
      destruct (wt c s (fe_adj ed) =? WEIGHT_MAX c); [apply IH; intros; apply Hids; simpl; auto|].
      apply wp_bind, p_uadd. intros w _ _. destruct (w <? hi_weight curr); [simpl; auto|].
      apply IH; intros; apply Hids; simpl; auto. }
    apply G. intros i Hi S. apply rangeN_In in Hi.
    destruct (fs_slice _ _ _ _ S (opp d) (hi_node curr) (Hc S)) as (b' & e' & Hs & Hbe).
    destruct (slice_fun _ _ _ _ _ _ _ Hs (begin_end_slice _ _ _ _ _ Hb He)) as [-> ->]. lia.
  Qed.

  (** one item is taken from the heap *)
  Lemma pop_step d roots M s curr h' : tinv d roots None M s -> hp_pop H (s_heap s) = Some (curr, h') ->
    tinv d roots None (hi_weight curr) (s_set_heap s h') /\ mu c n (s_set_heap s h') + 1 = mu c n s /\
    (S (List.length h') = List.length (s_heap s)) /\
    lab s (hi_node curr) <> None /\ (debug_build c = true -> wt c s (hi_node curr) <= hi_weight curr).
  Proof.
    intros I Hp. destruct HL as (_ & _ & _ & Hpop & _).
    destruct (Hpop _ _ _ (ti_heap _ _ _ _ _ I) Hp) as (P1 & P2 & P3).
    assert (In curr (s_heap s)) as Hin by (eapply Permutation_in; [symmetry; exact P2|simpl; auto]).
    assert (forall it, In it h' -> In it (s_heap s)) as Hsub.
    { intros it Hi. eapply Permutation_in; [symmetry; exact P2|simpl; auto]. }
    split; [|split; [|split; [|split]]].
    - destruct I as [I1 I2 I3 I4 I5]. constructor; auto.
      + intros it Hi. apply (I3 it), Hsub; auto.
      + intros Ed. destruct (I5 Ed) as [T1 T2 T3 T4]. constructor; auto.
        * intros it Hi. split; [|apply (T1 it), Hsub; auto].
          assert (heap_item_le it curr = true) as Hle by (apply P3, Hsub; auto). apply heap_item_le_spec in Hle. auto.
        * intros v Hv. apply T2 in Hv. apply (N.le_trans _ M); auto. apply (T1 curr Hin).
        * discriminate.
    - unfold mu. cbn [s_heap s_set_heap]. replace (phi c n (s_set_heap s h')) with (phi c n s) by reflexivity.
      unfold lenN. rewrite (Permutation_length P2). simpl. lia.
    - rewrite (Permutation_length P2). reflexivity.
    - apply (ti_item _ _ _ _ _ I); auto.
    - intros Ed. apply (dt_item _ _ _ (ti_dbg _ _ _ _ _ I Ed)); auto.
  Qed.

  (** the node whose edges are going to be relaxed *)
  Lemma start_step d roots M s v : tinv d roots None M s -> lab s v <> None -> stl s v = false ->
    (debug_build c = true -> wt c s v <= M) -> tinv d roots (Some v) M s.
  Proof.
    intros [I1 I2 I3 I4 I5] Hl Hs Hw. constructor; auto. intros Ed. destruct (I5 Ed) as [T1 T2 T3 T4]. constructor; auto.
    - intros u [= <-]. destruct (lab s v) as [dt|] eqn:El; [|congruence]. exists dt. split; auto.
      specialize (Hw Ed). rewrite (lab_wt c _ _ _ El) in Hw. split; auto.
      split; [unfold stl in Hs; rewrite El in Hs; auto|]. intros Hi.
      destruct T4 as (f & k & _ & F2). destruct (F2 _ _ El Hi) as [_ F3]. destruct (F3 Hs) as [|F4]; [auto|discriminate].
    - destruct T4 as (f & k & F1 & F2). exists f, k. split; auto. intros u dt Hu Hi. destruct (F2 u dt Hu Hi) as [F3 F4].
      split; auto. intros Hsu. destruct (F4 Hsu); [auto|discriminate].
  Qed.
  Lemma settle_step d roots M s v : tinv d roots (Some v) M s -> lab s v <> None ->
    exists s', s_settle s v = Ok s' /\ tinv d roots None M s' /\ mu c n s' = mu c n s /\ grows s s' /\ s_heap s' = s_heap s.
  Proof.
    intros I Hl. destruct (lab s v) as [dt0|] eqn:El; [|congruence].
    destruct (settle_node_ok n s v dt0 (ti_base _ _ _ _ _ I) El) as (s1 & -> & B1 & Hh1 & Hl1).
    exists s1. split; [reflexivity|].
    set (dt1 := mkData true (d_weight dt0) (d_parent dt0) (d_inc_edge dt0)) in *.
    assert (forall u, wt c s1 u = wt c s u) as Hwt.
    { intros u. unfold wt. rewrite Hl1. destruct (N.eqb_spec u v) as [->|]; auto. rewrite El. reflexivity. }
    assert (grows s s1) as Hg.
    { intros u Hu. rewrite Hl1. destruct (u =? v); [discriminate|auto]. }
    assert (forall u, stl s1 u = (u =? v) || stl s u) as Hst.
    { intros u. unfold stl. rewrite Hl1. destruct (N.eqb_spec u v) as [->|]; auto. }
    split; [|split; [|split; auto]].
    - constructor; auto.
      + rewrite Hh1. apply I.
      + rewrite Hh1. intros it Hi. apply Hg, (ti_item _ _ _ _ _ I); auto.
      + intros u dt Hu. rewrite Hl1 in Hu.
        assert (exists dt', lab s u = Some dt' /\ d_parent dt' = d_parent dt /\ d_inc_edge dt' = d_inc_edge dt) as (dt' & A1 & A2 & A3).
        { destruct (N.eqb_spec u v) as [->|]; [|eauto]. injection Hu as <-. exists dt0. auto. }
        destruct (ti_lab _ _ _ _ _ I _ _ A1) as [A|(ed & C1 & C2 & C3)].
        * left. rewrite <- A2, <- A3. auto.
        * right. exists ed. rewrite <- A2, <- A3. auto.
      + intros Ed. pose proof (ti_dbg _ _ _ _ _ I Ed) as T.
        destruct (dt_cur _ _ _ T _ eq_refl) as (dtc & C1 & C2 & C3 & C4). rewrite El in C1. injection C1 as <-.
        constructor.
        * rewrite Hh1. intros it Hi. rewrite Hwt. apply (dt_item _ _ _ T); auto.
        * intros u Hu. rewrite Hwt. rewrite Hst in Hu. destruct (N.eqb_spec u v) as [Hx|]; [|apply (dt_set _ _ _ T); auto].
          rewrite Hx, (lab_wt c _ _ _ El). auto.
        * discriminate.
        * destruct (dt_ord _ _ _ T) as (f & k & F1 & F2).
          exists (fun u => if u =? v then k else f u), (k + 1). split.
          -- intros u Hu. rewrite Hst in Hu. destruct (N.eqb_spec u v); [lia|]. apply F1 in Hu. lia.
          -- assert (stl s v = false) as Hsv by (unfold stl; rewrite El; auto).
             intros u dt Hu Hi. rewrite !Hst. rewrite Hl1 in Hu. destruct (N.eqb_spec u v) as [->|Hne].
             ++ injection Hu as <-. cbn [dt1 d_inc_edge d_parent] in *. split; [|intros Hf; discriminate]. intros _.
                specialize (C4 Hi). rewrite C4, orb_true_r. split; auto.
                destruct (N.eqb_spec (d_parent dt0) v) as [E1|_]; [rewrite E1 in C4; congruence|]. apply F1; auto.
             ++ destruct (F2 _ _ Hu Hi) as [F3 F4]. split.
                ** intros Hs. cbn [orb] in Hs. destruct (F3 Hs) as [G1 G2]. rewrite G1, orb_true_r. split; auto.
                   destruct (N.eqb_spec (d_parent dt) v) as [E1|]; [rewrite E1 in G1; congruence|auto].
                ** intros Hs. cbn [orb] in Hs. left. destruct (F4 Hs) as [->|G]; [apply orb_true_r|].
                   injection G as <-. rewrite N.eqb_refl. reflexivity.
    - unfold mu. rewrite Hh1. f_equal. unfold phi. apply sumN_ext. auto.
  Qed.

  (** the meeting node is labelled on both sides *)
  Definition met (best mn : N) (s1 s2 : Side) : Prop :=
    mn = umax c \/ (best < umax c /\ lab s1 mn <> None /\ lab s2 mn <> None).

  Lemma search_dir_term d roots other : side_base n other -> forall fuel M own best mn,
    tinv d roots None M own -> met best mn own other -> (List.length (s_heap own) < fuel)%nat ->
    best <= umax c ->
    wp P (search_dir fuel c H fg d own other best mn) (fun '(own', best', mn') =>
      exists M', tinv d roots None M' own' /\ met best' mn' own' other /\ best' <= umax c /\
        mu c n own' + (if is_nil (s_heap own) then 0 else 1) <= mu c n own).
  Proof.
    intros Bo. induction fuel as [|fuel IH]; intros M own best mn I Hm Hf Hb; [lia|]. cbn [search_dir].
    destruct (hp_pop H (s_heap own)) as [[curr h']|] eqn:Ep.
    2:{ apply wp_Ok. exists M. split; auto. split; auto. split; auto.
        destruct HL as (_ & _ & Hnone & _). apply (Hnone _ (ti_heap _ _ _ _ _ I)) in Ep. rewrite Ep. simpl. lia. }
    destruct (pop_step _ _ _ _ _ _ I Ep) as (I1 & Hmu & Hlen & Hlc & Hwc).
    set (own1 := s_set_heap own h') in *.
    assert (is_nil (s_heap own) = false) as Hnn by (destruct (s_heap own); [simpl in Hlen; lia|auto]). rewrite Hnn.
    assert (hi_node curr < n) as Hcn.
    { destruct (lab own (hi_node curr)) as [dt|] eqn:El; [|congruence]. eapply lab_lt; [|exact El]. apply I. }
    assert (lab own1 (hi_node curr) <> None) as Hlc1 by exact Hlc.
    assert (met best mn own1 other) as Hm1 by exact Hm.
    assert (forall own' best' mn' M', tinv d roots None M' own' -> met best' mn' own' other -> best' <= umax c ->
       mu c n own' <= mu c n own1 ->
       exists M', tinv d roots None M' own' /\ met best' mn' own' other /\ best' <= umax c /\
        mu c n own' + 1 <= mu c n own) as Hdone.
    { intros own' best' mn' M' J1 J2 J3 J4. exists M'. split; auto. split; auto. split; auto. lia. }
    rewrite (QueryFacts.is_settled_ok n); [|apply I1|auto]. cbn [bind].
    assert (forall f', (List.length (s_heap own1) < f')%nat -> (forall M own best mn,
       tinv d roots None M own -> met best mn own other -> (List.length (s_heap own) < f')%nat -> best <= umax c ->
       wp P (search_dir f' c H fg d own other best mn) (fun '(own', best', mn') =>
        exists M', tinv d roots None M' own' /\ met best' mn' own' other /\ best' <= umax c /\
        mu c n own' + (if is_nil (s_heap own) then 0 else 1) <= mu c n own)) ->
       wp P (search_dir f' c H fg d own1 other best mn) (fun '(own', best', mn') =>
        exists M', tinv d roots None M' own' /\ met best' mn' own' other /\ best' <= umax c /\
        mu c n own' + 1 <= mu c n own)) as Hrec.
    { intros f' Hf' G. eapply wp_mono; [eapply G; eauto|]. intros [[own' best'] mn'] (M' & J1 & J2 & J3 & J4).
      exists M'. split; auto. split; auto. split; auto. lia. }
    assert ((List.length (s_heap own1) < fuel)%nat) as Hf1 by (unfold own1; simpl; lia).
    destruct (stl own1 (hi_node curr)) eqn:Est; [apply Hrec; auto|].
    destruct (best <? hi_weight curr); [apply wp_Ok; eapply Hdone; eauto; lia|].
    eapply wp_bind_mono; [apply stall_total; [apply I1|auto]|]. intros stl _.
    destruct stl; [apply Hrec; auto|].
    apply wp_bind, p_begin; auto. intros b Hbe. apply wp_bind, p_end; auto. intros e Hen.
    eapply wp_bind_mono.
    { apply wp_foldM_inv with (I := fun s => tinv d roots (Some (hi_node curr)) (hi_weight curr) s /\
         mu c n s <= mu c n own1 /\ grows own1 s).
      - split; [apply start_step; auto|]. split; [lia|apply grows_refl].
      - intros id s Hin (J1 & J2 & J3). eapply wp_mono.
        + apply (relax_step d roots curr s id J1); [apply J3; auto|]. apply rangeN_In in Hin. eauto 6.
        + cbn beta. intros s' (K1 & K2 & K3). split; auto. split; [lia|]. eapply grows_trans; eauto. }
    cbn beta. intros own2 (J1 & J2 & J3).
    destruct (settle_step d roots _ own2 (hi_node curr) J1 (J3 _ Hlc1)) as (own3 & -> & K1 & K2 & K3 & K4). cbn [bind].
    assert (grows own1 own3) as Hg by (eapply grows_trans; eauto).
    assert (met best mn own3 other) as Hm3.
    { destruct Hm1 as [|(A1 & A2 & A3)]; [left; auto|right]. auto. }
    rewrite (valid_ok n); auto. cbn [bind]. destruct (lab other (hi_node curr)) as [dto|] eqn:Eo.
    - rewrite (get_weight_ok c n); auto. cbn [bind]. apply wp_bind, p_uadd. intros w Hw _.
      destruct (N.ltb_spec w best); apply wp_Ok; eapply Hdone; eauto; try lia.
      right. split; [lia|]. split; auto. congruence.
    - apply wp_Ok. eapply Hdone; eauto. lia.
  Qed.

  Lemma met_sym best mn s1 s2 : met best mn s1 s2 -> met best mn s2 s1.
  Proof. intros [|(A1 & A2 & A3)]; [left; auto|right; auto]. Qed.

  Lemma main_loop_term rf rb : forall f Mf Mb fwd bwd best mn,
    tinv Fwd rf None Mf fwd -> tinv Bwd rb None Mb bwd -> met best mn fwd bwd -> best <= umax c ->
    mu c n fwd + mu c n bwd < N.of_nat (fsize f) ->
    wp P (main_loop f c H fg fwd bwd best mn) (fun '(fwd', bwd', best', mn') =>
      exists Mf' Mb', tinv Fwd rf None Mf' fwd' /\ tinv Bwd rb None Mb' bwd' /\ met best' mn' fwd' bwd').
  Proof.
    induction f as [|rest IH]; [|specialize (IH tt)]; intros Mf Mb fwd bwd best mn If Ib Hm Hb Hf; cbn [fsize] in Hf; [lia|].
    cbn [main_loop].
    assert (is_nil (s_heap fwd) = false \/ is_nil (s_heap bwd) = false ->
      wp P ('(fwd', bw1, mn1) <- search_dir (S (List.length (s_heap fwd))) c H fg Fwd fwd bwd best mn ;;
            '(bwd', bw2, mn2) <- search_dir (S (List.length (s_heap bwd))) c H fg Bwd bwd fwd' bw1 mn1 ;;
            main_loop (rest tt) c H fg fwd' bwd' bw2 mn2)
        (fun '(fwd', bwd', best', mn') =>
          exists Mf' Mb', tinv Fwd rf None Mf' fwd' /\ tinv Bwd rb None Mb' bwd' /\ met best' mn' fwd' bwd')) as HX.
    { intros Hne. eapply wp_bind_mono.
      { apply (search_dir_term Fwd rf bwd (ti_base _ _ _ _ _ Ib) _ Mf); auto. }
      intros [[fwd' bw1] mn1] (Mf' & I1 & Hm1 & Hb1 & Hmu1). eapply wp_bind_mono.
      { apply (search_dir_term Bwd rb fwd' (ti_base _ _ _ _ _ I1) _ Mb); auto. apply met_sym; auto. }
      intros [[bwd' bw2] mn2] (Mb' & I2 & Hm2 & Hb2 & Hmu2). eapply (IH Mf' Mb'); auto; [apply met_sym; auto|].
      destruct Hne as [Hne|Hne]; rewrite Hne in *; destruct (is_nil _); lia. }
    destruct (s_heap fwd) eqn:Ef; [destruct (s_heap bwd) eqn:Eb|]; try (apply HX; simpl; auto).
    apply wp_Ok. eauto.
  Qed.

  Lemma init_side_term d roots s0 : side_base n s0 -> (forall v, lab s0 v = None) -> s_heap s0 = [] ->
    (forall v w, In (v, w) roots -> v < n) ->
    wp P (init_side c H s0 roots) (fun s => tinv d roots None 0 s /\ mu c n s <= n * umax c /\
      forall v w, In (v, w) roots -> w < umax c -> lab s v <> None).
  Proof.
    intros B0 L0 E0 Hr. unfold init_side.
    assert (mu c n s0 = n * umax c) as Hmu0.
    { unfold mu. rewrite E0. unfold phi. rewrite (sumN_const _ (umax c)), lenN_rangeN, N.sub_0_r; [rewrite lenN_nil; lia|].
      intros x _. unfold wt. rewrite L0. auto. }
    assert (forall v, stl s0 v = false) as St0 by (intros v; unfold stl; rewrite L0; auto).
    eapply wp_mono.
    { apply wp_foldM with (I := fun pre s => (tinv d roots None 0 s /\ mu c n s <= n * umax c) /\
        forall v w, In (v, w) pre -> w < umax c -> lab s v <> None).
      - split; [split; [|lia]|intros v w []]. constructor; auto.
        + rewrite E0. apply HL.
        + rewrite E0. intros it [].
        + intros v dt Hv. rewrite L0 in Hv. discriminate.
        + intros _. constructor.
          * rewrite E0. intros it [].
          * intros v Hv. rewrite St0 in Hv. discriminate.
          * discriminate.
          * exists (fun _ => 0), 0. split; [intros v Hv; rewrite St0 in Hv; discriminate|].
            intros v dt Hv. rewrite L0 in Hv. discriminate.
      - intros pre [v w] post s Eq ((I & Hmu) & Hl).
        assert (In (v, w) roots) as Hin by (rewrite Eq; apply in_or_app; simpl; auto).
        pose proof (Hr _ _ Hin) as Hv.
        rewrite (get_weight_ok c n); [|apply I|auto]. cbn [bind].
        destruct (N.ltb_spec w (wt c s v)) as [Hlt|Hge].
        + destruct (label_step d roots None 0 s v w v (INVALID_EDGE c) I Hv Hlt) as (s1 & -> & I' & Hmu' & Hg & Hlv).
          * left. cbn [d_inc_edge d_parent]. eauto.
          * intros _. split; [lia|]. intros Hx. destruct Hx. reflexivity.
          * cbn [bind]. apply wp_Ok. split; [split; [auto|lia]|]. intros u x Hi Hx.
            apply in_app_or in Hi as [Hi|[Hi|[]]]; [apply Hg; eauto|]. injection Hi as <- <-. auto.
        + apply wp_Ok. split; auto. intros u x Hi Hx. apply in_app_or in Hi as [Hi|[Hi|[]]]; [eauto|].
          injection Hi as <- <-. unfold wt in Hge. destruct (lab s v); [discriminate|lia]. }
    cbn beta. intros s [[I Hmu] Hl]. auto.
  Qed.

  Lemma init_best_term starts ends : wp P (init_best c starts ends) (fun '(bw, mn) => bw <= umax c /\
    (mn = umax c \/ (bw < umax c /\ exists w1 w2, In (mn, w1) starts /\ w1 < umax c /\ In (mn, w2) ends /\ w2 < umax c))).
  Proof.
    unfold init_best. apply wp_foldM_inv.
    - split; [apply N.le_refl|left; reflexivity].
    - intros [sn sw] [bw mn] Hs J. apply wp_foldM_inv; auto.
      clear bw mn J. intros [en ew] [bw mn] He J. unfold WEIGHT_MAX.
      destruct (N.eqb_spec sn en) as [->|]; simpl; auto.
      destruct (N.ltb_spec sw (umax c)) as [Hsw|]; simpl; auto.
      destruct (N.ltb_spec ew (umax c)) as [Hew|]; simpl; auto.
      apply wp_bind, p_uadd. intros w Hw _. destruct (N.ltb_spec w bw); simpl; auto.
      destruct J as [J _]. split; auto. right. split; [lia|]. exists sw, ew. auto.
  Qed.

  (** *** Following the parents *)
  Definition tree (s : Side) : Prop := exists f : N -> N, forall v dt, lab s v = Some dt -> d_inc_edge dt <> umax c ->
    lab s (d_parent dt) <> None /\ f (d_parent dt) < f v.

  Lemma tinv_tree d roots M s : debug_build c = true \/ upward fg -> tinv d roots None M s -> tree s.
  Proof.
    intros [Ed|[r Hr]] I.
    - destruct (dt_ord _ _ _ (ti_dbg _ _ _ _ _ I Ed)) as (f & k & F1 & F2).
      exists (fun v => if stl s v then f v else k). intros v dt Hv Hi. destruct (F2 v dt Hv Hi) as [F3 F4].
      assert (stl s (d_parent dt) = true /\ (stl s v = true -> f (d_parent dt) < f v)) as [G1 G2].
      { destruct (stl s v) eqn:Es; [destruct (F3 eq_refl); auto|]. destruct (F4 eq_refl); [|discriminate]. split; auto. discriminate. }
      split.
      + unfold stl in G1. destruct (lab s (d_parent dt)); [discriminate|congruence].
      + rewrite G1. destruct (stl s v); auto.
    - exists r. intros v dt Hv Hi. destruct (ti_lab _ _ _ _ _ I _ _ Hv) as [[A _]|(ed & (b & e & B1 & B2 & B3 & B4) & A2 & A3)]; [congruence|].
      split; auto. rewrite <- A2. eapply Hr; eauto.
  Qed.

  Lemma unpack_tree_bounded d s : side_base n s -> tree s -> ~ nesting_cycle c fg ->
    forall k result v below, lab s v <> None -> NoDup below ->
    (forall y, In y below -> y < n) -> (exists f : N -> N, (forall v dt, lab s v = Some dt -> d_inc_edge dt <> umax c ->
        lab s (d_parent dt) <> None /\ f (d_parent dt) < f v) /\ forall y, In y below -> f v < f y) ->
    (N.to_nat n < k + List.length below)%nat ->
    unpack_tree k c fg d s result v <> Diverge.
  Proof.
    intros B _ Hac. induction k as [|k IH]; intros result v below Hv Hnd Hlt (f & Hf1 & Hf2) Hk.
    - exfalso. assert (incl below (rangeN 0 n)) as Hi by (intros y Hy; apply rangeN_In; specialize (Hlt y Hy); lia).
      pose proof (NoDup_incl_length Hnd Hi) as Hl. pose proof (lenN_rangeN 0 n). unfold lenN in *. lia.
    - cbn [unpack_tree]. destruct (lab s v) as [dt|] eqn:El; [|congruence].
      rewrite (idx_Some _ _ _ (lab_data _ _ _ El)). cbn [bind]. unfold INVALID_EDGE.
      destruct (N.eqb_spec (d_inc_edge dt) (umax c)) as [|Hi]; [discriminate|].
      pose proof (unpack_terminates c fg Hac d result (d_inc_edge dt) (match d with Fwd => true | Bwd => false end)) as Hu.
      destruct (unpack _ _ _ _ _ _ _); cbn [bind]; [|discriminate|congruence].
      destruct (Hf1 _ _ El Hi) as [Hp Hfp].
      apply (IH _ _ (v :: below)); auto.
      + constructor; auto. intros Hin. apply Hf2 in Hin. lia.
      + intros y [<-|Hy]; auto. eapply lab_lt; eauto.
      + exists f. split; auto. intros y [<-|Hy]; auto. specialize (Hf2 y Hy). lia.
      + simpl. lia.
  Qed.

  (** *** Node lists of graphs with the structure of prepared graphs *)
  Lemma str_acyclic : fg_str c E n fg -> ~ nesting_cycle c fg.
  Proof.
    intros S (x & Hx).
    assert (forall a b, nested c fg a b -> exists ea eb, getN (fg_edges fg (fst a)) (snd a) = Some ea /\ getN (fg_edges fg (fst b)) (snd b) = Some eb /\ rk fg (fe_base eb) < rk fg (fe_base ea)) as G.
    { intros a b (e & H1 & H2 & H3 & H4). unfold INVALID_EDGE in *.
      destruct (fs_src _ _ _ _ S _ _ _ H1) as [(A & _)|(ei & eo & A1 & A2 & A3 & A4 & A5 & A6 & A7 & A8)]; [congruence|].
      destruct H4 as [-> | ->]; simpl; [exists e, ei; auto|]. exists e, eo. rewrite <- A5. auto. }
    assert (forall a b, clos_trans_1n _ (nested c fg) a b -> exists ea eb, getN (fg_edges fg (fst a)) (snd a) = Some ea /\ getN (fg_edges fg (fst b)) (snd b) = Some eb /\ rk fg (fe_base eb) < rk fg (fe_base ea)) as G'.
    { induction 1 as [a b Hab|a b d Hab _ (eb & ed & H1 & H2 & H3)]; [auto|].
      destruct (G _ _ Hab) as (ea & eb' & H4 & H5 & H6). assert (eb' = eb) by congruence. subst. exists ea, ed.
      split; auto. split; auto. lia. }
    destruct (G' _ _ Hx) as (ea & eb & H1 & H2 & H3). assert (ea = eb) by congruence. subst. lia.
  Qed.

  Lemma unpack_str (S : fg_str c E n fg) k : forall d id ed, getN (fg_edges fg d) id = Some ed ->
    (N.to_nat (rk fg (fe_base ed)) < k)%nat ->
    exists L W, walk E (fsrc d (fe_base ed) (fe_adj ed)) (fdst d (fe_base ed) (fe_adj ed))
                (L ++ [fdst d (fe_base ed) (fe_adj ed)]) W /\
      (forall nodes, unpack k c fg d nodes id false = Ok (nodes ++ L)) /\
      (forall nodes, unpack k c fg d nodes id true = Ok (nodes ++ rev L)).
  Proof.
    induction k as [|k IH]; intros d id ed Hed Hk; [lia|].
    destruct (fs_src _ _ _ _ S _ _ _ Hed) as [(H1 & H2 & w & H3)|
      (ei & eo & Hi & Ho & Gi & Go & Hb & Ai & Ao & Hrk)].
    - exists [fsrc d (fe_base ed) (fe_adj ed)], w. split.
      + simpl. apply walk_one; auto.
      + split; intros nodes; simpl; rewrite (idx_Some _ _ _ Hed); cbn [bind];
          rewrite (is_shortcut_orig _ _ H1 H2); cbn [bind negb]; destruct d; reflexivity.
    - destruct (IH Bwd _ _ Gi) as (Li & W1 & Wi & Fi & Ri); [lia|].
      destruct (IH Fwd _ _ Go) as (Lo & W2 & Wo & Fo & Ro); [rewrite <- Hb; lia|].
      simpl in Wi, Wo.
      exists (Li ++ Lo), (W1 + W2). split; [|split].
      + rewrite <- app_assoc, <- Ai, <- Ao. eapply walk_app; [exact Wi|]. rewrite Hb. exact Wo.
      + intros nodes; simpl; rewrite (idx_Some _ _ _ Hed); cbn [bind];
          rewrite (is_shortcut_sc _ _ Hi Ho); cbn [bind negb]. rewrite Fi. cbn [bind]. rewrite Fo, app_assoc. auto.
      + intros nodes; simpl; rewrite (idx_Some _ _ _ Hed); cbn [bind];
          rewrite (is_shortcut_sc _ _ Hi Ho); cbn [bind negb]. rewrite Ro. cbn [bind].
        rewrite Ri, rev_app_distr, app_assoc. auto.
  Qed.

  Lemma unpack_tree_str (S : fg_str c E n fg) d roots M s : tinv d roots None M s -> forall k v,
    (N.to_nat (rk fg v) < k)%nat -> lab s v <> None ->
    exists r rw P' L, In (r, rw) roots /\ ext_walk E d v r L P' /\
      forall result, unpack_tree k c fg d s result v = Ok (result ++ ext_list d L, r).
  Proof.
    intros I. induction k as [|k IH]; intros v Hk Hl; [lia|].
    destruct (lab s v) as [dt|] eqn:El; [|congruence].
    destruct (ti_lab _ _ _ _ _ I _ _ El) as [(A1 & A2 & w & A3)|(ed & (b & e & A1 & A2 & A3 & A4) & A5 & A6)].
    - exists v, w, 0, []. split; auto. split; [destruct d; constructor|].
      intros result. simpl. rewrite (idx_Some _ _ _ (lab_data _ _ _ El)). cbn [bind].
      unfold INVALID_EDGE. rewrite A1, N.eqb_refl. destruct d; simpl; rewrite app_nil_r; auto.
    - destruct (fs_edge _ _ _ _ S _ _ _ A4) as (Hbn & _ & Hr).
      pose proof (fs_base _ _ _ _ S d _ _ _ _ _ A4 (begin_end_slice _ _ _ _ _ A1 A2) A3) as Hbase.
      destruct (IH (d_parent dt)) as (r & rw & P' & L & B1 & B2 & B3); [rewrite <- Hbase; rewrite A5 in Hr; lia|auto|].
      destruct (unpack_str S (unpack_fuel fg) d _ _ A4) as (L' & W' & U1 & U2 & U3).
      { unfold unpack_fuel. rewrite (fs_n _ _ _ _ S). pose proof (fs_rank _ _ _ _ S _ Hbn). lia. }
      exists r, rw, (match d with Fwd => P' + W' | Bwd => W' + P' end), (match d with Fwd => L ++ L' | Bwd => L' ++ L end).
      split; auto. split.
      + destruct d; simpl in *; rewrite Hbase, A5 in U1; rewrite <- app_assoc; eapply walk_app; eauto.
      + intros result. cbn [unpack_tree]. rewrite (idx_Some _ _ _ (lab_data _ _ _ El)). cbn [bind].
        apply getN_Some_lt in A4. pose proof (fs_len _ _ _ _ S d).
        unfold INVALID_EDGE. destruct (N.eqb_spec (d_inc_edge dt) (umax c)) as [He|_]; [lia|].
        destruct d.
        * rewrite U3. cbn [bind]. rewrite B3. simpl. rewrite rev_app_distr, app_assoc. auto.
        * rewrite U2. cbn [bind]. rewrite B3. simpl. rewrite app_assoc. auto.
  Qed.

  (** a real path between given nodes *)
  Definition shape (ss ts : list (N * N)) (sp : ShortestPath) : Prop :=
    (exists w, In (sp_source sp, w) ss) /\ (exists w, In (sp_target sp, w) ts) /\
    exists W, walk E (sp_source sp) (sp_target sp) (sp_nodes sp) W.

  Lemma extract_term ss ts Mf Mb fwd bwd mn : fg_num_nodes fg = n -> debug_build c = true \/ upward fg ->
    ~ nesting_cycle c fg ->
    tinv Fwd ss None Mf fwd -> tinv Bwd ts None Mb bwd -> lab fwd mn <> None -> lab bwd mn <> None -> mn <> umax c ->
    wp P (extract_nodes c fg fwd bwd mn) (fun nodes => exists l x, nodes = l ++ [x] /\
      (fg_str c E n fg -> exists s sw tw W, In (s, sw) ss /\ In (x, tw) ts /\ walk E s x nodes W)).
  Proof.
    intros Hnn Hmode Hac If Ib Lf Lb Hmn.
    assert (mn < n) as Hlt.
    { destruct (lab fwd mn) as [dt|] eqn:El; [|congruence]. eapply lab_lt; [|exact El]. apply If. }
    unfold extract_nodes, INVALID_NODE. destruct (N.eqb_spec mn (umax c)); [congruence|]. cbn [assert bind negb].
    rewrite (valid_ok n); [|apply If|auto]. destruct (lab fwd mn) as [df|] eqn:Ef; [|congruence]. cbn [assert bind].
    rewrite (valid_ok n); [|apply Ib|auto]. destruct (lab bwd mn) as [db|] eqn:Eb; [|congruence]. cbn [assert bind].
    rewrite Hnn.
    assert (forall d roots M s res, tinv d roots None M s -> lab s mn <> None ->
      unpack_tree (S (N.to_nat n)) c fg d s res mn <> Diverge) as HT.
    { intros d roots M s res I Hl. pose proof (tinv_tree _ _ _ _ Hmode I) as [f Hf].
      apply (unpack_tree_bounded d s (ti_base _ _ _ _ _ I) (ex_intro _ f Hf) Hac _ _ _ []); auto.
      - constructor.
      - intros y [].
      - exists f. split; auto. intros y [].
      - simpl. lia. }
    assert (lab fwd mn <> None) as Lf' by congruence. assert (lab bwd mn <> None) as Lb' by congruence.
    apply any_or.
    - intros S. assert ((N.to_nat (rk fg mn) < Datatypes.S (N.to_nat n))%nat) as Hrk.
      { pose proof (fs_rank _ _ _ _ S _ Hlt). lia. }
      destruct (unpack_tree_str S _ _ _ _ If _ _ Hrk Lf') as (r1 & w1 & P1 & L1 & A1 & A2 & ->). cbn [bind].
      destruct (unpack_tree_str S _ _ _ _ Ib _ _ Hrk Lb') as (r2 & w2 & P2 & L2 & C1 & C2 & C3). rewrite C3. cbn [bind].
      simpl ext_list. simpl app. rewrite rev_involutive. apply wp_Ok.
      exists (L1 ++ L2), r2. split; auto. intros _. exists r1, w1, w2, (P1 + P2). split; auto. split; auto.
      rewrite <- app_assoc. eapply walk_app; [exact A2|exact C2].
    - pose proof (HT _ _ _ _ [] If Lf') as T1. destruct (unpack_tree _ c fg Fwd fwd [] mn) as [[r1 x]| |]; cbn [bind]; [|discriminate|congruence].
      pose proof (HT _ _ _ _ (rev r1) Ib Lb') as T2. destruct (unpack_tree _ c fg Bwd bwd (rev r1) mn) as [[r2 y]| |]; cbn [bind]; [discriminate|discriminate|congruence].
    - intros nodes Hok.
      destruct (unpack_tree _ c fg Fwd fwd [] mn) as [[r1 x]| |] eqn:U1; cbn [bind] in Hok; try discriminate.
      destruct (unpack_tree _ c fg Bwd bwd (rev r1) mn) as [[r2 y]| |] eqn:U2; cbn [bind] in Hok; try discriminate.
      injection Hok as <-. exists r2, y. split; auto. intros S.
      assert ((N.to_nat (rk fg mn) < Datatypes.S (N.to_nat n))%nat) as Hrk.
      { pose proof (fs_rank _ _ _ _ S _ Hlt). lia. }
      destruct (unpack_tree_str S _ _ _ _ If _ _ Hrk Lf') as (s1 & w1 & P1 & L1 & A1 & A2 & A3).
      rewrite A3 in U1. injection U1 as <- <-.
      destruct (unpack_tree_str S _ _ _ _ Ib _ _ Hrk Lb') as (s2 & w2 & P2 & L2 & C1 & C2 & C3).
      rewrite C3 in U2. injection U2 as <- <-.
      exists s1, w1, w2, (P1 + P2). split; auto. split; auto.
      simpl ext_list. simpl app. rewrite rev_involutive. rewrite <- app_assoc. eapply walk_app; [exact A2|exact C2].
  Qed.

  Theorem calc_term pc ss ts : pc_ok n pc -> (forall r, P r) \/ query_ok pc fg ss ts ->
    debug_build c = true \/ upward fg -> ~ nesting_cycle c fg ->
    wp P (pc_calc_path_multiple c H pc fg ss ts) (fun '(pc', r) => pc_ok n pc' /\
      (fg_str c E n fg -> forall sp, r = Some sp -> shape ss ts sp)).
  Proof.
    intros (Hpn & Bf & Bb) Hq Hmode Hac. unfold pc_calc_path_multiple.
    assert (forall b m, (query_ok pc fg ss ts -> b = true) -> wp P (assert b m) (fun _ => b = true)) as Has.
    { intros b m Hb. destruct b; simpl; auto. destruct Hq as [HA|HQ]; auto. specialize (Hb HQ). discriminate. }
    eapply wp_bind_mono; [apply Has; intros (Q & _); apply N.eqb_eq; exact Q|]. intros [] Q1. apply N.eqb_eq in Q1.
    eapply wp_bind_mono; [apply Has; intros (_ & Q & _); destruct ss; auto|]. intros [] _.
    eapply wp_bind_mono; [apply Has; intros (_ & _ & Q & _); destruct ts; auto|]. intros [] _.
    eapply wp_bind_mono; [apply Has; intros (_ & _ & _ & Q & _); apply forallb_ids; exact Q|]. intros [] Q4.
    eapply wp_bind_mono; [apply Has; intros (_ & _ & _ & _ & Q); apply forallb_ids; exact Q|]. intros [] Q5.
    rewrite Hpn in *. rewrite forallb_ids in Q4, Q5.
    destruct (reset_ok n _ Bf) as [Rf1 Rf2]. destruct (reset_ok n _ Bb) as [Rb1 Rb2].
    eapply wp_bind_mono; [apply init_best_term|]. intros [bw0 mn0] [Hb0 Hm0].
    eapply wp_bind_mono; [apply (init_side_term Fwd ss _ Rf1 Rf2); auto|]. intros fwd1 (I1 & Hmu1 & Hl1).
    eapply wp_bind_mono; [apply (init_side_term Bwd ts _ Rb1 Rb2); auto|]. intros bwd1 (I2 & Hmu2 & Hl2).
    eapply wp_bind_mono.
    { apply (main_loop_term ss ts _ 0 0); auto.
      - destruct Hm0 as [->|(A1 & w1 & w2 & A2 & A3 & A4 & A5)]; [left; auto|right]. split; auto. split; eauto.
      - unfold query_fuel. rewrite fsize_of, N2Nat.id, Q1. lia. }
    intros [[[fwd2 bwd2] best] mn] (Mf & Mb & J1 & J2 & Hm).
    assert (pc_ok n (mkPC n fwd2 bwd2)) as Hpc'.
    { split; auto. split; [apply J1|apply J2]. }
    unfold INVALID_NODE, WEIGHT_MAX. destruct (N.eqb_spec mn (umax c)) as [|Hmn].
    { apply wp_Ok. split; auto. discriminate. }
    destruct Hm as [|(M1 & M2 & M3)]; [congruence|].
    destruct (N.ltb_spec best (umax c)); [|lia]. cbn [assert bind].
    eapply wp_bind_mono; [apply (extract_term ss ts Mf Mb); auto|]. cbn beta. intros nodes (l & x & -> & Hw).
    replace (is_nil (l ++ [x])) with false by (destruct l; auto). cbn [assert bind negb].
    assert (exists y l', l ++ [x] = y :: l') as (y & l' & El) by (destruct l; simpl; eauto).
    rewrite El at 1. change (idx (y :: l') 0) with (Ok (A:=N) y). cbn [bind]. rewrite idx_end. cbn [bind]. apply wp_Ok. split; auto.
    intros S sp [= <-]. destruct (Hw S) as (s & sw & tw & W & W1 & W2 & W3).
    destruct (walk_head _ _ _ _ _ W3) as (rr & Err). rewrite El in Err. injection Err as <- _.
    split; [eauto|]. split; [eauto|]. exists W. exact W3.
  Qed.
End Term.
