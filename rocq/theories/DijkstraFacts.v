(** * DijkstraFacts: the reference Dijkstra computes shortest paths *)
From Verif Require Export WitnessFacts AnswerFacts Dijkstra.
From Coq Require Import Permutation Lia.
Open Scope N_scope.

Definition dl (d : Dijkstra) (v : N) : option DData := view (dj_flags d) (dj_data d) v.
Definition dset (d : Dijkstra) (v : N) : bool :=
  match dl d v with Some x => dd_settled x | None => false end.

Record dj_base (n : N) (d : Dijkstra) : Prop := mk_dj_base {
  db_n : dj_num_nodes d = n;
  db_d : lenN (dj_data d) = n;
  db_f : vf_inv n (dj_flags d)
}.

Lemma dj_new_base c n : dj_base n (dj_new c n).
Proof. constructor; simpl; auto; [apply lenN_repeat|apply vf_new_ok]. Qed.
Lemma dj_base_set_heap n d h : dj_base n d -> dj_base n (dj_set_heap d h).
Proof. intros [? ? ?]; constructor; auto. Qed.

Lemma dj_update_node_ok n d v w p : dj_base n d -> v < n ->
  exists d', dj_update_node d v w p = Ok d' /\ dj_base n d' /\ dj_heap d' = dj_heap d /\
    (forall u, dl d' u = if u =? v then Some (mkDData false w p) else dl d u).
Proof.
  intros [Hn Hd Hf] Hv. unfold dj_update_node.
  destruct (vf_set_valid_ok n _ v Hf Hv) as (f' & -> & Hf' & Hvb). simpl.
  rewrite upd_eq by lia. simpl. eexists; split; [reflexivity|].
  split; [constructor; simpl; auto; rewrite lenN_setN; auto|].
  split; [reflexivity|].
  intros u. unfold dl, view; simpl. rewrite Hvb, getN_setN. rewrite (N.eqb_sym v u).
  destruct (N.eqb_spec u v) as [->|]; simpl; auto.
  destruct (N.ltb_spec v (lenN (dj_data d))); [auto|lia].
Qed.
Lemma dj_is_settled_ok n d v : dj_base n d -> v < n -> dj_is_settled d v = Ok (dset d v).
Proof.
  intros [Hn Hd Hf] Hv. unfold dj_is_settled. rewrite (vf_is_valid_ok n _ _ Hf Hv). simpl.
  unfold dset, dl, view. destruct (vfb _ v); auto.
  destruct (getN_lt (dj_data d) v) as [x Hd']; [lia|]. rewrite (idx_Some _ _ _ Hd'), Hd'. auto.
Qed.
Lemma dj_get_weight_ok c n d v : dj_base n d -> v < n ->
  dj_get_weight c d v = Ok (match dl d v with Some x => dd_weight x | None => umax c end).
Proof.
  intros [Hn Hd Hf] Hv. unfold dj_get_weight. rewrite (vf_is_valid_ok n _ _ Hf Hv). simpl.
  unfold dl, view. destruct (vfb _ v); auto.
  destruct (getN_lt (dj_data d) v) as [x Hd']; [lia|]. rewrite (idx_Some _ _ _ Hd'), Hd'. auto.
Qed.
Lemma dj_settle_ok n d v : dj_base n d -> v < n ->
  exists d', dj_settle d v = Ok d' /\ dj_base n d' /\ dj_heap d' = dj_heap d /\
    (forall u, dl d' u = if u =? v
       then option_map (fun x => mkDData true (dd_weight x) (dd_parent x)) (dl d v) else dl d u).
Proof.
  intros [Hn Hd Hf] Hv. unfold dj_settle.
  destruct (getN_lt (dj_data d) v) as [x Hd']; [lia|]. rewrite (idx_Some _ _ _ Hd'). simpl.
  rewrite upd_eq by lia. simpl. eexists; split; [reflexivity|].
  split; [constructor; simpl; auto; rewrite lenN_setN; auto|].
  split; [reflexivity|].
  intros u. unfold dl, view; simpl. rewrite getN_setN. rewrite (N.eqb_sym v u).
  destruct (N.eqb_spec u v) as [->|]; simpl; auto.
  destruct (N.ltb_spec v (lenN (dj_data d))); [|lia]. rewrite Hd'. destruct (vfb _ v); auto.
Qed.
Lemma dl_idx n d v x : dj_base n d -> dl d v = Some x -> v < n /\ idx (dj_data d) v = Ok x.
Proof.
  intros [Hn Hd Hf] E. split; [eapply view_lt; eauto|].
  unfold dl, view in E. destruct (vfb _ v); [|discriminate]. apply idx_Some; auto.
Qed.

Section Dij.
  Variables (c : cfg) (H : heap_ops) (hinv : list HeapItem -> Prop).
  Hypothesis HL : heap_laws H hinv.
  Hypothesis Hdbg : debug_build c = true.
  Variables (n : N) (allow : Prop) (g : PrepGraph) (M : N).
  Hypothesis Hn : n <= umax c.
  Hypothesis W : pg_wf n g.
  Hypothesis HB : pg_bnd M g.
  Hypothesis Hov : umax c < n * M -> allow.
  Variable E : list Edge.
  Hypothesis HE : forall u v w, arel g u v w <-> In (mkEdge u v w) E.

  (** How the label of [v] is justified. *)
  Definition just (s : N) (d : Dijkstra) (v : N) (x : DData) : Prop :=
    (v = s /\ dd_weight x = 0 /\ dd_parent x = INVALID_NODE c) \/
    (v <> s /\ exists y w, dl d (dd_parent x) = Some y /\ In (mkEdge (dd_parent x) v w) E /\
       dd_weight y + w <= dd_weight x).

  (** The state of the search from [s]; [o] is the node being processed, if any. *)
  Record dj_inv (s : N) (o : option N) (d : Dijkstra) : Prop := mk_dj_inv {
    di_base : dj_base n d;
    di_heap : hinv (dj_heap d);
    di_s : exists x, dl d s = Some x /\ dd_weight x = 0;
    di_max : forall v x, dl d v = Some x -> dd_weight x < umax c;
    di_just : forall v x, dl d v = Some x -> just s d v x;
    di_items : forall h, In h (dj_heap d) ->
      exists x, dl d (hi_node h) = Some x /\ dd_weight x <= hi_weight h;
    di_mono : forall v x h, dl d v = Some x -> dd_settled x = true -> In h (dj_heap d) ->
      dd_weight x <= hi_weight h;
    di_cover : forall v x, dl d v = Some x -> dd_settled x = false -> Some v <> o ->
      In (mkHeapItem (dd_weight x) v) (dj_heap d);
    di_done : forall v x u w, dl d v = Some x -> dd_settled x = true -> In (mkEdge v u w) E ->
      dd_weight x + w < umax c -> exists y, dl d u = Some y /\ dd_weight y <= dd_weight x + w
  }.

  Lemma edge_facts u v w : In (mkEdge u v w) E -> u < n /\ v < n /\ u <> v /\ 1 <= w <= M.
  Proof.
    intros HI. apply HE in HI as (k & Hk). pose proof (wf_arc _ _ W _ _ _ _ Hk).
    pose proof (outs_src _ _ _ _ _ _ W Hk). specialize (HB _ _ _ _ Hk). lia.
  Qed.

  (** Following the parents gives a simple walk that is at most as heavy as the label. *)
  Lemma chain_aux s o d : dj_inv s o d -> forall k v x, dl d v = Some x -> (N.to_nat (dd_weight x) < k)%nat ->
    exists ns W', walk E s v (s :: ns) W' /\ NoDup (s :: ns) /\
      (forall u, In u (s :: ns) -> u < n /\ exists y, dl d u = Some y /\ dd_weight y <= dd_weight x) /\
      W' <= dd_weight x /\ W' <= lenN ns * M /\
      (forall fuel path, (List.length ns < fuel)%nat -> dj_parents fuel c d path v = Ok (path ++ rev ns)).
  Proof.
    intros I. induction k as [|k IH]; intros v x Hx Hk; [lia|].
    destruct (dl_idx n d v x (di_base _ _ _ I) Hx) as (Hvn & Hidx).
    destruct (di_just _ _ _ I v x Hx) as [(-> & Hw & Hp)|(Hvs & y & w & Hy & HI & Hle)].
    - exists [], 0. split; [constructor|]. split; [repeat constructor; auto|].
      split. { intros u [<-|[]]. split; auto. exists x; split; auto; lia. }
      split; [lia|]. split; [lia|]. intros [|fuel] path Hf; [simpl in Hf; lia|].
      cbn [dj_parents]. rewrite Hidx. cbn [bind]. rewrite Hp, N.eqb_refl. simpl. rewrite app_nil_r. auto.
    - destruct (edge_facts _ _ _ HI) as (Hpn & _ & Hne & Hw1 & HwM).
      destruct (IH _ y Hy) as (ns & W' & HW & HND & Hall & H1 & H2 & Hpar); [lia|].
      exists (ns ++ [v]), (W' + w). split; [|split; [|split; [|split; [|split]]]].
      + change (s :: ns ++ [v]) with ((s :: ns) ++ tl [dd_parent x; v]).
        eapply AnswerFacts.walk_app; eauto. apply walk_one; auto.
      + change (s :: ns ++ [v]) with ((s :: ns) ++ [v]).
        eapply Permutation_NoDup; [apply Permutation_cons_append|]. constructor; auto.
        intros HI'. destruct (Hall _ HI') as (_ & z & Hz & Hzw).
        rewrite Hx in Hz. injection Hz as <-. lia.
      + intros u. change (s :: ns ++ [v]) with ((s :: ns) ++ [v]). rewrite in_app_iff.
        intros [Hu|[<-|[]]].
        * destruct (Hall _ Hu) as (Hun & z & Hz & Hzw). split; auto. exists z; split; auto; lia.
        * split; auto. exists x; split; auto; lia.
      + lia.
      + rewrite lenN_app. change (lenN [v]) with 1. lia.
      + intros [|fuel] path Hf; [lia|]. cbn [dj_parents]. rewrite Hidx. cbn [bind].
        unfold INVALID_NODE. destruct (N.eqb_spec (dd_parent x) (umax c)) as [|_]; [lia|].
        rewrite Hpar. 2:{ rewrite app_length in Hf; simpl in Hf; lia. }
        rewrite rev_app_distr. simpl. rewrite <- app_assoc. auto.
  Qed.
  Lemma chain s o d v x : dj_inv s o d -> dl d v = Some x ->
    exists ns W', walk E s v (s :: ns) W' /\ NoDup (s :: ns) /\ lenN ns + 1 <= n /\
      W' <= dd_weight x /\ W' <= lenN ns * M /\
      (forall fuel path, (List.length ns < fuel)%nat -> dj_parents fuel c d path v = Ok (path ++ rev ns)).
  Proof.
    intros I Hx. destruct (chain_aux s o d I (S (N.to_nat (dd_weight x))) v x Hx) as
      (ns & W' & H1 & H2 & H3 & H4 & H5 & H6); [lia|].
    exists ns, W'. repeat (split; [solve [auto]|]). split; [|auto].
    rewrite <- lenN_cons with (x := s). apply NoDup_bounded_len; auto. intros u Hu. apply H3; auto.
  Qed.

  (** A walk leads to a settled node, or some item in the heap is at most as heavy. *)
  Lemma frontier s d : dj_inv s None d -> forall v W', path (edge_rel E) s v W' -> W' < umax c ->
    (exists x, dl d v = Some x /\ dd_settled x = true /\ dd_weight x <= W') \/
    (exists h, In h (dj_heap d) /\ hi_weight h <= W').
  Proof.
    intros I.
    assert (forall v y B, dl d v = Some y -> dd_weight y <= B ->
      (exists x, dl d v = Some x /\ dd_settled x = true /\ dd_weight x <= B) \/
      (exists h, In h (dj_heap d) /\ hi_weight h <= B)) as Hlab.
    { intros v y B Hy HyB. destruct (dd_settled y) eqn:Es; [left; eauto|]. right.
      eexists; split; [apply (di_cover _ _ _ I v y); auto; discriminate|auto]. }
    intros v W' HP. remember s as s0 eqn:Es in HP.
    assert (forall k v W', path (edge_rel E) s v W' -> (N.to_nat W' < k)%nat -> W' < umax c ->
      (exists x, dl d v = Some x /\ dd_settled x = true /\ dd_weight x <= W') \/
      (exists h, In h (dj_heap d) /\ hi_weight h <= W')) as G.
    { clear HP v W'. induction k as [|k IH]; intros v W' HP Hk Hlt; [lia|].
      destruct (path_last _ _ _ _ HP) as [(<- & ->)|(u & w & W1 & HP1 & He & ->)].
      - destruct (di_s _ _ _ I) as (x & Hx & Hx0). apply (Hlab _ x); auto. lia.
      - destruct (edge_facts _ _ _ He) as (_ & _ & _ & Hw & _).
        destruct (IH u W1 HP1) as [(x & Hx & Hxs & Hxw)|(h & Hh & Hhw)]; [lia|lia| |].
        + destruct (di_done _ _ _ I u x v w Hx Hxs He) as (y & Hy & Hyw); [lia|].
          apply (Hlab _ y); auto. lia.
        + right. exists h; split; auto; lia. }
    subst s0. eauto.
  Qed.

  Lemma relax_ok s curr d1 :
    dj_inv s (Some (hi_node curr)) d1 ->
    (exists x, dl d1 (hi_node curr) = Some x /\ dd_settled x = false /\ dd_weight x = hi_weight curr) ->
    (umax c < hi_weight curr + M -> allow) ->
    (forall h, In h (dj_heap d1) -> hi_weight curr <= hi_weight h) ->
    (forall v x, dl d1 v = Some x -> dd_settled x = true -> dd_weight x <= hi_weight curr) ->
    wp (lim allow) (foldM (dj_relax c H curr) (outs g (hi_node curr)) d1)
      (fun d2 => dj_inv s (Some (hi_node curr)) d2 /\
         (forall v, dset d2 v = dset d1 v) /\
         (forall h, In h (dj_heap d2) -> hi_weight curr <= hi_weight h) /\
         (exists x, dl d2 (hi_node curr) = Some x /\ dd_settled x = false /\
            dd_weight x = hi_weight curr) /\
         (forall u w, In (mkEdge (hi_node curr) u w) E -> hi_weight curr + w < umax c ->
            exists y, dl d2 u = Some y /\ dd_weight y <= hi_weight curr + w) /\
         (List.length (dj_heap d2) <= List.length (dj_heap d1) + List.length (outs g (hi_node curr)))%nat).
  Proof.
    intros I1 Hc1 Hcov Hmin1 Hset1. set (v0 := hi_node curr) in *. set (w0 := hi_weight curr) in *.
    destruct HL as (_ & Hpush & _).
    eapply wp_mono.
    - apply wp_foldM with (I := fun pre d2 => dj_inv s (Some v0) d2 /\
         (forall v, dset d2 v = dset d1 v) /\
         (forall h, In h (dj_heap d2) -> w0 <= hi_weight h) /\
         (exists x, dl d2 v0 = Some x /\ dd_settled x = false /\ dd_weight x = w0) /\
         (forall v x, dl d2 v = Some x -> dd_settled x = true -> dd_weight x <= w0) /\
         (forall a, In a pre -> w0 + a_weight a < umax c ->
            exists y, dl d2 (a_adj a) = Some y /\ dd_weight y <= w0 + a_weight a) /\
         (List.length (dj_heap d2) <= List.length (dj_heap d1) + List.length pre)%nat).
      + split; auto. split; auto. split; auto. split; auto. split; auto. split; [intros a []|simpl; lia].
      + intros pre a post d2 El (I & Hst & Hge & Hc & Hse & Hpre & Hlen).
        assert (In a (outs g v0)) as Hin.
        { rewrite El. apply in_app_iff; right; left; auto. }
        destruct a as [v w ctr]. pose proof (wf_arc _ _ W _ _ _ _ Hin) as (Hv & Hne & Hw).
        assert (In (mkEdge v0 v w) E) as HeE by (apply HE; exists ctr; auto).
        unfold dj_relax. cbn [a_weight a_adj]. apply wp_bind, wp_uadd; auto.
        { intros Ho. apply Hcov. specialize (HB _ _ _ _ Hin). fold w0 in Ho. lia. }
        fold w0 v0. intros Hsum. rewrite (dj_get_weight_ok c n _ _ (di_base _ _ _ I) Hv). cbn [bind].
        destruct (N.ltb_spec (w0 + w)
                    match dl d2 v with Some x => dd_weight x | None => umax c end) as [Hlt|Hge'].
        2:{ simpl. split; auto. split; auto. split; auto. split; auto. split; auto. split.
            2:{ rewrite app_length; simpl; lia. }
            intros a Ha Hlt. apply in_app_iff in Ha as [Ha|[<-|[]]]; [auto|]. simpl in *.
            destruct (dl d2 v) as [y|]; [eauto|lia]. }
        assert (w0 + w < umax c) as Hltm.
        { destruct (dl d2 v) as [y|] eqn:Ey; [|lia]. apply (di_max _ _ _ I) in Ey. lia. }
        assert (dset d2 v = false) as Hvs.
        { unfold dset. destruct (dl d2 v) as [x|] eqn:Ed; auto.
          destruct (dd_settled x) eqn:Es; auto. specialize (Hse _ _ Ed Es). lia. }
        destruct (dj_update_node_ok n d2 v (w0 + w) v0 (di_base _ _ _ I) Hv)
          as (d3 & -> & Hb3 & Hh3 & Hl3). cbn [bind].
        destruct (Hpush (dj_heap d3) (mkHeapItem (w0 + w) v)) as (Hinv' & Hperm).
        { rewrite Hh3. apply (di_heap _ _ _ I). }
        set (d4 := dj_set_heap d3 _).
        assert (forall h, In h (dj_heap d4) <-> h = mkHeapItem (w0 + w) v \/ In h (dj_heap d2)) as HinP.
        { intros h. unfold d4; simpl. rewrite <- Hh3. split; intros Hx.
          - eapply Permutation_in in Hx; [|exact Hperm]. destruct Hx; auto.
          - eapply Permutation_in; [apply Permutation_sym, Hperm|]. destruct Hx as [->|]; [left|right]; auto. }
        assert (forall u, dl d4 u = if u =? v then Some (mkDData false (w0 + w) v0) else dl d2 u) as Hl4.
        { intros u. change (dl d4 u) with (dl d3 u). apply Hl3. }
        assert (forall u x, dl d2 u = Some x -> exists y, dl d4 u = Some y /\ dd_weight y <= dd_weight x) as Hdec.
        { intros u x Hx. rewrite Hl4. destruct (N.eqb_spec u v) as [->|]; [|exists x; split; auto; lia].
          eexists; split; [reflexivity|]. simpl. rewrite Hx in Hlt. lia. }
        destruct Hc as (xc & Hxc & Hxcs & Hxcw).
        assert (dl d4 v0 = Some xc) as Hc4.
        { rewrite Hl4. destruct (N.eqb_spec v0 v); [congruence|auto]. }
        assert (v <> s) as Hvns.
        { intros ->. destruct (di_s _ _ _ I) as (x & Hx & Hx0). rewrite Hx in Hlt. lia. }
        split; [|split; [|split; [|split; [|split; [|split]]]]].
        * constructor; auto.
          -- apply dj_base_set_heap; auto.
          -- destruct (di_s _ _ _ I) as (x & Hx & Hx0). exists x. split; auto. rewrite Hl4.
             destruct (N.eqb_spec s v); [congruence|auto].
          -- intros u x. rewrite Hl4. destruct (N.eqb_spec u v) as [->|Hu].
             ++ intros [= <-]. auto.
             ++ apply (di_max _ _ _ I).
          -- intros u x. rewrite Hl4. destruct (N.eqb_spec u v) as [->|Hu].
             ++ intros [= <-]. right. split; auto. simpl. exists xc, w. repeat split; auto. lia.
             ++ intros Hx. destruct (di_just _ _ _ I u x Hx) as [J|(Hus & y & w' & Hy & Hin' & Hle)]; [left; auto|].
                right. split; auto. destruct (Hdec _ _ Hy) as (y' & Hy' & Hyw). exists y', w'.
                repeat split; auto. lia.
          -- intros h Hh. apply HinP in Hh as [->|Hh].
             ++ simpl. rewrite Hl4, N.eqb_refl. eexists; split; [reflexivity|simpl; lia].
             ++ destruct (di_items _ _ _ I h Hh) as (x & Hx & Hxw).
                destruct (Hdec _ _ Hx) as (y & Hy & Hyw). exists y; split; auto; lia.
          -- intros u x h. rewrite Hl4. destruct (N.eqb_spec u v) as [->|Hu].
             ++ intros [= <-]; simpl; discriminate.
             ++ intros Hx Hs Hh. apply HinP in Hh as [->|Hh]; simpl.
                ** specialize (Hse _ _ Hx Hs). lia.
                ** eapply (di_mono _ _ _ I); eauto.
          -- intros u x. rewrite Hl4. destruct (N.eqb_spec u v) as [->|Hu].
             ++ intros [= <-] _ _. apply HinP. left; auto.
             ++ intros Hx Hs Hne'. apply HinP. right. apply (di_cover _ _ _ I); auto.
          -- intros u x z w'. rewrite Hl4. destruct (N.eqb_spec u v) as [->|Hu].
             ++ intros [= <-]; simpl; discriminate.
             ++ intros Hx Hs HI' Hl'. destruct (di_done _ _ _ I u x z w' Hx Hs HI' Hl') as (y & Hy & Hyw).
                destruct (Hdec _ _ Hy) as (y' & Hy' & Hyw'). exists y'; split; auto; lia.
        * intros u. rewrite <- Hst. unfold dset at 1. rewrite Hl4.
          destruct (N.eqb_spec u v) as [->|Hu]; auto.
        * intros h Hh. apply HinP in Hh as [->|Hh]; simpl; [lia|auto].
        * exists xc; auto.
        * intros u x. rewrite Hl4. destruct (N.eqb_spec u v) as [->|Hu]; [|apply Hse].
          intros [= <-]; simpl; discriminate.
        * intros a Ha Hla. apply in_app_iff in Ha as [Ha|[<-|[]]].
          -- destruct (Hpre a Ha Hla) as (y & Hy & Hyw). destruct (Hdec _ _ Hy) as (y' & Hy' & Hyw').
             exists y'; split; auto; lia.
          -- simpl. rewrite Hl4, N.eqb_refl. eexists; split; [reflexivity|simpl; lia].
        * unfold d4; simpl. apply Permutation_length in Hperm. simpl in Hperm. rewrite Hperm.
          rewrite Hh3. rewrite app_length; simpl. lia.
    - intros d2 (H1 & H2 & H3 & H4 & _ & H6 & H7). split; auto. split; auto. split; auto. split; auto.
      split; auto. intros u w HI Hlt. apply HE in HI as (k & Hk). apply (H6 _ Hk). auto.
  Qed.

  Definition dmu (d : Dijkstra) : nat :=
    List.length (dj_heap d) + udeg (dset d) (pg_out g) 0.

  Lemma dj_loop_spec s end_ fuel : forall d,
    dj_inv s None d -> (dmu d < fsize fuel)%nat ->
    wp (lim allow) (dj_loop fuel c H d g end_)
      (fun d' => dj_inv s None d' /\ (dj_heap d' = [] \/ dset d' end_ = true)).
  Proof.
    induction fuel as [|rest IH]; [|specialize (IH tt)]; intros d I Hf; cbn [fsize] in Hf; [lia|]. cbn [dj_loop].
    destruct (dj_heap d) as [|h0 hs] eqn:Eh.
    { pose proof (di_heap _ _ _ I) as Hh. rewrite Eh in Hh.
      destruct HL as (_ & _ & Hnone & _). rewrite (proj2 (Hnone [] Hh) eq_refl). simpl. auto. }
    rewrite <- Eh in *.
    destruct (heap_pop_spec c H hinv HL Hdbg n Hn (dj_heap d)) as (curr & h' & -> & _ & Hh' & Hperm & Hmin).
    { apply (di_heap _ _ _ I). } { congruence. }
    assert (In curr (dj_heap d)) as Hcin.
    { eapply Permutation_in; [apply Permutation_sym, Hperm|left; auto]. }
    assert (forall h, In h h' -> In h (dj_heap d)) as Hsub.
    { intros h Hh. eapply Permutation_in; [apply Permutation_sym, Hperm|right; auto]. }
    destruct (di_items _ _ _ I curr Hcin) as (xc & Hxc & Hxcw).
    destruct (dl_idx n d _ _ (di_base _ _ _ I) Hxc) as (Hcn & _).
    assert (List.length (dj_heap d) = S (List.length h')) as Elen.
    { apply Permutation_length in Hperm. simpl in Hperm. auto. }
    set (d1 := dj_set_heap d h').
    assert (dj_base n d1) as Hb1 by (apply dj_base_set_heap, (di_base _ _ _ I)).
    rewrite (dj_is_settled_ok n _ _ Hb1 Hcn). cbn [bind].
    assert (dset d1 (hi_node curr) = dd_settled xc) as Eset.
    { unfold dset. change (dl d1 (hi_node curr)) with (dl d (hi_node curr)). rewrite Hxc. auto. }
    rewrite Eset.
    assert (forall o, (dd_settled xc = true \/ o = Some (hi_node curr)) -> dj_inv s o d1) as I1.
    { intros o Ho. destruct I. constructor; auto.
      - intros h Hh. apply di_items0. auto.
      - intros v d' h Hd Hs Hh. eapply di_mono0; eauto.
      - intros v x Hx Hs Hvo. change (dl d1 v) with (dl d v) in Hx.
        specialize (di_cover0 v x Hx Hs). assert (Some v <> None) as Hnn by discriminate.
        specialize (di_cover0 Hnn). eapply Permutation_in in di_cover0; [|exact Hperm].
        destruct di_cover0 as [->|]; auto. exfalso. simpl in *.
        destruct Ho as [Ho| ->]; [|congruence]. congruence. }
    destruct (dd_settled xc) eqn:Exs.
    { apply IH; auto. unfold dmu in *. simpl. rewrite (udeg_ext _ (dset d)) by reflexivity. lia. }
    assert (dd_weight xc = hi_weight curr) as Ecw.
    { assert (Some (hi_node curr) <> None) as Hnn by discriminate.
      pose proof (di_cover _ _ _ I _ _ Hxc Exs Hnn) as Hc. apply Hmin in Hc. simpl in Hc. lia. }
    rewrite (outs_idx _ _ _ W Hcn). cbn [bind].
    eapply wp_bind_mono.
    { apply relax_ok with (s := s); auto.
      - exists xc. auto.
      - intros Ho. apply Hov. destruct (chain s None d _ _ I Hxc) as (ns & W' & HW & _ & Hlen & H1 & H2 & _).
        assert (hi_weight curr <= W').
        { destruct (N.ltb_spec W' (umax c)) as [Hlt|Hge].
          - destruct (frontier s d I (hi_node curr) W') as [(x & Hx & Hs & _)|(h & Hh & Hhw)]; auto.
            + eapply walk_path; eauto.
            + congruence.
            + apply Hmin in Hh. lia.
          - apply (di_max _ _ _ I) in Hxc. lia. }
        assert ((lenN ns + 1) * M <= n * M) by (apply N.mul_le_mono_r; auto). lia.
      - intros v x Hx Hs. eapply (di_mono _ _ _ I); eauto. }
    intros d2 (I2 & Hst2 & Hge2 & (x2 & Hx2 & Hx2s & Hx2w) & Hdone2 & Hlen2).
    destruct (dj_settle_ok n d2 (hi_node curr) (di_base _ _ _ I2) Hcn)
      as (d3 & -> & Hb3 & Hh3 & Hl3). cbn [bind].
    rewrite Hx2 in Hl3. cbn [option_map] in Hl3.
    assert (forall v x, dl d2 v = Some x -> exists y, dl d3 v = Some y /\ dd_weight y = dd_weight x) as Hsame.
    { intros v x Hx. rewrite Hl3. destruct (N.eqb_spec v (hi_node curr)) as [->|]; [|eauto].
      eexists; split; [reflexivity|]. simpl. congruence. }
    assert (dj_inv s None d3) as I3.
    { constructor; auto.
      - rewrite Hh3; apply (di_heap _ _ _ I2).
      - destruct (di_s _ _ _ I2) as (x & Hx & Hx0). destruct (Hsame _ _ Hx) as (y & Hy & Hyw).
        exists y; split; auto; lia.
      - intros v x. rewrite Hl3. destruct (N.eqb_spec v (hi_node curr)) as [->|Hv].
        + intros [= <-]. simpl. apply (di_max _ _ _ I2 _ _ Hx2).
        + apply (di_max _ _ _ I2).
      - assert (forall v x, dl d2 v = Some x -> forall x', dd_weight x' = dd_weight x ->
          dd_parent x' = dd_parent x -> just s d3 v x') as G.
        { intros v x Hx x' E1 E2.
          destruct (di_just _ _ _ I2 v x Hx) as [(J1 & J2 & J3)|(Hus & y & w' & Hy & Hin' & Hle)].
          - left. split; auto. split; congruence.
          - right. split; auto. destruct (Hsame _ _ Hy) as (y' & Hy' & Hyw). exists y', w'.
            rewrite E2. repeat split; auto. lia. }
        intros v x. rewrite Hl3. destruct (N.eqb_spec v (hi_node curr)) as [->|Hv].
        + intros [= <-]. eapply G; eauto.
        + intros Hx. eapply G; eauto.
      - intros h Hh. rewrite Hh3 in Hh. destruct (di_items _ _ _ I2 h Hh) as (x & Hx & Hxw).
        destruct (Hsame _ _ Hx) as (y & Hy & Hyw). exists y; split; auto; lia.
      - intros v x h. rewrite Hl3, Hh3. destruct (N.eqb_spec v (hi_node curr)) as [->|Hv].
        + intros [= <-] _ Hh. simpl. specialize (Hge2 h Hh). lia.
        + apply (di_mono _ _ _ I2).
      - intros v x. rewrite Hl3, Hh3. destruct (N.eqb_spec v (hi_node curr)) as [->|Hv].
        + intros [= <-]; discriminate.
        + intros Hx Hs _. apply (di_cover _ _ _ I2); auto. congruence.
      - intros v x u w. rewrite Hl3. destruct (N.eqb_spec v (hi_node curr)) as [->|Hv].
        + intros [= <-] _ HI Hlt. simpl in *. rewrite Hx2w in *.
          destruct (Hdone2 _ _ HI Hlt) as (y & Hy & Hyw). destruct (Hsame _ _ Hy) as (y' & Hy' & Hyw').
          exists y'; split; auto; lia.
        + intros Hx Hs HI Hlt. destruct (di_done _ _ _ I2 _ _ _ _ Hx Hs HI Hlt) as (y & Hy & Hyw).
          destruct (Hsame _ _ Hy) as (y' & Hy' & Hyw'). exists y'; split; auto; lia. }
    assert (dset d3 (hi_node curr) = true) as Hd3.
    { unfold dset. rewrite Hl3, N.eqb_refl. auto. }
    destruct (N.eqb_spec (hi_node curr) end_) as [<-|Hne]; [simpl; auto|].
    apply IH; auto.
    unfold dmu in *. rewrite Hh3. simpl in Hlen2.
    assert (udeg (dset d3) (pg_out g) 0 + List.length (outs g (hi_node curr)) =
            udeg (dset d) (pg_out g) 0)%nat as Hu.
    { apply udeg_settle with (v := hi_node curr); auto; try lia.
      - intros u Hu. transitivity (dset d2 u); [|rewrite Hst2; auto].
        unfold dset. rewrite Hl3. destruct (N.eqb_spec u (hi_node curr)); [congruence|auto].
      - rewrite N.sub_0_r. apply outs_get. rewrite (wf_lo _ _ W). auto. }
    lia.
  Qed.

  Lemma dj_init_spec s d : dj_base n d -> s < n ->
    exists d', dj_init c H d s = Ok d' /\ dj_inv s None d' /\ (forall v, dset d' v = false) /\
      List.length (dj_heap d') = 1%nat.
  Proof.
    intros [Hn' Hd Hf] Hs. destruct HL as (Hnil & Hpush & _). unfold dj_init.
    destruct (vf_invalidate_ok n _ Hf) as (Hf' & Hvb).
    set (d1 := mkDijkstra _ _ _ _).
    assert (dj_base n d1) as B1 by (constructor; auto).
    destruct (dj_update_node_ok n d1 s 0 (INVALID_NODE c) B1 Hs) as (d2 & -> & B2 & Hh2 & Hl2).
    cbn [bind]. eexists; split; [reflexivity|]. rewrite Hh2. change (dj_heap d1) with (@nil HeapItem).
    destruct (Hpush [] (mkHeapItem 0 s) Hnil) as (Hi & Hp).
    assert (forall u, dl d1 u = None) as Hn1.
    { intros u. unfold dl, view, d1; simpl. rewrite Hvb; auto. }
    set (d3 := dj_set_heap _ _).
    assert (forall u, dl d3 u = if u =? s then Some (mkDData false 0 (INVALID_NODE c)) else None) as Hl3.
    { intros u. change (dl d3 u) with (dl d2 u). rewrite Hl2, Hn1. reflexivity. }
    split; [|split].
    - constructor; auto.
      + apply dj_base_set_heap; auto.
      + eexists; rewrite Hl3, N.eqb_refl; split; [reflexivity|auto].
      + intros v x. rewrite Hl3. destruct (N.eqb_spec v s) as [->|]; [|discriminate].
        intros [= <-]. simpl. lia.
      + intros v x. rewrite Hl3. destruct (N.eqb_spec v s) as [->|]; [|discriminate].
        intros [= <-]. left. auto.
      + intros h Hh. simpl in Hh. eapply Permutation_in in Hh; [|exact Hp].
        destruct Hh as [<-|[]]. simpl. rewrite Hl3, N.eqb_refl. eexists; split; [reflexivity|simpl; lia].
      + intros v x h. rewrite Hl3. destruct (N.eqb_spec v s) as [->|]; [|discriminate].
        intros [= <-]; discriminate.
      + intros v x. rewrite Hl3. destruct (N.eqb_spec v s) as [->|]; [|discriminate].
        intros [= <-] _ _. simpl. eapply Permutation_in; [apply Permutation_sym, Hp|left; auto].
      + intros v x u w. rewrite Hl3. destruct (N.eqb_spec v s) as [->|]; [|discriminate].
        intros [= <-]; discriminate.
    - intros v. unfold dset. rewrite Hl3. destruct (v =? s); auto.
    - simpl. apply Permutation_length in Hp. auto.
  Qed.

  (** What a correct result looks like. *)
  Definition dj_post (s t : N) (r : option ShortestPath) : Prop :=
    match r with
    | Some p => sp_source p = s /\ sp_target p = t /\ sp_weight p < umax c /\
                walk E s t (sp_nodes p) (sp_weight p) /\
                (forall ns W', walk E s t ns W' -> sp_weight p <= W')
    | None => forall ns W', walk E s t ns W' -> umax c <= W'
    end.

  Lemma dj_calc_path_spec d s t : dj_base n d -> s < n -> t < n ->
    wp (lim allow) (dj_calc_path c H d g s t) (fun '(d', r) => dj_base n d' /\ dj_post s t r).
  Proof.
    intros Hb Hs Ht. unfold dj_calc_path.
    destruct (dj_init_spec s d Hb Hs) as (d1 & -> & I1 & Hset1 & Hlen1). cbn [bind].
    unfold dj_do_calc_path, dj_build_path.
    rewrite (wf_n _ _ W), (db_n _ _ (di_base _ _ _ I1)), N.eqb_refl. cbn [assert bind].
    destruct (N.eqb_spec s t) as [<-|Hst].
    { simpl. split; [apply (di_base _ _ _ I1)|]. unfold WEIGHT_ZERO.
      split; [auto|]. split; [auto|]. split; [lia|]. split; [constructor|]. intros; lia. }
    rewrite (dj_is_settled_ok n _ _ (di_base _ _ _ I1) Ht), Hset1. cbn [bind].
    eapply wp_bind_mono.
    { apply (dj_loop_spec s t); auto. unfold dj_fuel, dmu. rewrite fsize_of. unfold lenN. pose proof (udeg_le (dset d1) (pg_out g) 0). lia. }
    intros d2 (I2 & Hend). rewrite (dj_is_settled_ok n _ _ (di_base _ _ _ I2) Ht). cbn [bind].
    destruct (dset d2 t) eqn:Et; cbn [negb].
    - unfold dset in Et. destruct (dl d2 t) as [x|] eqn:Ex; [|discriminate].
      destruct (chain s None d2 t x I2 Ex) as (ns & W' & HW & HND & Hlen & H1 & _ & Hpar).
      rewrite (db_n _ _ (di_base _ _ _ I2)). rewrite Hpar by (unfold lenN in Hlen; lia). cbn [bind].
      destruct (dl_idx n d2 t x (di_base _ _ _ I2) Ex) as (_ & ->). cbn [bind]. simpl.
      split; [apply (di_base _ _ _ I2)|].
      assert (forall ns' W'', walk E s t ns' W'' -> dd_weight x <= W'') as Hmin.
      { intros ns' W'' HW''. destruct (N.ltb_spec W'' (umax c)) as [Hlt|Hge].
        - destruct (frontier s d2 I2 t W'') as [(y & Hy & Hys & Hyw)|(h & Hh & Hhw)]; auto.
          + eapply walk_path; eauto.
          + congruence.
          + pose proof (di_mono _ _ _ I2 _ _ _ Ex Et Hh). lia.
        - pose proof (di_max _ _ _ I2 _ _ Ex). lia. }
      assert (dd_weight x = W') as Ew by (apply Hmin in HW; lia).
      split; auto. split; auto. split; [apply (di_max _ _ _ I2 _ _ Ex)|].
      split; auto. rewrite rev_app_distr, rev_involutive. simpl. rewrite Ew. auto.
    - simpl. split; [apply (di_base _ _ _ I2)|]. intros ns W' HW.
      destruct (N.ltb_spec W' (umax c)) as [Hlt|]; auto.
      destruct Hend as [Hnil|Ht']; [|congruence].
      destruct (frontier s d2 I2 t W') as [(y & Hy & Hys & Hyw)|(h & Hh & Hhw)]; auto.
      + eapply walk_path; eauto.
      + unfold dset in Et. rewrite Hy in Et. congruence.
      + rewrite Hnil in Hh. destruct Hh.
  Qed.
End Dij.
