(** * FillProps: stored edges as connections over earlier nodes; the influence of the search limit *)
From Verif Require Import FillFacts PrepareProps.
From Coq Require Import Permutation Wf_nat.
Open Scope N_scope.

Lemma through_mono es (P Q : N -> Prop) u v w : (forall y, P y -> Q y) -> through es P u v w -> through es Q u v w.
Proof. intros HPQ. induction 1; [apply through_edge|eapply through_node]; eauto. Qed.
Lemma through_app es (P : N -> Prop) u x v w1 w2 : P x -> through es P u x w1 -> through es P x v w2 -> through es P u v (w1 + w2).
Proof.
  intros Hx H1 H2. induction H1 as [u x w He|u y x w W He Hy H1 IH].
  - eapply through_node; eauto.
  - rewrite <- N.add_assoc. eapply through_node; eauto.
Qed.
Lemma through_split es x l u v W : through es (fun y => In y (x :: l)) u v W ->
  through es (fun y => In y l) u v W \/
  exists W1 W2, through es (fun y => In y l) u x W1 /\ through es (fun y => In y l) x v W2 /\ W1 + W2 <= W.
Proof.
  induction 1 as [u v w He|u y v w W He Hy HW IH].
  - left. apply through_edge. auto.
  - destruct Hy as [<-|Hy].
    + right. destruct IH as [IH|(W1 & W2 & _ & IH2 & Hle)].
      * exists w, W. split; [apply through_edge; auto|]. split; auto. lia.
      * exists w, W2. split; [apply through_edge; auto|]. split; auto. lia.
    + destruct IH as [IH|(W1 & W2 & IH1 & IH2 & Hle)].
      * left. eapply through_node; eauto.
      * right. exists (w + W1), W2. split; [eapply through_node; eauto|]. split; auto. lia.
Qed.

Section Inv.
  Variables (c : cfg) (es : list Edge).

  (** after the contraction of the nodes [l] *)
  Definition low (l : list N) (g : PrepGraph) : Prop :=
    (forall u v w, arel g u v w -> ~ In u l /\ ~ In v l /\ through es (fun y => In y l) u v w) /\
    (forall u v w, arel g u v w -> In (mkEdge u v w) es \/ w < umax c) /\
    (forall u v w, In (mkEdge u v w) es -> ~ In u l -> ~ In v l -> exists w', arel g u v w' /\ w' <= w).
  Definition lowest (l : list N) (g : PrepGraph) : Prop :=
    forall u v w, through es (fun y => In y l) u v w -> w < umax c -> u <> v -> ~ In u l -> ~ In v l ->
      exists w', arel g u v w' /\ w' <= w.

  Lemma low_step l g x g' : low l g -> step_any c g x g' -> low (x :: l) g'.
  Proof.
    intros (L1 & L2 & L3) (S1 & S2). split; [|split].
    - intros u v w A. destruct (S1 _ _ _ A) as (Hu & Hv & [A0|(Hlt & w1 & w2 & A1 & A2 & ->)]).
      + destruct (L1 _ _ _ A0) as (B1 & B2 & B3). split; [simpl; intuition|]. split; [simpl; intuition|].
        eapply through_mono; [|exact B3]. simpl; auto.
      + destruct (L1 _ _ _ A1) as (B1 & B2 & B3). destruct (L1 _ _ _ A2) as (B4 & B5 & B6).
        split; [simpl; intuition|]. split; [simpl; intuition|]. apply (through_app _ _ u x v); [simpl; auto| |];
          (eapply through_mono; [|eassumption]; simpl; auto).
    - intros u v w A. destruct (S1 _ _ _ A) as (Hu & Hv & [A0|(Hlt & _)]); eauto.
    - simpl. intros u v w He Hu Hv. destruct (L3 u v w He) as (w1 & A1 & Hw1); [tauto|tauto|].
      destruct (S2 _ _ _ A1) as (w2 & A2 & Hw2); [intuition|intuition|]. exists w2. split; auto. lia.
  Qed.
  Lemma lowest_step l g x g' : lowest l g -> step_zero c g x g' -> ~ In x l -> lowest (x :: l) g'.
  Proof.
    intros L ((_ & S2) & S3) Hx u v w Ht Hlt Hne Hu Hv. simpl in Hu, Hv.
    destruct (through_split _ _ _ _ _ _ Ht) as [H0|(W1 & W2 & H1 & H2 & Hle)].
    - destruct (L _ _ _ H0) as (w1 & A1 & Hw1); [auto|auto|tauto|tauto|].
      destruct (S2 _ _ _ A1) as (w2 & A2 & Hw2); [intuition|intuition|]. exists w2. split; auto. lia.
    - destruct (L _ _ _ H1) as (w1 & A1 & Hw1); [lia|intuition|tauto|tauto|].
      destruct (L _ _ _ H2) as (w2 & A2 & Hw2); [lia|intuition|tauto|tauto|].
      destruct (S3 _ _ _ _ A1 A2) as (w3 & A3 & Hw3); [auto|lia|]. exists w3. split; auto. lia.
  Qed.

  Lemma steps_inv (R : PrepGraph -> N -> PrepGraph -> Prop) (I : list N -> PrepGraph -> Prop) :
    (forall l g x g', I l g -> R g x g' -> ~ In x l -> I (x :: l) g') ->
    forall T l g, steps R g T -> I l g -> NoDup (l ++ map fst T) ->
    forall pre x gx post, T = pre ++ (x, gx) :: post -> I (rev (map fst pre) ++ l) gx.
  Proof.
    intros HI. induction T as [|[y g1] T IH]; intros l g HS H0 Hd pre x gx post ET; [destruct pre; discriminate|].
    inversion HS as [|? ? g' ? HR HS']; subst. destruct pre as [|[z gz] pre]; simpl in ET; injection ET as -> -> ET.
    - auto.
    - simpl. rewrite <- app_assoc. simpl. apply (IH (z :: l) g' HS') with (x := x) (post := post); auto.
      + eapply HI; eauto. simpl in Hd. apply NoDup_remove_2 in Hd. intros X. apply Hd. apply in_or_app. auto.
      + simpl in *. apply NoDup_cons.
        * apply NoDup_remove_2 in Hd. auto.
        * apply NoDup_remove_1 in Hd. auto.
  Qed.
End Inv.

Lemma earlier_iff (order pre post : list N) x y : NoDup order -> order = pre ++ x :: post -> earlier order y x <-> In y pre.
Proof.
  intros Hd ->. split.
  - intros (i & j & Hij & Hi & Hj).
    assert (j = lenN pre) as ->.
    { rewrite NoDup_nth_error in Hd.
      assert (N.to_nat j = N.to_nat (lenN pre)) as X; [|lia]. apply Hd.
      - apply getN_Some_lt in Hj. unfold lenN in Hj. lia.
      - rewrite <- !getN_nth, Hj. symmetry. rewrite getN_app2 by lia. rewrite N.sub_diag. auto. }
    rewrite getN_app1 in Hi by auto. eapply getN_In; eauto.
  - intros Hy. destruct (In_getN _ _ Hy) as (i & Hi & Ei). exists i, (lenN pre). split; auto. split.
    + rewrite getN_app1; auto.
    + rewrite getN_app2 by lia. rewrite N.sub_diag. auto.
Qed.

Lemma limit_by_order c ops ig k fg : debug_build c = true -> frozen_graph c ops ig -> prepared_with_limit c ig k fg ->
  exists order, permutation_of_nodes (ig_num_nodes ig) order /\ get_node_ordering fg = Ok order /\
    prepared_by_order c ig order (mkParamsWithOrder k) fg.
Proof.
  intros Hd Hf [(params & <- & H & hinv & Q & qinv & HL & QL & E)|(order & [k'] & Hp & Hk & Ho)].
  - destruct (C61_exists_proof c H Q qinv ig params fg QL E) as (o & O).
    destruct (C61_again_proof c H Q qinv ig params fg o QL E O) as (P & E'). exists o. split; auto. split; auto.
    exists H, hinv. auto.
  - simpl in Hk. subst k'. exists order. split; auto. split; [|auto]. pose proof (checked_umax c ops ig fg Hd Hf ltac:(right; eauto)). eapply C10_given_proof; eauto.
Qed.

(** the run as a sequence of steps *)
Lemma limit_steps c ops ig k fg (R : N -> PrepGraph -> N -> PrepGraph -> Prop) :
  debug_build c = true -> frozen_graph c ops ig -> prepared_with_limit c ig k fg ->
  (forall H hinv n g ws x g' ws', heap_laws H hinv -> n <= umax c -> pg_wf n g -> ws_base n ws ->
     contract_node c H g ws x k = Ok (g', ws') -> R n g x g' /\ pg_wf n g' /\ ws_base n ws') ->
  exists g0 T, pg_wf (ig_num_nodes ig) g0 /\ (forall p, In p T -> pg_wf (ig_num_nodes ig) (snd p)) /\
    (forall u v w, arel g0 u v w <-> first_overlay ops u v w) /\
    permutation_of_nodes (ig_num_nodes ig) (map fst T) /\ get_node_ordering fg = Ok (map fst T) /\
    stores fg (tov T) /\ steps (R (ig_num_nodes ig)) g0 T.
Proof.
  intros Hd Hf Hk HR. destruct (limit_by_order _ _ _ _ _ Hd Hf Hk) as (order & Hp & HO & H & hinv & HL & E).
  assert (ig_ok c ig) as Hok by (apply (frozen_graph_ok c ops); auto; left; auto).
  destruct (first_arcs c ops ig Hf Hok) as (g0 & Eg & W & Ha). exists g0.
  unfold prepare_with_order_with_params, build_with_order_with_params, ig_get_num_nodes, ig_check_frozen in E.
  rewrite (ig_ok_frozen _ _ Hok) in E. cbn [bind] in E. destruct (negb _); [discriminate|].
  apply bind_Ok in E as (f0 & En & E). apply bind_Ok in E as (f1 & E & X). injection X as <-.
  pose proof (fg_new_cap c Hd ig _ En) as Hn. unfold run_contraction_with_order in E. rewrite Eg in E. cbn [bind] in E.
  apply bind_Ok in E as ([[[f2 g2] w2] k2] & F & E).
  destruct (order_steps c H (ig_num_nodes ig) (R (ig_num_nodes ig)) k) with (4 := F) as (T & HT & Hs & HW & Hh).
  { intros g ws x g' ws' Wg B Ec. eapply HR; eauto. }
  { auto. }
  { apply ws_new_base. }
  destruct (saved_stores c _ _ T _ _ En Hs E HW) as (S1 & S2); [rewrite HT; auto|].
  exists T. split; auto. split; auto. rewrite HT in *. auto.
Qed.

Lemma limit_prepared c ig k fg : prepared_with_limit c ig k fg -> prepared c ig fg.
Proof. intros [(p & _ & X)|(o & p & A & _ & X)]; [left; eauto|right; eauto]. Qed.

(** [stored_edge] in terms of the run: the graph before the contraction of the earlier end *)
Lemma stored_at c ops ig k fg T : debug_build c = true -> frozen_graph c ops ig -> prepared_with_limit c ig k fg ->
  permutation_of_nodes (ig_num_nodes ig) (map fst T) -> stores fg (tov T) ->
  forall u v w, stored_edge fg u v w <->
    exists x pre gx post, T = pre ++ (x, gx) :: post /\ (x = u \/ x = v) /\ arel gx u v w.
Proof.
  intros Hd Hf Hk [Hnd HIn] HS u v w.
  pose proof (prepared_ok c ops ig fg Hd Hf (limit_prepared _ _ _ _ Hk)) as Hok.
  assert (forall d e, In e (fg_edges fg d) -> exists pre gx post, T = pre ++ (fe_base e, gx) :: post) as Hb.
  { intros d e He. destruct (In_getN _ _ He) as (i & _ & Hi). destruct (ok_edge _ _ _ _ Hok _ _ _ Hi) as (Hlt & _).
    apply HIn in Hlt. apply in_map_iff in Hlt as ([x gx] & Hx & Hin). simpl in Hx. subst x.
    apply in_split in Hin as (pre & post & ->). eauto. }
  assert (forall pre x gx post, T = pre ++ (x, gx) :: post -> In (x, arel gx) (tov T)) as Ht.
  { intros pre x gx post ->. unfold tov. apply in_map_iff. exists (x, gx). split; auto. apply in_or_app. simpl; auto. }
  split.
  - intros [Hs|Hs]; unfold stored in Hs; apply in_map_iff in Hs as (e & He & Hin).
    + destruct (Hb Fwd e Hin) as (pre & gx & post & ET). injection He as <- <- <-. exists (fe_base e), pre, gx, post.
      split; auto. split; auto. apply (HS _ _ (Ht _ _ _ _ ET)). unfold stored. apply in_map_iff. eauto.
    + destruct (Hb Bwd e Hin) as (pre & gx & post & ET). injection He as <- <- <-. exists (fe_base e), pre, gx, post.
      split; auto. split; auto. apply (HS _ _ (Ht _ _ _ _ ET)). unfold stored. apply in_map_iff. eauto.
  - intros (x & pre & gx & post & ET & [->| ->] & A).
    + left. apply (HS _ _ (Ht _ _ _ _ ET)). auto.
    + right. apply (HS _ _ (Ht _ _ _ _ ET)). auto.
Qed.

Lemma first_of (T : list (N * PrepGraph)) u v : In u (map fst T) -> In v (map fst T) ->
  exists x pre gx post, T = pre ++ (x, gx) :: post /\ (x = u \/ x = v) /\ ~ In u (map fst pre) /\ ~ In v (map fst pre).
Proof.
  induction T as [|[y gy] T IH]; simpl; [tauto|]. intros Hu Hv.
  destruct (N.eq_dec y u) as [->|Hyu]; [exists u, [], gy, T; simpl; auto|].
  destruct (N.eq_dec y v) as [->|Hyv]; [exists v, [], gy, T; simpl; auto|].
  destruct IH as (x & pre & gx & post & -> & Hx & A & B); [tauto|tauto|].
  exists x, ((y, gy) :: pre), gx, post. split; auto. split; auto. simpl. tauto.
Qed.

Lemma below_iff (T pre post : list (N * PrepGraph)) x gx u v y : NoDup (map fst T) -> T = pre ++ (x, gx) :: post ->
  In u (map fst T) -> In v (map fst T) -> x = u \/ x = v -> ~ In u (map fst pre) -> ~ In v (map fst pre) ->
  In y (rev (map fst pre)) <-> earlier (map fst T) y u /\ earlier (map fst T) y v.
Proof.
  intros Hd ET Hu Hv Hx Hnu Hnv. rewrite <- in_rev.
  assert (map fst T = map fst pre ++ x :: map fst post) as EO by (rewrite ET, map_app; auto).
  assert (forall z, In z (map fst T) -> ~ In z (map fst pre) -> In y (map fst pre) -> earlier (map fst T) y z) as Hz.
  { intros z Hz Hnz Hy. destruct (In_getN _ _ Hy) as (i & Hi & Ei). destruct (In_getN _ _ Hz) as (j & Hj & Ej).
    exists i, j. rewrite EO in *. split; [|split; [rewrite getN_app1; auto|auto]].
    destruct (N.lt_ge_cases j (lenN (map fst pre))) as [Hlt|]; [|lia].
    rewrite getN_app1 in Ej by auto. apply getN_In in Ej. tauto. }
  split.
  - intros Hy. auto.
  - intros (A & B). destruct Hx as [<-|<-]; [apply (earlier_iff _ _ _ _ _ Hd EO) in A|apply (earlier_iff _ _ _ _ _ Hd EO) in B]; auto.
Qed.

Lemma through_iff es (P Q : N -> Prop) u v w : (forall y, P y <-> Q y) -> through es P u v w <-> through es Q u v w.
Proof. intros HPQ. split; apply through_mono; intros y; apply HPQ. Qed.

Lemma low_init c ops g0 : (forall u v w, arel g0 u v w <-> first_overlay ops u v w) -> low c (accepted ops) [] g0.
Proof.
  intros Ha. split; [|split].
  - intros u v w A. split; [auto|]. split; [auto|]. apply through_edge. apply Ha in A. apply A.
  - intros u v w A. left. apply Ha in A. apply A.
  - intros u v w He _ _.
    assert (forall k w, In (mkEdge u v w) (accepted ops) -> N.to_nat w = k -> exists w', arel g0 u v w' /\ w' <= w) as G.
    { induction k as [k IH] using (well_founded_induction lt_wf). intros w0 H0 Hk.
      destruct (List.existsb (fun e => (e_from e =? u) && (e_to e =? v) && (e_weight e <? w0)) (accepted ops)) eqn:EX.
      - apply existsb_exists in EX as ([a b w1] & Hin & Hb). simpl in Hb.
        apply andb_true_iff in Hb as [Hb H3]. apply andb_true_iff in Hb as [H1 H2].
        apply N.eqb_eq in H1, H2. apply N.ltb_lt in H3. subst a b.
        destruct (IH (N.to_nat w1)) with (w := w1) as (w' & A & Hw); auto; [lia|]. exists w'. split; auto. lia.
      - exists w0. split; [|lia]. apply Ha. split; auto. intros w' Hw'.
        destruct (N.le_gt_cases w0 w') as [|Hgt]; auto. exfalso.
        rewrite <- not_true_iff_false in EX. apply EX. apply existsb_exists. exists (mkEdge u v w'). split; auto. simpl.
        rewrite !N.eqb_refl. apply N.ltb_lt in Hgt. rewrite Hgt. auto. }
    eapply G; eauto.
Qed.

Lemma lowest_init c ops g0 : (forall u v w, arel g0 u v w <-> first_overlay ops u v w) -> lowest c (accepted ops) [] g0.
Proof.
  intros Ha u v w Ht _ _ _ _. destruct (low_init c ops g0 Ha) as (_ & _ & L3).
  inversion Ht as [? ? ? He|? ? ? ? ? ? Hy]; subst; [|destruct Hy]. apply (L3 u v w); auto.
Qed.

Lemma C63_low_proof : forall c ops ig k fg order, debug_build c = true -> frozen_graph c ops ig ->
  prepared_with_limit c ig k fg -> get_node_ordering fg = Ok order ->
  forall u v w, stored_edge fg u v w -> low_connection (accepted ops) order u v w.
Proof.
  intros c ops ig k fg order Hd Hf Hk HO u v w Hs.
  destruct (limit_steps c ops ig k fg (fun n => step_any c) Hd Hf Hk) as (g0 & T & _ & _ & Ha & HP & HO' & HS & Hst).
  { intros H hinv n g ws x g' ws' HL Hn W B E. eapply contract_any; eauto. }
  rewrite HO in HO'. injection HO' as ->. pose proof HP as [Hnd HIn].
  pose proof (prepared_ok c ops ig fg Hd Hf (limit_prepared _ _ _ _ Hk)) as Hok.
  assert (In u (map fst T) /\ In v (map fst T)) as (Hu & Hv).
  { rewrite !HIn. destruct Hs as [Hs|Hs]; unfold stored in Hs; apply in_map_iff in Hs as (e & He & Hin);
      destruct (In_getN _ _ Hin) as (i & _ & Hi);
      [destruct (ok_edge _ _ _ _ Hok Fwd _ _ Hi) as (X & Y & _)|destruct (ok_edge _ _ _ _ Hok Bwd _ _ Hi) as (X & Y & _)];
      injection He as <- <- <-; auto. }
  apply (stored_at c ops ig k fg T Hd Hf Hk HP HS) in Hs as (x & pre & gx & post & ET & Hx & A).
  pose proof (steps_inv _ (low c (accepted ops)) (fun l g x g' I R _ => low_step c _ l g x g' I R) T [] g0 Hst (low_init c ops g0 Ha)
    Hnd pre x gx post ET) as (L1 & _). rewrite app_nil_r in L1. destruct (L1 _ _ _ A) as (Hnu & Hnv & Ht).
  unfold low_connection. eapply through_iff; [|exact Ht]. intros y.
  rewrite <- in_rev in Hnu, Hnv. symmetry. eapply below_iff; eauto.
Qed.


Lemma through_ends es (P : N -> Prop) u v w : through es P u v w ->
  (exists y w', In (mkEdge u y w') es) /\ (exists y w', In (mkEdge y v w') es).
Proof.
  induction 1 as [u v w He|u y v w W He Hy Ht IH].
  - split; [exists v, w|exists u, w]; auto.
  - destruct IH as [_ IH]. split; [exists y, w; auto|exact IH].
Qed.

(** everything about two nodes in a graph prepared with limit zero *)
Lemma zero_at c ops ig fg order : debug_build c = true -> frozen_graph c ops ig ->
  prepared_with_limit c ig 0 fg -> get_node_ordering fg = Ok order ->
  forall u v w, u <> v -> low_connection (accepted ops) order u v w -> (In (mkEdge u v w) (accepted ops) \/ w < umax c) ->
  exists w', w' <= w /\ stored_edge fg u v w' /\ forall w'', stored_edge fg u v w'' -> w'' = w'.
Proof.
  intros Hd Hf Hk HO u v w Hne Hlow Hw.
  destruct (limit_steps c ops ig 0 fg (fun n => step_zero c) Hd Hf Hk) as (g0 & T & W0 & HW & Ha & HP & HO' & HS & Hst).
  { intros H hinv n g ws x g' ws' HL Hn W B E. eapply contract_zero; eauto. }
  rewrite HO in HO'. injection HO' as ->. pose proof HP as [Hnd HIn].
  assert (u < ig_num_nodes ig /\ v < ig_num_nodes ig) as (Hu & Hv).
  { destruct (low_init c ops g0 Ha) as (_ & _ & L3). apply through_ends in Hlow as ((y & w1 & H1) & (z & w2 & H2)).
    apply L3 in H1 as (w1' & (k1 & A1) & _); auto. apply L3 in H2 as (w2' & (k2 & A2) & _); auto.
    split; [apply (outs_src _ _ _ _ _ _ W0 A1)|]. apply (wf_arc _ _ W0) in A2. tauto. }
  apply HIn in Hu, Hv. destruct (first_of T u v Hu Hv) as (x & pre & gx & post & ET & Hx & Hnu & Hnv).
  assert (pg_wf (ig_num_nodes ig) gx) as Wx.
  { apply (HW (x, gx)). rewrite ET. apply in_or_app. simpl; auto. }
  assert (low c (accepted ops) (rev (map fst pre)) gx) as HL1.
  { pose proof (steps_inv _ (low c (accepted ops)) (fun l g x g' I (R : step_zero c g x g') _ => low_step c _ l g x g' I (proj1 R))
      T [] g0 Hst (low_init c ops g0 Ha) Hnd pre x gx post ET) as G. rewrite app_nil_r in G. auto. }
  assert (lowest c (accepted ops) (rev (map fst pre)) gx) as HL2.
  { pose proof (steps_inv _ (lowest c (accepted ops)) (lowest_step c _) T [] g0 Hst (lowest_init c ops g0 Ha) Hnd
      pre x gx post ET) as G. rewrite app_nil_r in G. auto. }
  assert (exists w', arel gx u v w' /\ w' <= w) as (w' & A & Hle).
  { destruct Hw as [Hw|Hw].
    - destruct HL1 as (_ & _ & L3). apply L3; auto; rewrite <- in_rev; auto.
    - apply HL2; auto; try (rewrite <- in_rev; auto). eapply through_iff; [|exact Hlow]. intros y. eapply below_iff; eauto. }
  exists w'. split; auto. split.
  - apply (stored_at c ops ig 0 fg T Hd Hf Hk HP HS). exists x, pre, gx, post. auto.
  - intros w'' Hs. apply (stored_at c ops ig 0 fg T Hd Hf Hk HP HS) in Hs as (x' & pre' & gx' & post' & ET' & Hx' & A').
    assert (low c (accepted ops) (rev (map fst pre')) gx') as (L1' & _).
    { pose proof (steps_inv _ (low c (accepted ops)) (fun l g x g' I (R : step_zero c g x g') _ => low_step c _ l g x g' I (proj1 R))
        T [] g0 Hst (low_init c ops g0 Ha) Hnd pre' x' gx' post' ET') as G. rewrite app_nil_r in G. auto. }
    destruct (L1' _ _ _ A') as (Hnu' & Hnv' & _). rewrite <- in_rev in Hnu', Hnv'.
    assert (pre' = pre /\ gx' = gx) as (-> & ->); [|eapply arel_fun; eauto].
    clear - ET ET' Hx Hx' Hnu Hnv Hnu' Hnv'. subst T. revert pre' ET' Hnu' Hnv'. induction pre as [|p pre IH]; intros [|p' pre'] ET' Hnu' Hnv'.
    + simpl in ET'. injection ET' as _ -> _. auto.
    + exfalso. simpl in *. injection ET' as <- _. simpl in *. intuition.
    + exfalso. simpl in *. injection ET' as -> _. simpl in *. intuition.
    + simpl in *. injection ET' as -> ET'. destruct (IH ltac:(tauto) ltac:(tauto) _ ET' ltac:(tauto) ltac:(tauto)) as (-> & ->). auto.
Qed.

Lemma stored_ne c ops ig k fg u v w : debug_build c = true -> frozen_graph c ops ig -> prepared_with_limit c ig k fg ->
  stored_edge fg u v w -> u <> v.
Proof.
  intros Hd Hf Hk Hs. pose proof (prepared_ok c ops ig fg Hd Hf (limit_prepared _ _ _ _ Hk)) as Hok.
  destruct Hs as [Hs|Hs]; unfold stored in Hs; apply in_map_iff in Hs as (e & He & Hin);
    destruct (In_getN _ _ Hin) as (i & _ & Hi);
    [destruct (ok_edge _ _ _ _ Hok Fwd _ _ Hi) as (_ & _ & _ & X)|destruct (ok_edge _ _ _ _ Hok Bwd _ _ Hi) as (_ & _ & _ & X)];
    injection He as <- <- <-; intros Y; rewrite Y in X; lia.
Qed.

Lemma stored_bound c ops ig k fg u v w : debug_build c = true -> frozen_graph c ops ig -> prepared_with_limit c ig k fg ->
  stored_edge fg u v w -> In (mkEdge u v w) (accepted ops) \/ w < umax c.
Proof.
  intros Hd Hf Hk Hs.
  destruct (limit_steps c ops ig k fg (fun n => step_any c) Hd Hf Hk) as (g0 & T & _ & _ & Ha & HP & HO' & HS & Hst).
  { intros H hinv n g ws x g' ws' HL Hn W B E. eapply contract_any; eauto. }
  apply (stored_at c ops ig k fg T Hd Hf Hk HP HS) in Hs as (x & pre & gx & post & ET & Hx & A).
  destruct HP as [Hnd _].
  pose proof (steps_inv _ (low c (accepted ops)) (fun l g x g' I R _ => low_step c _ l g x g' I R) T [] g0 Hst (low_init c ops g0 Ha)
    Hnd pre x gx post ET) as (_ & L2 & _). eauto.
Qed.

Lemma C63_zero_proof : forall c ops ig fg order, debug_build c = true -> frozen_graph c ops ig ->
  prepared_with_limit c ig 0 fg -> get_node_ordering fg = Ok order ->
  forall u v w, u <> v -> w < umax c ->
    (stored_edge fg u v w <->
     low_connection (accepted ops) order u v w /\ forall w', low_connection (accepted ops) order u v w' -> w <= w').
Proof.
  intros c ops ig fg order Hd Hf Hk HO u v w Hne Hw. split.
  - intros Hs. split; [apply (C63_low_proof c ops ig 0 fg order Hd Hf Hk HO); auto|]. intros w' Hl.
    destruct (N.lt_ge_cases w' (umax c)) as [Hlt|]; [|lia].
    destruct (zero_at c ops ig fg order Hd Hf Hk HO u v w' Hne Hl (or_intror Hlt)) as (w1 & Hle & _ & Hu).
    rewrite (Hu w Hs). auto.
  - intros (Hl & Hmin). destruct (zero_at c ops ig fg order Hd Hf Hk HO u v w Hne Hl (or_intror Hw)) as (w1 & Hle & Hs & _).
    pose proof (C63_low_proof c ops ig 0 fg order Hd Hf Hk HO _ _ _ Hs) as Hl1. apply Hmin in Hl1.
    replace w with w1 by lia. auto.
Qed.

Lemma C63_most_edges_proof : forall c ops ig k fg fg0 order, debug_build c = true -> frozen_graph c ops ig ->
  prepared_with_limit c ig k fg -> prepared_with_limit c ig 0 fg0 ->
  get_node_ordering fg = Ok order -> get_node_ordering fg0 = Ok order ->
  forall u v w, stored_edge fg u v w -> exists w', stored_edge fg0 u v w' /\ w' <= w.
Proof.
  intros c ops ig k fg fg0 order Hd Hf Hk Hk0 HO HO0 u v w Hs.
  destruct (zero_at c ops ig fg0 order Hd Hf Hk0 HO0 u v w) as (w' & Hle & Hs' & _).
  - exact (stored_ne c ops ig k fg u v w Hd Hf Hk Hs).
  - exact (C63_low_proof c ops ig k fg order Hd Hf Hk HO u v w Hs).
  - exact (stored_bound c ops ig k fg u v w Hd Hf Hk Hs).
  - exists w'. auto.
Qed.

Lemma C63_most_proof : forall c ops ig k fg fg0 order, debug_build c = true -> frozen_graph c ops ig ->
  prepared_with_limit c ig k fg -> prepared_with_limit c ig 0 fg0 ->
  get_node_ordering fg = Ok order -> get_node_ordering fg0 = Ok order ->
  fg_get_num_out_edges fg <= fg_get_num_out_edges fg0 /\ fg_get_num_in_edges fg <= fg_get_num_in_edges fg0.
Proof.
  intros c ops ig k fg fg0 order Hd Hf Hk Hk0 HO HO0.
  pose proof (limit_prepared _ _ _ _ Hk) as Hp. pose proof (limit_prepared _ _ _ _ Hk0) as Hp0.
  pose proof (prepared_ok c ops ig fg Hd Hf Hp) as Hok.
  destruct (C34_proof c ops ig fg order Hd Hf Hp HO) as (_ & Ff & Fb).
  destruct (C34_proof c ops ig fg0 order Hd Hf Hp0 HO0) as (_ & Zf & Zb).
  destruct (C10_proof c ops ig fg (checked_umax c ops ig fg Hd Hf Hp) Hf Hp) as (order' & HO' & [Hnd _]). rewrite HO in HO'. injection HO' as <-.
  assert (forall a b i j i' j', i < j -> getN order i = Some a -> getN order j = Some b ->
            i' < j' -> getN order i' = Some b -> getN order j' = Some a -> False) as Hasym.
  { intros a b i j i' j' H1 H2 H3 H4 H5 H6. rewrite NoDup_nth_error in Hnd.
    assert (N.to_nat i = N.to_nat j') as X1.
    { apply Hnd; [apply getN_Some_lt in H2; unfold lenN in H2; lia|]. rewrite <- !getN_nth. congruence. }
    assert (N.to_nat j = N.to_nat i') as X2.
    { apply Hnd; [apply getN_Some_lt in H3; unfold lenN in H3; lia|]. rewrite <- !getN_nth. congruence. }
    lia. }
  assert (forall d, incl (map (fun e => (fe_base e, fe_adj e)) (fg_edges fg d)) (map (fun e => (fe_base e, fe_adj e)) (fg_edges fg0 d))) as Hincl.
  { intros d p Hp'. apply in_map_iff in Hp' as (e & <- & He). destruct d.
    - destruct (Ff e He) as (_ & i & j & Hij & Hi & Hj).
      destruct (C63_most_edges_proof c ops ig k fg fg0 order Hd Hf Hk Hk0 HO HO0 (fe_base e) (fe_adj e) (fe_weight e)) as (w' & [Hs|Hs] & _).
      + left. unfold stored. apply in_map_iff. eauto.
      + unfold stored in Hs. apply in_map_iff in Hs as (e' & He' & Hin). injection He' as <- <- _. apply in_map_iff. exists e'. auto.
      + unfold stored in Hs. apply in_map_iff in Hs as (e' & He' & Hin). injection He' as H1 H2 _.
        destruct (Zb e' Hin) as (_ & i' & j' & Hij' & Hi' & Hj'). rewrite H1 in Hi'. rewrite H2 in Hj'. exfalso. exact (Hasym _ _ _ _ _ _ Hij Hi Hj Hij' Hi' Hj').
    - destruct (Fb e He) as (_ & i & j & Hij & Hi & Hj).
      destruct (C63_most_edges_proof c ops ig k fg fg0 order Hd Hf Hk Hk0 HO HO0 (fe_adj e) (fe_base e) (fe_weight e)) as (w' & [Hs|Hs] & _).
      + right. unfold stored. apply in_map_iff. eauto.
      + unfold stored in Hs. apply in_map_iff in Hs as (e' & He' & Hin). injection He' as H1 H2 _.
        destruct (Zf e' Hin) as (_ & i' & j' & Hij' & Hi' & Hj'). rewrite H1 in Hi'. rewrite H2 in Hj'. exfalso. exact (Hasym _ _ _ _ _ _ Hij Hi Hj Hij' Hi' Hj').
      + unfold stored in Hs. apply in_map_iff in Hs as (e' & He' & Hin). injection He' as <- <- _. apply in_map_iff. exists e'. auto. }
  assert (forall d, NoDup (map (fun e => (fe_base e, fe_adj e)) (fg_edges fg d))) as HN.
  { intros d. apply NoDup_getN. intros i j x. rewrite !getN_map.
    destruct (getN (fg_edges fg d) i) as [e1|] eqn:E1; [|discriminate].
    destruct (getN (fg_edges fg d) j) as [e2|] eqn:E2; [|discriminate]. cbn [option_map]. intros H1 H2.
    rewrite <- H2 in H1. injection H1 as Hb Ha. apply (ok_uniq _ _ _ _ Hok d _ _ _ _ E1 E2); auto. }
  split; [pose proof (NoDup_incl_length (HN Fwd) (Hincl Fwd)) as G|pose proof (NoDup_incl_length (HN Bwd) (Hincl Bwd)) as G];
    rewrite !map_length in G; simpl in G; unfold fg_get_num_out_edges, fg_get_num_in_edges, lenN; lia.
Qed.
