(** * BinHeapFacts: the binary heap satisfies the contract of a heap *)
From Verif Require Export BinHeap HeapFacts.
From Coq Require Import Permutation Wf_nat.
Open Scope N_scope.

Definition par (i : N) : N := (i - 1) / 2.
Lemma par_spec i : 0 < i -> i = 2 * par i + 1 \/ i = 2 * par i + 2.
Proof.
  intros. unfold par. pose proof (N.div_mod (i - 1) 2 ltac:(lia)) as A. pose proof (N.mod_lt (i - 1) 2 ltac:(lia)) as B.
  revert A B. generalize ((i - 1) / 2), ((i - 1) mod 2). lia.
Qed.
Lemma par_odd k : par (2 * k + 1) = k.
Proof. pose proof (par_spec (2 * k + 1) ltac:(lia)). lia. Qed.
Lemma par_even k : par (2 * k + 2) = k.
Proof. pose proof (par_spec (2 * k + 2) ltac:(lia)). lia. Qed.

Definition ord (d : list HeapItem) (i j : N) : Prop :=
  forall p a, getN d i = Some p -> getN d j = Some a -> hi_weight p <= hi_weight a.

(** The order of a heap with a hole at [pos]. *)
Definition hole_inv (d : list HeapItem) (pos : N) : Prop :=
  (forall i, 0 < i -> i <> pos -> par i <> pos -> ord d (par i) i) /\
  (forall i, 0 < i -> 0 < pos -> par i = pos -> ord d (par pos) i).
Definition below (d : list HeapItem) (pos : N) (elt : HeapItem) : Prop :=
  forall i a, 0 < i -> par i = pos -> getN d i = Some a -> hi_weight elt <= hi_weight a.

Lemma bh_inv_ord d : bh_inv d <-> forall i, 0 < i -> ord d (par i) i.
Proof. split; intros H i; [intros ? p a ? ?; apply (H i a p); auto|intros a p ? ? ?; apply (H i); auto]. Qed.

Lemma setN_setN {A} (l : list A) i x y : setN (setN l i x) i y = setN l i y.
Proof.
  apply getN_ext. intros j. rewrite !getN_setN, lenN_setN. destruct (N.eqb_spec i j); simpl; auto.
  destruct (i <? lenN l); auto.
Qed.
Lemma setN_comm {A} (l : list A) i j x y : i <> j -> setN (setN l i x) j y = setN (setN l j y) i x.
Proof.
  intros. apply getN_ext. intros k. rewrite !getN_setN, !lenN_setN.
  destruct (N.eqb_spec i k), (N.eqb_spec j k); simpl; auto. lia.
Qed.
Lemma setN_nil {A} i (x : A) : setN [] i x = [].
Proof. reflexivity. Qed.

(** Moving an element into the hole is an exchange. *)
Lemma hole_move {A} (d : list A) i j elt p : i <> j -> i < lenN d -> getN d j = Some p ->
  Permutation (setN (setN d i p) j elt) (setN d i elt).
Proof.
  intros Hij Hi Hj.
  assert (exists q, setN d i elt = q /\ getN q i = Some elt /\ getN q j = Some p /\ setN (setN d i p) j elt = setN (setN q i p) j elt)
    as (q & -> & Hqi & Hqj & ->).
  { eexists. split; [reflexivity|]. rewrite getN_setN_eq, getN_setN_neq, setN_setN by auto. auto. }
  destruct (getN_seg q i (getN_Some_lt _ _ _ Hqi)) as (l1 & x0 & l2 & Eq & El & Ex0).
  rewrite Hqi in Ex0. injection Ex0 as <-.
  assert (Eq' : setN q i p = l1 ++ p :: l2) by (subst q i; apply setN_app2).
  assert (Hj' : getN (setN q i p) j = Some p) by (rewrite getN_setN_neq; auto).
  rewrite Eq' in *.
  assert (Hd : j < lenN l1 \/ lenN l1 < j) by lia.
  destruct Hd as [Hd|Hd].
  - rewrite getN_app1 in Hj' by auto.
    destruct (setN_Permutation l1 j p elt Hj') as (m1 & m2 & -> & _).
    subst q.
    destruct (getN_seg ((m1 ++ p :: m2) ++ p :: l2) j) as (k1 & x & k2 & E & Ek & Ex).
    { rewrite lenN_app. lia. }
    rewrite E. rewrite getN_app1, Hj' in Ex by auto. injection Ex as <-.
    subst j. rewrite setN_app2.
    assert (P : Permutation (p :: k1 ++ k2) (p :: (m1 ++ p :: m2) ++ l2)).
    { rewrite Permutation_middle, <- E. symmetry. apply Permutation_middle. }
    rewrite <- Permutation_middle, <- Permutation_middle. constructor.
    eapply Permutation_cons_inv, P.
  - destruct (getN_seg (l1 ++ p :: l2) j) as (k1 & x & k2 & E & Ek & Ex).
    { eapply getN_Some_lt; eauto. }
    rewrite Hj' in Ex. injection Ex as <-. rewrite E. subst j q. rewrite setN_app2.
    assert (P : Permutation (p :: k1 ++ k2) (p :: l1 ++ l2)).
    { rewrite !Permutation_middle. rewrite <- E. reflexivity. }
    rewrite <- Permutation_middle, <- Permutation_middle. constructor.
    eapply Permutation_cons_inv, P.
Qed.

Lemma bh_sift_up_spec fuel : forall d elt pos,
  pos < lenN d -> (N.to_nat pos < fuel)%nat -> hole_inv d pos -> below d pos elt ->
  bh_inv (bh_sift_up fuel d elt pos) /\ Permutation (bh_sift_up fuel d elt pos) (setN d pos elt).
Proof.
  induction fuel as [|fuel IH]; intros d elt pos Hp Hf [H1 H2] Hb; [lia|].
  cbn [bh_sift_up].
  assert (Hdone : (forall p, 0 < pos -> getN d (par pos) = Some p -> hi_weight p <= hi_weight elt) ->
                  bh_inv (setN d pos elt)).
  { intros Hpar. apply bh_inv_ord. intros i Hi p a. pose proof (par_spec i Hi).
    rewrite !getN_setN. destruct (N.eqb_spec pos (par i)) as [e|e]; destruct (N.eqb_spec pos i) as [e'|e']; simpl;
      destruct (N.ltb_spec pos (lenN d)); try lia; intros Ep Ea.
    - injection Ep as <-. apply (Hb i); auto.
    - injection Ea as <-. subst i. apply Hpar; auto.
    - apply (H1 i Hi ltac:(auto) ltac:(auto)); auto. }
  destruct (N.eqb_spec pos 0) as [->|Hz].
  { split; auto. apply Hdone. intros. lia. }
  assert (Hpos : 0 < pos) by lia. pose proof (par_spec pos Hpos) as Hps. fold (par pos).
  destruct (getN_lt d (par pos)) as [p Ep]; [lia|]. rewrite Ep.
  destruct (heap_item_le elt p) eqn:El.
  { split; auto. apply heap_item_le_spec in El. apply Hdone. intros. congruence. }
  assert (hi_weight elt < hi_weight p).
  { destruct (N.lt_ge_cases (hi_weight elt) (hi_weight p)) as [|Hge]; auto.
    apply heap_item_le_spec in Hge. congruence. }
  destruct (IH (setN d pos p) elt (par pos)) as [Hi HP].
  - rewrite lenN_setN. lia.
  - lia.
  - split.
    + intros i Hi Hn1 Hn2 q a. pose proof (par_spec i Hi).
      rewrite !getN_setN. destruct (N.eqb_spec pos (par i)) as [e|e]; destruct (N.eqb_spec pos i) as [e'|e']; simpl;
        destruct (N.ltb_spec pos (lenN d)); try lia; intros Eq Ea.
      * injection Eq as <-. apply (H2 i Hi Hpos); auto.
      * apply (H1 i Hi ltac:(auto) ltac:(auto)); auto.
    + intros i Hi Hpp He q a. pose proof (par_spec i Hi). pose proof (par_spec (par pos) Hpp).
      rewrite getN_setN_neq by lia. intros Eq.
      assert (hi_weight q <= hi_weight p).
      { apply (H1 (par pos) Hpp ltac:(lia) ltac:(lia)); auto. }
      rewrite getN_setN. destruct (N.eqb_spec pos i) as [e'|e']; simpl.
      * destruct (N.ltb_spec pos (lenN d)); [|lia]. intros Ea. injection Ea as <-. auto.
      * intros Ea. assert (hi_weight p <= hi_weight a); [|lia].
        apply (H1 i Hi ltac:(auto) ltac:(lia)); auto. rewrite He. auto.
  - intros i a Hi He. pose proof (par_spec i Hi).
    rewrite getN_setN. destruct (N.eqb_spec pos i) as [e'|e']; simpl.
    + destruct (N.ltb_spec pos (lenN d)); [|lia]. intros Ea. injection Ea as <-. lia.
    + intros Ea. assert (hi_weight p <= hi_weight a); [|lia].
      apply (H1 i Hi ltac:(auto) ltac:(lia)); auto. rewrite He. auto.
  - split; auto. rewrite HP. apply hole_move; auto. lia.
Qed.

Lemma sink_step d pos child b : pos < lenN d -> hole_inv d pos -> 0 < child -> par child = pos ->
  getN d child = Some b ->
  (forall i a, 0 < i -> par i = pos -> getN d i = Some a -> hi_weight b <= hi_weight a) ->
  hole_inv (setN d pos b) child.
Proof.
  intros Hp [H1 H2] Hc Hpc Eb Hm. pose proof (par_spec child Hc).
  split.
  - intros i Hi Hn1 Hn2 q a. pose proof (par_spec i Hi).
    rewrite !getN_setN. destruct (N.eqb_spec pos (par i)) as [e|e]; destruct (N.eqb_spec pos i) as [e'|e']; simpl;
        destruct (N.ltb_spec pos (lenN d)); try lia; intros Eq Ea.
    + injection Eq as <-. apply (Hm i); auto.
    + injection Ea as <-. subst i. apply (H2 child); auto.
    + apply (H1 i Hi ltac:(auto) ltac:(auto)); auto.
  - intros i Hi _ He q a. pose proof (par_spec i Hi). rewrite Hpc, getN_setN_eq by auto.
    rewrite getN_setN_neq by lia. intros E Ea. injection E as <-.
    apply (H1 i Hi ltac:(lia) ltac:(lia)); auto. rewrite He. auto.
Qed.

Lemma bh_sink_spec fuel : forall d pos d' pos',
  pos < lenN d -> (N.to_nat (lenN d - pos) <= fuel)%nat -> hole_inv d pos ->
  bh_sink fuel d pos = (d', pos') ->
  lenN d' = lenN d /\ pos' < lenN d /\ hole_inv d' pos' /\ lenN d <= 2 * pos' + 1 /\
  (forall elt, Permutation (setN d' pos' elt) (setN d pos elt)).
Proof.
  induction fuel as [|fuel IH]; intros d pos d' pos' Hp Hf Hi E; [lia|].
  cbn [bh_sink] in E.
  destruct (N.leb_spec (2 * pos + 1) (lenN d - 2)).
  - destruct (getN_lt d (2 * pos + 1)) as [a Ea]; [lia|].
    destruct (getN_lt d (2 * pos + 2)) as [b Eb]; [lia|].
    rewrite Ea in E. replace (2 * pos + 1 + 1) with (2 * pos + 2) in E by lia. rewrite Eb in E.
    destruct (heap_item_le a b) eqn:El.
    + apply heap_item_le_spec in El. apply IH in E; rewrite ?lenN_setN in *; try lia.
      * destruct E as (L & P & I & G & PP). split; auto. split; auto. split; auto. split; auto.
        intros elt. rewrite PP. apply hole_move; auto. lia.
      * apply sink_step; auto; try lia. apply par_even.
        intros i y Hi0 Hpi Ey. destruct (par_spec i Hi0) as [e|e]; rewrite Hpi in e; subst i;
          rewrite ?Ea, ?Eb in Ey; injection Ey as <-; lia.
    + assert (hi_weight a < hi_weight b).
      { destruct (N.lt_ge_cases (hi_weight a) (hi_weight b)) as [|Hge]; auto.
        apply heap_item_le_spec in Hge. congruence. }
      apply IH in E; rewrite ?lenN_setN in *; try lia.
      * destruct E as (L & P & I & G & PP). split; auto. split; auto. split; auto. split; auto.
        intros elt. rewrite PP. apply hole_move; auto. lia.
      * apply sink_step; auto; try lia. apply par_odd.
        intros i y Hi0 Hpi Ey. destruct (par_spec i Hi0) as [e|e]; rewrite Hpi in e; subst i;
          rewrite ?Ea, ?Eb in Ey; injection Ey as <-; lia.
  - destruct (N.eqb_spec (2 * pos + 1) (lenN d - 1)).
    + destruct (getN_lt d (2 * pos + 1)) as [a Ea]; [lia|]. rewrite Ea in E. injection E as <- <-.
      rewrite lenN_setN. split; auto. split; [lia|]. split; [|split; [lia|]].
      * apply sink_step; auto; try lia. apply par_odd.
        intros i y Hi0 Hpi Ey. pose proof (getN_Some_lt _ _ _ Ey).
        destruct (par_spec i Hi0) as [ee|ee]; rewrite Hpi in ee; [|lia].
        subst i. rewrite Ea in Ey. injection Ey as <-. lia.
      * intros elt. apply hole_move; auto. lia.
    + injection E as <- <-. split; auto. split; auto. split; auto. split; [lia|]. auto.
Qed.

Lemma bh_inv_min d x : bh_inv d -> getN d 0 = Some x -> forall y, In y d -> hi_weight x <= hi_weight y.
Proof.
  intros Hi Hx y Hy. apply In_nth_error in Hy as [k Hk].
  assert (getN d (N.of_nat k) = Some y) as Hg by (rewrite getN_nth, Nat2N.id; auto).
  clear Hk. revert y Hg. induction k as [k IH] using (well_founded_induction Wf_nat.lt_wf). intros y Hg.
  destruct k as [|k]; [change (N.of_nat 0) with 0 in Hg; rewrite Hx in Hg; injection Hg as <-; lia|].
  pose proof (par_spec (N.of_nat (S k)) ltac:(lia)) as Hpar.
  pose proof (getN_Some_lt _ _ _ Hg).
  destruct (getN_lt d (par (N.of_nat (S k)))) as [p Hp]; [lia|].
  assert (hi_weight p <= hi_weight y).
  { apply (Hi (N.of_nat (S k)) y p); auto. lia. }
  assert (hi_weight x <= hi_weight p); [|lia].
  apply (IH (N.to_nat (par (N.of_nat (S k))))); [lia|]. rewrite N2Nat.id. auto.
Qed.

Lemma bh_push_spec d x : bh_inv d -> bh_inv (bh_push d x) /\ Permutation (bh_push d x) (x :: d).
Proof.
  intros Hi. unfold bh_push.
  destruct (bh_sift_up_spec (S (List.length d)) (d ++ [x]) x (lenN d)) as [A B].
  - rewrite lenN_app. unfold lenN at 3. simpl. lia.
  - unfold lenN. lia.
  - split.
    + intros i H0 Hn1 Hn2 p a Ep Ea. pose proof (par_spec i H0). pose proof (getN_Some_lt _ _ _ Ea) as Hl.
      rewrite lenN_app in Hl. change (lenN [x]) with 1 in Hl.
      rewrite getN_app1 in Ep, Ea by lia. apply (Hi i); auto.
    + intros i H0 Hn1 Hn2 p a Ep Ea. pose proof (par_spec i H0). pose proof (getN_Some_lt _ _ _ Ea) as Hl.
      rewrite lenN_app in Hl. change (lenN [x]) with 1 in Hl. lia.
  - intros i a H0 He Ea. pose proof (par_spec i H0). pose proof (getN_Some_lt _ _ _ Ea) as Hl.
    rewrite lenN_app in Hl. change (lenN [x]) with 1 in Hl. lia.
  - split; auto. rewrite B, setN_app2. symmetry. apply Permutation_cons_append.
Qed.

Lemma bh_pop_spec d x d' : bh_inv d -> bh_pop d = Some (x, d') ->
  bh_inv d' /\ Permutation d (x :: d') /\ getN d 0 = Some x.
Proof.
  intros Hi. unfold bh_pop. destruct (rev d) as [|la front] eqn:E; [discriminate|].
  assert (Ed : d = rev front ++ [la]).
  { rewrite <- (rev_involutive d), E. reflexivity. }
  destruct (rev front) as [|first rest] eqn:Ef.
  - intros Ex. injection Ex as <- <-. subst d. repeat split; auto.
    intros i a p _ Ha. discriminate.
  - destruct (bh_sink _ _ _) as [e pos] eqn:Es. intros Ex. injection Ex as <- <-.
    apply bh_sink_spec in Es.
    + destruct Es as (L & P & I & G & PP).
      destruct (bh_sift_up_spec (S (N.to_nat pos)) e la pos) as [A B]; auto; try lia.
      * intros i a H0 He Ea. pose proof (par_spec i H0). pose proof (getN_Some_lt _ _ _ Ea). lia.
      * split; auto. split; [|subst d; reflexivity].
        rewrite B, PP. subst d. simpl. constructor. rewrite Permutation_app_comm. reflexivity.
    + rewrite lenN_cons. lia.
    + rewrite lenN_cons. unfold lenN. lia.
    + split; [|lia]. intros i H0 _ Hne p a Ep Ea. pose proof (par_spec i H0).
      assert (forall j y, 0 < j -> getN (la :: rest) j = Some y -> getN d j = Some y) as Hs.
      { intros j y Hj Ey. pose proof (getN_Some_lt _ _ _ Ey) as Hl. rewrite lenN_cons in Hl. subst d.
        rewrite getN_app1 by (rewrite lenN_cons; lia).
        rewrite getN_nth in *. replace (N.to_nat j) with (S (N.to_nat (j - 1))) in * by lia. auto. }
      apply (Hi i); auto; apply Hs; auto. fold (par i). lia.
Qed.

Theorem bin_heap_laws : heap_laws bin_heap bh_inv.
Proof.
  split; [intros i a p _ Ha; discriminate|]. split; [apply bh_push_spec|].
  assert (Hnone : forall h, bh_pop h = None <-> h = []).
  { intros h. unfold bh_pop. split.
    - destruct (rev h) as [|la front] eqn:E.
      + intros _. rewrite <- (rev_involutive h), E. reflexivity.
      + destruct (rev front); [discriminate|]. destruct (bh_sink _ _ _). discriminate.
    - intros ->. reflexivity. }
  split; [intros; apply Hnone|]. split; [|].
  - intros h x h' Hi E. destruct (bh_pop_spec _ _ _ Hi E) as (A & B & C). split; auto. split; auto.
    intros y Hy. apply heap_item_le_spec. apply (bh_inv_min h); auto.
  - intros h Hi. simpl. unfold bh_peek. destruct (bh_pop h) as [[x h']|] eqn:E.
    + destruct (bh_pop_spec _ _ _ Hi E) as (A & B & C). exact C.
    + apply Hnone in E. subst. reflexivity.
Qed.
