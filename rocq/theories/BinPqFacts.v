(** * BinPqFacts: the array algorithm satisfies the contract of a priority queue *)
From Verif Require Export BinPq BinHeapFacts.
From Coq Require Import Permutation Wf_nat.
Open Scope N_scope.

Lemma bp_bubble_up_fst fuel : forall d elt pos,
  fst (bp_bubble_up fuel d elt pos) = bh_sift_up fuel d elt pos.
Proof.
  induction fuel as [|fuel IH]; intros; simpl; auto.
  destruct (pos =? 0); auto. destruct (getN d _); auto. destruct (heap_item_le _ _); auto.
Qed.

Lemma hi_le_false a b : heap_item_le a b = false <-> hi_weight a < hi_weight b.
Proof.
  destruct (heap_item_le a b) eqn:E; split; intros H; auto; try discriminate.
  - apply heap_item_le_spec in E. lia.
  - destruct (N.lt_ge_cases (hi_weight a) (hi_weight b)) as [|G]; auto.
    apply heap_item_le_spec in G. congruence.
Qed.

(** [bp_largest] finds the lightest of an entry and its children. *)
Lemma bp_largest_spec d i cur l lv : getN d i = Some cur -> bp_largest d i cur = (l, lv) ->
  getN d l = Some lv /\ (l = i \/ (0 < l /\ par l = i /\ hi_weight lv < hi_weight cur)) /\
  hi_weight lv <= hi_weight cur /\
  (forall j a, 0 < j -> par j = i -> getN d j = Some a -> hi_weight lv <= hi_weight a).
Proof.
  intros Hc. unfold bp_largest.
  assert (Hch : forall j, 0 < j -> par j = i -> j = 2 * i + 1 \/ j = 2 * i + 2).
  { intros j Hj <-. apply par_spec; auto. }
  destruct (getN d (2 * i + 1)) as [a|] eqn:Ea; [destruct (heap_item_le a cur) eqn:La|];
    (destruct (getN d (2 * i + 2)) as [b|] eqn:Eb;
      [match goal with |- context [heap_item_le b ?x] => destruct (heap_item_le b x) eqn:Lb end|]);
    intros E; injection E as <- <-;
    rewrite ?hi_le_false, ?heap_item_le_spec in *;
    (split; [assumption|]);
    (split; [first [left; reflexivity|right; rewrite ?par_odd, ?par_even; split; [lia|split; [reflexivity|lia]]]|]);
    (split; [lia|]);
    intros j y Hj Hp Hy; destruct (Hch j Hj Hp); subst j; rewrite ?Ea, ?Eb in Hy; try discriminate;
    injection Hy as <-; lia.
Qed.

Lemma hole_inv_setN d pos x : hole_inv d pos -> hole_inv (setN d pos x) pos.
Proof.
  intros [H1 H2]. split.
  - intros i Hi N1 N2 p a. rewrite !getN_setN_neq by auto. apply (H1 i); auto.
  - intros i Hi Hp He p a. pose proof (par_spec i Hi). pose proof (par_spec pos Hp).
    rewrite !getN_setN_neq by lia. apply (H2 i); auto.
Qed.

(** An entry that is not lighter than its parent sinks to its place. *)
Lemma bp_heapify_spec fuel : forall d i cur,
  getN d i = Some cur -> (N.to_nat (lenN d - i) <= fuel)%nat -> hole_inv d i ->
  (forall p, 0 < i -> getN d (par i) = Some p -> hi_weight p <= hi_weight cur) ->
  bh_inv (bp_heapify fuel d i) /\ Permutation (bp_heapify fuel d i) d.
Proof.
  induction fuel as [|fuel IH]; intros d i cur Hc Hf Hh Hup; pose proof (getN_Some_lt _ _ _ Hc) as Hlt; [lia|].
  cbn [bp_heapify]. rewrite Hc. destruct (bp_largest d i cur) as [l lv] eqn:El.
  destruct (bp_largest_spec _ _ _ _ _ Hc El) as (Gl & Hl & Hle & Hm).
  destruct (N.eqb_spec l i) as [->|Hne].
  - split; auto. assert (lv = cur) by congruence. subst lv.
    destruct Hh as [H1 H2]. apply bh_inv_ord. intros j Hj p a Ep Ea.
    destruct (N.eq_dec j i) as [->|Hji].
    + rewrite Hc in Ea. injection Ea as <-. apply Hup; auto.
    + destruct (N.eq_dec (par j) i) as [e|e].
      * rewrite e, Hc in Ep. injection Ep as <-. apply (Hm j); auto.
      * apply (H1 j); auto.
  - destruct Hl as [|(Hl0 & Hlp & Hlt2)]; [contradiction|].
    pose proof (par_spec l Hl0). pose proof (getN_Some_lt _ _ _ Gl).
    destruct (IH (setN (setN d i lv) l cur) l cur) as [A B].
    + rewrite getN_setN_eq; auto. rewrite lenN_setN. auto.
    + rewrite !lenN_setN. lia.
    + apply hole_inv_setN. apply sink_step; auto.
    + intros p _. rewrite Hlp, getN_setN_neq, getN_setN_eq by (try lia; auto).
      intros E. injection E as <-. lia.
    + split; auto. rewrite B, hole_move by auto.
      replace (setN d i cur) with d; auto.
      apply getN_ext. intros j. rewrite getN_setN. destruct (N.eqb_spec i j); simpl; auto.
      subst j. destruct (N.ltb_spec i (lenN d)); [auto|lia].
Qed.

Lemma bp_heapify_id d i fuel : bh_inv d -> bp_heapify fuel d i = d.
Proof.
  intros Hi. destruct fuel as [|fuel]; [reflexivity|]. cbn [bp_heapify].
  destruct (getN d i) as [cur|] eqn:Hc; auto. destruct (bp_largest d i cur) as [l lv] eqn:El.
  destruct (bp_largest_spec _ _ _ _ _ Hc El) as (Gl & Hl & Hle & Hm).
  destruct (N.eqb_spec l i) as [->|Hne]; auto.
  destruct Hl as [|(Hl0 & Hlp & Hlt2)]; [contradiction|].
  assert (hi_weight cur <= hi_weight lv); [|lia].
  apply (Hi l lv cur); auto. fold (par l). rewrite Hlp. auto.
Qed.

Lemma bh_inv_hole d pos x : bh_inv d -> hole_inv (setN d pos x) pos.
Proof.
  intros Hi. apply hole_inv_setN. rewrite bh_inv_ord in Hi. split.
  - intros i H0 _ _. apply Hi; auto.
  - intros i H0 Hp He p a Ep Ea. pose proof (par_spec i H0). pose proof (getN_Some_lt _ _ _ Ea).
    destruct (getN_lt d pos) as [q Eq]; [lia|].
    pose proof (Hi pos Hp p q Ep Eq). pose proof (Hi i H0 q a) as B. rewrite He in B. specialize (B Eq Ea). lia.
Qed.

(** After the priority of one entry was changed, the order is restored. *)
Lemma bp_up_heapify_spec d i x : bh_inv d -> i < lenN d ->
  bh_inv (bp_up_heapify (setN d i x) i) /\ Permutation (bp_up_heapify (setN d i x) i) (setN d i x).
Proof.
  intros Hi Hlt. pose proof (bh_inv_hole d i x Hi) as Hh. unfold bp_up_heapify.
  rewrite getN_setN_eq by auto.
  destruct (bp_bubble_up _ _ _ _) as [d' pos] eqn:Eb.
  assert (Hstay : (forall p, 0 < i -> getN (setN d i x) (par i) = Some p -> hi_weight p <= hi_weight x) ->
                  d' = setN d i x -> pos = i ->
                  bh_inv (bp_heapify (List.length d') d' pos) /\ Permutation (bp_heapify (List.length d') d' pos) (setN d i x)).
  { intros Hp -> ->. apply (bp_heapify_spec _ _ _ x); auto.
    - apply getN_setN_eq; auto.
    - unfold lenN. lia. }
  cbn [bp_bubble_up] in Eb. destruct (N.eqb_spec i 0) as [e|Hz].
  { injection Eb as E1 E2. rewrite setN_setN in E1. apply Hstay; auto. intros; lia. }
  assert (Hpos : 0 < i) by lia. pose proof (par_spec i Hpos) as Hps.
  fold (par i) in Eb. destruct (getN_lt d (par i)) as [p Ep]; [lia|].
  assert (Ep' : getN (setN d i x) (par i) = Some p) by (rewrite getN_setN_neq by lia; auto).
  rewrite Ep' in Eb. destruct (heap_item_le x p) eqn:Le.
  { injection Eb as E1 E2. rewrite setN_setN in E1. apply Hstay; auto. intros q _ Eq.
    apply heap_item_le_spec in Le. congruence. }
  apply hi_le_false in Le.
  assert (E : bp_bubble_up (S (N.to_nat i)) (setN d i x) x i = (d', pos)).
  { cbn [bp_bubble_up]. destruct (N.eqb_spec i 0); [lia|]. fold (par i). rewrite Ep'.
    replace (heap_item_le x p) with false; auto. symmetry. apply hi_le_false. auto. }
  destruct (bh_sift_up_spec (S (N.to_nat i)) (setN d i x) x i) as [A B]; auto.
  - rewrite lenN_setN. auto.
  - intros j a Hj He Ea. pose proof (par_spec j Hj). destruct Hh as [_ H2].
    pose proof (H2 j Hj Hpos He p a Ep' Ea). lia.
  - rewrite <- bp_bubble_up_fst, E in A, B. simpl in A, B.
    rewrite bp_heapify_id by auto. split; auto. rewrite B, setN_setN. reflexivity.
Qed.

Lemma bp_position_some d k : forall i, bp_position d k = Some i ->
  exists x, getN d i = Some x /\ hi_node x = k.
Proof.
  induction d as [|x t IH]; simpl; intros i E; [discriminate|].
  destruct (N.eqb_spec (hi_node x) k) as [e|e].
  - injection E as <-. exists x. auto.
  - destruct (bp_position t k) as [j|]; [|discriminate]. injection E as <-.
    destruct (IH j eq_refl) as (y & Ey & Hy). exists y. split; auto.
    destruct (N.eqb_spec (N.succ j) 0); [lia|]. rewrite N.pred_succ. auto.
Qed.
Lemma bp_position_none d k : bp_position d k = None <-> ~ In k (map hi_node d).
Proof.
  induction d as [|x t IH]; simpl; [tauto|].
  destruct (N.eqb_spec (hi_node x) k) as [e|e]; [split; [discriminate|tauto]|].
  destruct (bp_position t k); simpl; [split; [discriminate|]|].
  - intros N. exfalso. apply N. right. destruct (in_dec N.eq_dec k (map hi_node t)); auto.
    assert (Some n = None) by tauto. discriminate.
  - split; auto. intros _. intros [|]; auto. apply IH in H; auto.
Qed.

Lemma map_unentry_entry q : map unentry (map entry q) = q.
Proof. rewrite map_map. erewrite map_ext; [apply map_id|]. intros [k p]. reflexivity. Qed.
Lemma map_entry_unentry d : map entry (map unentry d) = d.
Proof. rewrite map_map. erewrite map_ext; [apply map_id|]. intros [w k]. reflexivity. Qed.
Lemma map_node_entry q : map hi_node (map entry q) = map fst q.
Proof. rewrite map_map. reflexivity. Qed.

Lemma set_priority_out q k p : ~ In k (map fst q) -> set_priority q k p = q.
Proof.
  induction q as [|[k' p'] t IH]; simpl; intros H; auto.
  rewrite IH by tauto. destruct (N.eqb_spec k' k); auto. subst. tauto.
Qed.
Lemma set_priority_at q k p : NoDup (map fst q) -> forall i, bp_position (map entry q) k = Some i ->
  setN (map entry q) i (mkHeapItem p k) = map entry (set_priority q k p).
Proof.
  induction q as [|[k' p'] t IH]; simpl; intros ND i E; [discriminate|].
  inversion ND as [|? ? Hn ND' EE]; subst.
  destruct (N.eqb_spec k' k) as [e|e].
  - injection E as <-. subst k'. rewrite set_priority_out by auto. reflexivity.
  - destruct (bp_position (map entry t) k) as [j|]; [|discriminate]. injection E as <-.
    rewrite <- (IH ND' j eq_refl).
    destruct (N.eqb_spec (N.succ j) 0); [lia|]. rewrite N.pred_succ. reflexivity.
Qed.
Lemma set_priority_fst q k p : map fst (set_priority q k p) = map fst q.
Proof.
  unfold set_priority. rewrite map_map. apply map_ext. intros [k' p']. simpl.
  destruct (N.eqb_spec k' k); subst; auto.
Qed.

Lemma bp_pop_spec d x d' : bh_inv d -> bp_pop d = Some (x, d') ->
  bh_inv d' /\ Permutation d (x :: d') /\ getN d 0 = Some x.
Proof.
  intros Hi. unfold bp_pop. destruct (rev d) as [|la front] eqn:E; [discriminate|].
  assert (Ed : d = rev front ++ [la]).
  { rewrite <- (rev_involutive d), E. reflexivity. }
  destruct (rev front) as [|first rest] eqn:Ef.
  - intros Ex. injection Ex as <- <-. subst d. repeat split; auto.
    intros i a p _ Ha. discriminate.
  - intros Ex. injection Ex as <- <-.
    destruct (bp_heapify_spec (S (List.length rest)) (la :: rest) 0 la) as [A B].
    + reflexivity.
    + rewrite lenN_cons. unfold lenN. lia.
    + split; [|lia]. intros i H0 _ Hne p a Ep Ea. pose proof (par_spec i H0).
      assert (forall j y, 0 < j -> getN (la :: rest) j = Some y -> getN d j = Some y) as Hs.
      { intros j y Hj Ey. pose proof (getN_Some_lt _ _ _ Ey) as Hl. rewrite lenN_cons in Hl. subst d.
        rewrite getN_app1 by (rewrite lenN_cons; lia).
        rewrite getN_nth in *. replace (N.to_nat j) with (S (N.to_nat (j - 1))) in * by lia. auto. }
      apply (Hi i); auto; apply Hs; auto. fold (par i). lia.
    + intros; lia.
    + split; auto. split; [|subst d; reflexivity].
      rewrite B. subst d. simpl. constructor. rewrite Permutation_app_comm. reflexivity.
Qed.
Lemma bp_pop_none d : bp_pop d = None <-> d = [].
Proof.
  unfold bp_pop. split; [|intros ->; reflexivity].
  destruct (rev d) as [|la front] eqn:E.
  - intros _. rewrite <- (rev_involutive d), E. reflexivity.
  - destruct (rev front); discriminate.
Qed.

Theorem bin_pq_laws : pq_laws bin_pq bp_inv.
Proof.
  split; [|split; [|split; [|split]]].
  - split; [intros i a p _ Ha; discriminate|constructor].
  - intros q k p [Hi ND] Hk. simpl. unfold bp_push.
    replace (bp_position (map entry q) k) with (@None N)
      by (symmetry; apply bp_position_none; rewrite map_node_entry; auto).
    rewrite bp_bubble_up_fst. destruct (bh_push_spec _ (mkHeapItem p k) Hi) as [A B]. unfold bh_push in A, B.
    assert (P : Permutation (map unentry (bh_sift_up (S (List.length (map entry q))) (map entry q ++ [mkHeapItem p k])
                  (mkHeapItem p k) (lenN (map entry q)))) ((k, p) :: q)).
    { rewrite B. simpl. rewrite map_unentry_entry. reflexivity. }
    split; auto. split; [rewrite map_entry_unentry; auto|].
    rewrite P. simpl. constructor; auto.
  - intros q [Hi ND]. simpl. destruct (bp_pop (map entry q)) as [[x d]|] eqn:E.
    + split; [discriminate|]. intros ->. discriminate E.
    + split; auto. intros _. apply bp_pop_none in E. apply map_eq_nil in E. auto.
  - intros q k p q' [Hi ND] E. simpl in E. destruct (bp_pop (map entry q)) as [[x d]|] eqn:E0; [|discriminate].
    injection E as <- <- <-. destruct (bp_pop_spec _ _ _ Hi E0) as (A & B & C).
    assert (P : Permutation q ((hi_node x, hi_weight x) :: map unentry d)).
    { rewrite <- (map_unentry_entry q). rewrite B. reflexivity. }
    split; [|split; auto].
    + split; [rewrite map_entry_unentry; auto|].
      rewrite P in ND. simpl in ND. inversion ND; auto.
    + intros k' p' Hin. apply (bh_inv_min _ _ Hi C (mkHeapItem p' k')).
      apply (in_map entry) in Hin. exact Hin.
  - intros q k p [Hi ND]. simpl. unfold bp_change.
    destruct (bp_position (map entry q) k) as [i|] eqn:E.
    + destruct (bp_position_some _ _ _ E) as (y & Ey & _). apply getN_Some_lt in Ey.
      destruct (bp_up_heapify_spec _ i (mkHeapItem p k) Hi Ey) as [A B].
      assert (P : Permutation (map unentry (bp_up_heapify (setN (map entry q) i (mkHeapItem p k)) i)) (set_priority q k p)).
      { rewrite B, (set_priority_at q k p ND i E), map_unentry_entry. reflexivity. }
      split; auto. split; [rewrite map_entry_unentry; auto|].
      rewrite P, set_priority_fst. auto.
    + apply bp_position_none in E. rewrite map_node_entry in E.
      rewrite set_priority_out, map_unentry_entry by auto. split; auto. split; auto.
Qed.
