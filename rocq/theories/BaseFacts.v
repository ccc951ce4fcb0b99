(** * BaseFacts: lemmas about vectors, and a weakest-precondition calculus for [res]. *)
From Verif Require Export Base.
From Coq Require Export Lia Permutation.
From Coq Require Import ZifyBool.
Open Scope N_scope.

Global Arguments lenN : simpl never.
Global Arguments N.add : simpl never.
Global Arguments N.sub : simpl never.
Global Arguments N.mul : simpl never.
Global Arguments N.div : simpl never.
Global Arguments N.of_nat : simpl never.
Global Arguments rangeN : simpl never.
Global Arguments vec_repeat : simpl never.

(** ** Fuel *)

Fixpoint fsize (f : fuel) : nat :=
  match f with FO => O | FS rest => S (fsize (rest tt)) end.

Lemma fsize_pos p : forall rest, fsize (fuel_pos p rest) = (Pos.to_nat p + fsize (rest tt))%nat.
Proof.
  induction p as [p IH|p IH|]; intros rest; cbn [fuel_pos fsize]; rewrite ?IH; try lia.
Qed.

Lemma fsize_of n : fsize (fuel_of n) = N.to_nat n.
Proof. destruct n as [|p]; [reflexivity|]. cbn [fuel_of]. rewrite fsize_pos. cbn [fsize]. lia. Qed.

Lemma fuel_of_S n : n <> 0 -> exists rest, fuel_of n = FS rest.
Proof.
  intros H. pose proof (fsize_of n) as HS. destruct (fuel_of n) as [|rest]; [cbn in HS; lia|eauto].
Qed.

(** ** Vectors *)

Lemma getN_nth {A} (l : list A) i : getN l i = nth_error l (N.to_nat i).
Proof.
  revert i; induction l as [|x t IH]; intros i; simpl.
  - destruct (N.to_nat i); reflexivity.
  - destruct (N.eqb_spec i 0) as [->|Hn]; [reflexivity|].
    replace (N.to_nat i) with (S (N.to_nat (N.pred i))) by lia. simpl. apply IH.
Qed.

Lemma lenN_nil {A} : lenN (@nil A) = 0. Proof. reflexivity. Qed.
Lemma lenN_cons {A} (x : A) l : lenN (x :: l) = lenN l + 1.
Proof. unfold lenN; simpl List.length; lia. Qed.
Lemma lenN_app {A} (l1 l2 : list A) : lenN (l1 ++ l2) = lenN l1 + lenN l2.
Proof. unfold lenN; rewrite app_length; lia. Qed.
Lemma lenN_map {A B} (f : A -> B) l : lenN (map f l) = lenN l.
Proof. unfold lenN; rewrite map_length; reflexivity. Qed.
Lemma lenN_repeat {A} (x : A) n : lenN (vec_repeat x n) = n.
Proof. unfold lenN, vec_repeat; rewrite repeat_length; lia. Qed.
Lemma lenN_zero {A} (l : list A) : lenN l = 0 -> l = [].
Proof. destruct l; [reflexivity|unfold lenN; simpl; lia]. Qed.
Lemma lenN_rev {A} (l : list A) : lenN (rev l) = lenN l.
Proof. unfold lenN; rewrite rev_length; reflexivity. Qed.

Lemma getN_Some_lt {A} (l : list A) i x : getN l i = Some x -> i < lenN l.
Proof.
  rewrite getN_nth; intros H. unfold lenN.
  assert (nth_error l (N.to_nat i) <> None) as H1 by congruence.
  apply nth_error_Some in H1. lia.
Qed.
Lemma getN_lt {A} (l : list A) i : i < lenN l -> exists x, getN l i = Some x.
Proof.
  rewrite getN_nth; unfold lenN; intros H.
  destruct (nth_error l (N.to_nat i)) eqn:E; [eauto|].
  apply nth_error_None in E. lia.
Qed.
Lemma getN_None {A} (l : list A) i : lenN l <= i -> getN l i = None.
Proof. rewrite getN_nth; unfold lenN; intros H; apply nth_error_None; lia. Qed.
Lemma getN_None_ge {A} (l : list A) i : getN l i = None -> lenN l <= i.
Proof. rewrite getN_nth; unfold lenN; intros H; apply nth_error_None in H; lia. Qed.

Lemma lenN_setN {A} (l : list A) i y : lenN (setN l i y) = lenN l.
Proof.
  revert i; induction l as [|x t IH]; intros i; simpl; [reflexivity|].
  destruct (i =? 0); rewrite !lenN_cons; [reflexivity|]. rewrite IH; reflexivity.
Qed.
Lemma getN_setN_eq {A} (l : list A) i y : i < lenN l -> getN (setN l i y) i = Some y.
Proof.
  revert i; induction l as [|x t IH]; intros i H; [rewrite lenN_nil in H; lia|].
  rewrite lenN_cons in H. simpl. destruct (N.eqb_spec i 0) as [->|Hn]; simpl; [reflexivity|].
  destruct (N.eqb_spec i 0); [lia|]. apply IH; lia.
Qed.
Lemma getN_setN_neq {A} (l : list A) i j y : i <> j -> getN (setN l i y) j = getN l j.
Proof.
  revert i j; induction l as [|x t IH]; intros i j H; simpl; [reflexivity|].
  destruct (N.eqb_spec i 0) as [->|Hn]; simpl; destruct (N.eqb_spec j 0); try lia; auto.
  apply IH; lia.
Qed.
Lemma getN_setN {A} (l : list A) i j y :
  getN (setN l i y) j = if (i =? j) && (i <? lenN l) then Some y else getN l j.
Proof.
  destruct (N.eqb_spec i j) as [->|Hn]; simpl.
  - destruct (N.ltb_spec j (lenN l)) as [Hl|Hl]; [apply getN_setN_eq; auto|].
    rewrite !getN_None; auto. rewrite lenN_setN; auto.
  - apply getN_setN_neq; auto.
Qed.

Lemma getN_In {A} (l : list A) i x : getN l i = Some x -> In x l.
Proof. rewrite getN_nth; apply nth_error_In. Qed.
Lemma In_getN {A} (l : list A) x : In x l -> exists i, i < lenN l /\ getN l i = Some x.
Proof.
  intros H; apply In_nth_error in H as [k Hk]. exists (N.of_nat k).
  assert (getN l (N.of_nat k) = Some x) as E by (rewrite getN_nth, Nat2N.id; auto).
  split; auto. eapply getN_Some_lt; eauto.
Qed.
Lemma getN_app1 {A} (l1 l2 : list A) i : i < lenN l1 -> getN (l1 ++ l2) i = getN l1 i.
Proof. intros H; rewrite !getN_nth; apply nth_error_app1; unfold lenN in H; lia. Qed.
Lemma getN_app2 {A} (l1 l2 : list A) i :
  lenN l1 <= i -> getN (l1 ++ l2) i = getN l2 (i - lenN l1).
Proof.
  intros H; rewrite !getN_nth; rewrite nth_error_app2 by (unfold lenN in H; lia).
  f_equal. unfold lenN; lia.
Qed.
Lemma getN_map {A B} (f : A -> B) l i : getN (map f l) i = option_map f (getN l i).
Proof.
  revert i; induction l as [|x t IH]; intros i; simpl; [reflexivity|].
  destruct (i =? 0); auto.
Qed.
Lemma getN_repeat {A} (x : A) n i : i < n -> getN (vec_repeat x n) i = Some x.
Proof.
  intros H. destruct (getN_lt (vec_repeat x n) i) as [y Hy]; [rewrite lenN_repeat; auto|].
  rewrite Hy. apply getN_In in Hy. unfold vec_repeat in Hy. apply repeat_spec in Hy. congruence.
Qed.
Lemma getN_ext {A} (l1 l2 : list A) : (forall i, getN l1 i = getN l2 i) -> l1 = l2.
Proof.
  revert l2; induction l1 as [|x t IH]; intros [|y t2] H; auto.
  - specialize (H 0); discriminate.
  - specialize (H 0); discriminate.
  - pose proof (H 0) as H0; simpl in H0. injection H0 as ->. f_equal. apply IH. intros i.
    specialize (H (i + 1)). simpl in H. destruct (N.eqb_spec (i+1) 0); [lia|].
    replace (N.pred (i + 1)) with i in H by lia. auto.
Qed.
Lemma setN_same {A} (l : list A) i y : getN l i = Some y -> setN l i y = l.
Proof.
  intros H; apply getN_ext; intros j. rewrite getN_setN.
  destruct (N.eqb_spec i j) as [->|]; simpl; auto.
  destruct (j <? lenN l); auto.
Qed.
Lemma getN_seg {A} (l : list A) i : i < lenN l ->
  exists l1 x l2, l = l1 ++ x :: l2 /\ lenN l1 = i /\ getN l i = Some x.
Proof.
  intros H. destruct (getN_lt _ _ H) as [x Hx].
  pose proof Hx as Hx'. rewrite getN_nth in Hx'. apply nth_error_split in Hx' as (l1 & l2 & -> & Hl).
  exists l1, x, l2. repeat split; auto. unfold lenN; lia.
Qed.
Lemma setN_app2 {A} (l1 : list A) x l2 y : setN (l1 ++ x :: l2) (lenN l1) y = l1 ++ y :: l2.
Proof.
  induction l1 as [|z t IH]; [reflexivity|].
  rewrite lenN_cons. cbn [app setN]. destruct (N.eqb_spec (lenN t + 1) 0); [lia|].
  f_equal. replace (N.pred (lenN t + 1)) with (lenN t) by lia. auto.
Qed.
Lemma setN_Permutation {A} (l : list A) i x y :
  getN l i = Some x -> exists l1 l2, l = l1 ++ x :: l2 /\ setN l i y = l1 ++ y :: l2.
Proof.
  intros H. destruct (getN_seg l i (getN_Some_lt _ _ _ H)) as (l1 & x' & l2 & -> & <- & Hx).
  assert (x' = x) as -> by congruence. exists l1, l2. split; auto. apply setN_app2.
Qed.

(** ** Ranges *)
Lemma range_from_In k b i : In i (range_from k b) <-> b <= i < b + N.of_nat k.
Proof.
  revert b; induction k as [|k IH]; intros b; simpl; [lia|].
  rewrite IH. lia.
Qed.
Lemma rangeN_In b e i : In i (rangeN b e) <-> b <= i < e.
Proof. unfold rangeN. rewrite range_from_In. lia. Qed.
Lemma range_from_len k b : List.length (range_from k b) = k.
Proof. revert b; induction k; intros; simpl; auto. Qed.
Lemma lenN_rangeN b e : lenN (rangeN b e) = e - b.
Proof. unfold lenN, rangeN. rewrite range_from_len. lia. Qed.
Lemma rangeN_nil b e : e <= b -> rangeN b e = [].
Proof. intros H; unfold rangeN. replace (e - b) with 0 by lia. reflexivity. Qed.
Lemma rangeN_cons b e : b < e -> rangeN b e = b :: rangeN (b + 1) e.
Proof.
  intros H; unfold rangeN. replace (N.to_nat (e - b)) with (S (N.to_nat (e - (b + 1)))) by lia.
  reflexivity.
Qed.
Lemma range_from_NoDup k b : NoDup (range_from k b).
Proof.
  revert b; induction k; intros; simpl; constructor; auto.
  rewrite range_from_In; lia.
Qed.
Lemma rangeN_NoDup b e : NoDup (rangeN b e).
Proof. apply range_from_NoDup. Qed.
Lemma range_from_app k1 k2 b :
  range_from (k1 + k2) b = range_from k1 b ++ range_from k2 (b + N.of_nat k1).
Proof.
  revert b; induction k1 as [|k1 IH]; intros b; simpl.
  - f_equal; lia.
  - f_equal. rewrite IH. do 2 f_equal. lia.
Qed.
Lemma rangeN_app b m e : b <= m <= e -> rangeN b e = rangeN b m ++ rangeN m e.
Proof.
  intros H; unfold rangeN. replace (N.to_nat (e - b)) with (N.to_nat (m - b) + N.to_nat (e - m))%nat by lia.
  rewrite range_from_app. do 2 f_equal. lia.
Qed.
Lemma rangeN_snoc b e : b <= e -> rangeN b (e + 1) = rangeN b e ++ [e].
Proof.
  intros H. rewrite (rangeN_app b e (e + 1)) by lia. f_equal.
  rewrite rangeN_cons by lia. rewrite rangeN_nil by lia. reflexivity.
Qed.
Lemma getN_rangeN b e i : i < e - b -> getN (rangeN b e) i = Some (b + i).
Proof.
  intros H. destruct (getN_seg (rangeN b e) i) as (l1 & x & l2 & E & Hl & Hx).
  { rewrite lenN_rangeN; auto. }
  rewrite Hx. f_equal.
  assert (rangeN b e = rangeN b (b + i) ++ (b + i) :: rangeN (b + i + 1) e) as E2.
  { rewrite (rangeN_app b (b+i) e) by lia. f_equal. apply rangeN_cons; lia. }
  rewrite E2 in Hx. rewrite getN_app2 in Hx by (rewrite lenN_rangeN; lia).
  rewrite lenN_rangeN in Hx. replace (i - (b + i - b)) with 0 in Hx by lia.
  simpl in Hx. congruence.
Qed.

(** ** Weakest preconditions.  [wp P m Q]: [m] does not diverge; if it panics, the reason
    satisfies [P]; if it returns, the value satisfies [Q]. *)
Definition wp {A} (P : panic_reason -> Prop) (m : res A) (Q : A -> Prop) : Prop :=
  match m with
  | Ok a => Q a
  | Panic r => P r
  | Diverge => False
  end.

Lemma wp_bind {A B} P (m : res A) (k : A -> res B) Q :
  wp P m (fun a => wp P (k a) Q) -> wp P (bind m k) Q.
Proof. destruct m; simpl; auto. Qed.
Lemma wp_bind_inv {A B} P (m : res A) (k : A -> res B) Q :
  wp P (bind m k) Q -> wp P m (fun a => wp P (k a) Q).
Proof. destruct m; simpl; auto. Qed.
Lemma wp_mono {A} P (m : res A) (Q Q' : A -> Prop) :
  wp P m Q -> (forall a, Q a -> Q' a) -> wp P m Q'.
Proof. destruct m; simpl; auto. Qed.
Lemma wp_mono_eq {A} P (m : res A) (Q Q' : A -> Prop) :
  wp P m Q -> (forall a, m = Ok a -> Q a -> Q' a) -> wp P m Q'.
Proof. destruct m; simpl; auto. Qed.
Lemma wp_weaken {A} (P P' : panic_reason -> Prop) (m : res A) Q :
  (forall r, P r -> P' r) -> wp P m Q -> wp P' m Q.
Proof. destruct m; simpl; auto. Qed.
Lemma wp_Ok {A} P (a : A) (Q : A -> Prop) : Q a -> wp P (Ok a) Q.
Proof. auto. Qed.
Lemma wp_bind_mono {A B} P (m : res A) (k : A -> res B) (R : A -> Prop) Q :
  wp P m R -> (forall a, R a -> wp P (k a) Q) -> wp P (bind m k) Q.
Proof. intros H1 H2; apply wp_bind; eapply wp_mono; eauto. Qed.
Lemma wp_conj {A} P (m : res A) (Q1 Q2 : A -> Prop) :
  wp P m Q1 -> wp P m Q2 -> wp P m (fun a => Q1 a /\ Q2 a).
Proof. destruct m; simpl; auto. Qed.

Lemma wp_idx {A} P (l : list A) i (Q : A -> Prop) :
  i < lenN l -> (forall a, getN l i = Some a -> Q a) -> wp P (idx l i) Q.
Proof.
  intros H1 H2. unfold idx. destruct (getN_lt _ _ H1) as [x Hx]. rewrite Hx. simpl. auto.
Qed.
Lemma idx_Some {A} (l : list A) i a : getN l i = Some a -> idx l i = Ok a.
Proof. unfold idx; intros ->; reflexivity. Qed.
Lemma idx_Ok {A} (l : list A) i a : idx l i = Ok a -> getN l i = Some a.
Proof. unfold idx; destruct (getN l i); congruence. Qed.
Lemma wp_upd {A} P (l : list A) i y (Q : list A -> Prop) :
  i < lenN l -> Q (setN l i y) -> wp P (upd l i y) Q.
Proof. intros H1 H2. unfold upd. destruct (N.ltb_spec i (lenN l)); [simpl; auto|lia]. Qed.
Lemma upd_eq {A} (l : list A) i y : i < lenN l -> upd l i y = Ok (setN l i y).
Proof. intros H1. unfold upd. destruct (N.ltb_spec i (lenN l)); [simpl; auto|lia]. Qed.
Lemma upd_Ok {A} (l : list A) i y l' : upd l i y = Ok l' -> i < lenN l /\ l' = setN l i y.
Proof. unfold upd. destruct (N.ltb_spec i (lenN l)); [|discriminate]. intros [= <-]; auto. Qed.
Lemma wp_assert P b s (Q : unit -> Prop) : b = true -> Q tt -> wp P (assert b s) Q.
Proof. intros -> H; simpl; auto. Qed.

(** invariant rule for loops; [I pre s]: the loop has processed the prefix [pre] *)
Lemma wp_foldM {S A} P (f : S -> A -> res S) (I : list A -> S -> Prop) l s :
  I [] s ->
  (forall pre a post s, l = pre ++ a :: post -> I pre s -> wp P (f s a) (I (pre ++ [a]))) ->
  wp P (foldM f l s) (I l).
Proof.
  intros H0 Hs.
  assert (forall post pre s, l = pre ++ post -> I pre s -> wp P (foldM f post s) (I l)) as G.
  { induction post as [|a post IH]; intros pre s' E Hi; simpl.
    - rewrite app_nil_r in E; subst; auto.
    - eapply wp_bind_mono; [eapply Hs; eauto|]. intros s'' Hi'.
      eapply IH; eauto. rewrite <- app_assoc; auto. }
  eapply G with (pre := []); eauto.
Qed.
(** same, for loops over ranges; [I i s]: all indices below [i] have been processed *)
Lemma wp_foldM_range {S} P (f : S -> N -> res S) (I : N -> S -> Prop) b e s :
  b <= e -> I b s ->
  (forall i s, b <= i < e -> I i s -> wp P (f s i) (I (i + 1))) ->
  wp P (foldM f (rangeN b e) s) (I e).
Proof.
  intros Hbe H0 Hs. remember (N.to_nat (e - b)) as k eqn:Hk.
  revert b s Hbe H0 Hs Hk. induction k as [|k IH]; intros b s Hbe H0 Hs Hk.
  - assert (b = e) by lia. subst. rewrite rangeN_nil by lia. simpl; auto.
  - rewrite rangeN_cons by lia. simpl. eapply wp_bind_mono; [apply Hs; [lia|auto]|].
    intros s' Hi. apply IH; auto; try lia. intros i s'' Hi' HI. apply Hs; auto; lia.
Qed.
(** constant invariant *)
Lemma wp_foldM_inv {S A} P (f : S -> A -> res S) (I : S -> Prop) l s :
  I s -> (forall a s, In a l -> I s -> wp P (f s a) I) -> wp P (foldM f l s) I.
Proof.
  intros H0 Hs. apply (wp_foldM P f (fun _ => I)); auto.
  intros pre a post s' E Hi. apply Hs; auto. subst. apply in_app_iff; simpl; auto.
Qed.

Lemma foldM_app {S A} (f : S -> A -> res S) l1 l2 s :
  foldM f (l1 ++ l2) s = bind (foldM f l1 s) (foldM f l2).
Proof.
  revert s; induction l1 as [|a t IH]; intros s; simpl; [reflexivity|].
  destruct (f s a); simpl; auto.
Qed.

(** Panics that stem from machine limits are excusable if [allow] holds, all others never. *)
Definition lim (allow : Prop) (r : panic_reason) : Prop :=
  match r with
  | POverflow | PCapacity => allow
  | _ => False
  end.

Lemma wp_uadd c (allow : Prop) a b (Q : N -> Prop) :
  debug_build c = true ->
  (umax c < a + b -> allow) -> (a + b <= umax c -> Q (a + b)) ->
  wp (lim allow) (uadd c a b) Q.
Proof.
  intros Hd H1 H2. unfold uadd. destruct (N.leb_spec (a + b) (umax c)); simpl; auto.
  rewrite Hd. simpl; auto.
Qed.
Lemma wp_vpush {A} c (allow : Prop) (l : list A) x (Q : list A -> Prop) :
  (umax c / 2 <= lenN l -> allow) -> (lenN l < umax c / 2 -> Q (l ++ [x])) ->
  wp (lim allow) (vpush c l x) Q.
Proof.
  intros H1 H2. unfold vpush. destruct (N.ltb_spec (lenN l) (umax c / 2)); simpl; auto.
Qed.

Ltac wstep :=
  match goal with
  | |- wp _ (bind _ _) _ => apply wp_bind
  | |- wp _ (Ok _) _ => apply wp_Ok
  | |- wp _ (idx _ _) _ => apply wp_idx; [|intros ? ?]
  | |- wp _ (upd _ _ _) _ => apply wp_upd
  end.

(** ** Inversion of successful runs *)
Lemma bind_Ok {A B} (m : res A) (k : A -> res B) b :
  bind m k = Ok b -> exists a, m = Ok a /\ k a = Ok b.
Proof. destruct m; simpl; try discriminate; eauto. Qed.
Lemma assert_Ok b s u : assert b s = Ok u -> b = true.
Proof. unfold assert; destruct b; congruence. Qed.

(** ** Counting *)
Lemma filter_len_le {A} (f : A -> bool) l : (List.length (filter f l) <= List.length l)%nat.
Proof. induction l; simpl; auto. destruct (f a); simpl; lia. Qed.

Lemma NoDup_bounded_len (l : list N) n : NoDup l -> (forall x, In x l -> x < n) -> lenN l <= n.
Proof.
  intros H1 H2.
  assert (incl l (rangeN 0 n)) as Hi.
  { intros x Hx. apply rangeN_In. specialize (H2 x Hx). lia. }
  pose proof (NoDup_incl_length H1 Hi) as H3.
  pose proof (lenN_rangeN 0 n) as H4. unfold lenN in *. lia.
Qed.
