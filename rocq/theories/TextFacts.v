(** * TextFacts: lines, words, numbers *)
From Verif Require Export SpecText BaseFacts.
Open Scope N_scope.

Lemma starts_with_spec p : forall s, starts_with p s = true <-> exists r, s = p ++ r.
Proof.
  induction p as [|a p IH]; intros s; simpl; [split; eauto|].
  destruct s as [|b s]; [split; [discriminate|intros (r & H); discriminate]|].
  rewrite andb_true_iff, N.eqb_eq, IH. split.
  - intros (-> & r & ->). eauto.
  - intros (r & H). injection H as <- ->. eauto.
Qed.
Lemma starts_with_app p r : starts_with p (p ++ r) = true.
Proof. apply starts_with_spec. eauto. Qed.

(** ** Words *)
Lemma ws_skip pre : forall s, (forall x, In x pre -> is_whitespace x = true) ->
  split_ws (pre ++ s) [] = split_ws s [].
Proof.
  induction pre as [|x pre IH]; intros s H; auto. simpl. rewrite (H x) by (simpl; auto).
  apply IH. intros y Hy. apply H; simpl; auto.
Qed.
Lemma ws_word w : forall cur s, (forall x, In x w -> is_whitespace x = false) ->
  split_ws (w ++ s) cur = split_ws s (cur ++ w).
Proof.
  induction w as [|x w IH]; intros cur s H; simpl; [rewrite app_nil_r; auto|].
  rewrite (H x) by (simpl; auto). rewrite IH by (intros; apply H; simpl; auto). rewrite <- app_assoc. reflexivity.
Qed.
Lemma words_split s ws : words s ws -> split_whitespace s = ws.
Proof.
  unfold split_whitespace. induction 1 as [s Hs|pre w rest ws H1 H2 H3 H4 HW IH].
  - rewrite <- (app_nil_r s), ws_skip by auto. reflexivity.
  - rewrite ws_skip, ws_word by auto. simpl. destruct w as [|a w]; [congruence|].
    destruct H4 as [->|(y & r & -> & Hy)]; simpl in *.
    + rewrite <- IH. reflexivity.
    + rewrite Hy in *. rewrite IH. reflexivity.
Qed.
Lemma split_words_aux s : forall cur, (forall x, In x cur -> is_whitespace x = false) ->
  words (cur ++ s) (split_ws s cur).
Proof.
  induction s as [|x s IH]; intros cur Hc; simpl.
  - destruct cur as [|a cur]; [constructor; intros x []|].
    rewrite <- (app_nil_r ((a :: cur) ++ [])), <- app_assoc. simpl.
    apply (words_cons [] (a :: cur) []); [intros x []|discriminate|auto|auto|constructor; intros x []].
  - destruct (is_whitespace x) eqn:Hx.
    + assert (words (x :: s) (split_ws s [])) as HX.
      { pose proof (IH [] ltac:(intros y [])) as HI. simpl in HI. revert HI. generalize (split_ws s []). intros ws HI.
        inversion HI; subst; simpl.
        - constructor. intros y [<-|Hy]; auto.
        - rewrite app_comm_cons. constructor; auto. intros y [<-|Hy]; auto. }
      destruct cur as [|a cur]; [exact HX|].
      apply (words_cons [] (a :: cur) (x :: s)); [intros y []|discriminate|auto|right; eauto|exact HX].
    + replace (cur ++ x :: s) with ((cur ++ [x]) ++ s) by (rewrite <- app_assoc; reflexivity).
      apply IH. intros y Hy. apply in_app_or in Hy. destruct Hy as [Hy|[<-|[]]]; auto.
Qed.
Lemma split_words s : words s (split_whitespace s).
Proof. apply (split_words_aux s []). intros x []. Qed.
Lemma words_iff s ws : words s ws <-> split_whitespace s = ws.
Proof. split; [apply words_split|intros <-; apply split_words]. Qed.

(** ** Numbers *)
Definition val (ds : list N) (a : N) : N := fold_left (fun a d => a * 10 + (d - 48)) ds a.
Lemma val_ge ds : forall a, a <= val ds a.
Proof. induction ds as [|d ds IH]; intros a; simpl; [lia|]. specialize (IH (a * 10 + (d - 48))). unfold val in *; simpl. lia. Qed.
Lemma between_spec a b x : between a b x = true <-> a <= x <= b.
Proof. unfold between. rewrite andb_true_iff, !N.leb_le. tauto. Qed.

Lemma parse_digits_spec c ds : forall a v, a <= umax c ->
  (parse_digits c ds a = Some v <-> (forall d, In d ds -> 48 <= d <= 57) /\ v = val ds a /\ v <= umax c).
Proof.
  induction ds as [|d ds IH]; intros a v Ha; simpl.
  - split; [intros [= <-]; simpl; repeat split; auto; tauto|]. intros (_ & -> & _). reflexivity.
  - destruct (between 48 57 d) eqn:Hd.
    + apply between_spec in Hd. destruct (N.leb_spec (a * 10 + (d - 48)) (umax c)) as [Hl|Hl].
      * rewrite IH by auto. unfold val; simpl. split; intros (H1 & H2 & H3).
        -- split; [|auto]. intros x Hx. destruct Hx as [<-|Hx]; [lia|apply H1; auto].
        -- split; [|auto]. intros x Hx. apply H1; auto.
      * split; [discriminate|]. intros (H1 & H2 & H3). pose proof (val_ge ds (a * 10 + (d - 48))). unfold val in *; simpl in *. lia.
    + split; [discriminate|]. intros (H1 & _). assert (between 48 57 d = true); [|congruence].
      apply between_spec. apply H1; simpl; auto.
Qed.
Lemma parse_spec c w v : parse_usize c w = Some v <-> number c w v.
Proof.
  unfold parse_usize, number, denotes. destruct w as [|x r].
  - split; [discriminate|]. intros (_ & ds & (H & _) & [<-| ?]); [congruence|discriminate].
  - destruct (N.eqb_spec x 43) as [->|Hx].
    + destruct r as [|y r].
      * split; [discriminate|]. intros (_ & ds & (H & H1 & _) & [<-|HH]).
        -- specialize (H1 43 (or_introl eq_refl)). lia.
        -- injection HH as <-. congruence.
      * rewrite parse_digits_spec by lia. split.
        -- intros (H1 & H2 & H3). split; auto. exists (y :: r). split; [|auto]. split; [discriminate|]. split; [exact H1|exact H2].
        -- intros (H3 & ds & (H & H1 & H2) & [<-|HH]).
           ++ specialize (H1 43 (or_introl eq_refl)). lia.
           ++ injection HH as <-. split; [exact H1|]. split; auto.
    + rewrite parse_digits_spec by lia. split.
      * intros (H1 & H2 & H3). split; auto. exists (x :: r). split; [|auto]. split; [discriminate|]. split; [exact H1|exact H2].
      * intros (H3 & ds & (H & H1 & H2) & [<-|HH]); [split; [exact H1|]; split; auto|]. injection HH as -> _. congruence.
Qed.

(** ** Decimal representation *)
Lemma val_app a b x : val (a ++ b) x = val b (val a x).
Proof. unfold val. apply fold_left_app. Qed.
Lemma dec_fuel_spec k : forall n, n < 10 ^ N.of_nat k -> (1 <= k)%nat ->
  dec_fuel k n <> [] /\ (forall d, In d (dec_fuel k n) -> 48 <= d <= 57) /\ val (dec_fuel k n) 0 = n /\
  (forall d r, dec_fuel k n = d :: r -> r = [] \/ 49 <= d).
Proof.
  induction k as [|k IH]; intros n Hn Hk; [lia|]. cbn [dec_fuel]. destruct (N.ltb_spec n 10) as [H|H].
  - split; [discriminate|]. split; [intros d [<-|[]]; lia|]. split; [unfold val; cbn [fold_left]; lia|].
    intros d r [= <- <-]. auto.
  - assert (1 <= k)%nat as Hk'.
    { destruct k; [|lia]. change (10 ^ N.of_nat 1) with 10 in Hn. lia. }
    destruct (IH (n / 10)) as (I1 & I2 & I3 & I4); [|lia|].
    { apply N.div_lt_upper_bound; [lia|]. rewrite Nat2N.inj_succ, N.pow_succ_r' in Hn. exact Hn. }
    pose proof (N.mod_lt n 10 ltac:(lia)) as Hm. split; [destruct (dec_fuel k (n / 10)); discriminate|].
    split; [intros d Hd; apply in_app_or in Hd; destruct Hd as [Hd|[<-|[]]]; [auto|clear - Hm; revert Hm; generalize (n mod 10); intros; lia]|].
    split.
    + rewrite val_app, I3. unfold val; cbn [fold_left]. pose proof (N.div_mod' n 10) as HD. clear - HD Hm.
      revert HD Hm. generalize (n mod 10), (n / 10). intros; lia.
    + intros d r Hd. right. destruct (dec_fuel k (n / 10)) as [|x l] eqn:E; [congruence|]. injection Hd as <- _.
      destruct (I4 x l eq_refl) as [->|?]; auto.
      unfold val in I3; cbn [fold_left] in I3. specialize (I2 x (or_introl eq_refl)).
      assert (1 <= n / 10) by (apply N.div_le_lower_bound; lia). lia.
Qed.
Lemma dec_bound n : n < 10 ^ N.of_nat (S (N.size_nat n)).
Proof.
  assert (n < 2 ^ N.of_nat (N.size_nat n)) as H.
  { destruct n as [|p]; [reflexivity|]. pose proof (N.size_gt (N.pos p)) as HS. simpl in *.
    replace (N.of_nat (Pos.size_nat p)) with (N.pos (Pos.size p)); auto.
    clear. induction p; cbn [Pos.size Pos.size_nat]; rewrite ?Nat2N.inj_succ, <- ?IHp; reflexivity. }
  rewrite Nat2N.inj_succ, N.pow_succ_r'.
  assert (2 ^ N.of_nat (N.size_nat n) <= 10 ^ N.of_nat (N.size_nat n)) by (apply N.pow_le_mono_l; lia). lia.
Qed.
Lemma dec_spec n : dec n <> [] /\ (forall d, In d (dec n) -> 48 <= d <= 57) /\ val (dec n) 0 = n /\
  (forall d r, dec n = d :: r -> r = [] \/ 49 <= d).
Proof. apply dec_fuel_spec; [apply dec_bound|lia]. Qed.
Lemma dec_number c n : n <= umax c -> number c (dec n) n.
Proof.
  intros H. destruct (dec_spec n) as (H1 & H2 & H3 & _). split; auto. exists (dec n). split; [|auto].
  split; [auto|]. split; [auto|]. symmetry. exact H3.
Qed.
Lemma digit_not_ws d : 48 <= d <= 57 -> is_whitespace d = false.
Proof.
  intros H. unfold is_whitespace, between.
  repeat match goal with
  | |- context [?a =? ?b] => destruct (N.eqb_spec a b); [lia|]
  | |- context [?a <=? ?b] => destruct (N.leb_spec a b); try lia end; reflexivity.
Qed.
Lemma number_fun c w v v' : number c w v -> number c w v' -> v = v'.
Proof. rewrite <- !parse_spec. congruence. Qed.

(** ** Lines *)
Definition plain_byte (x : N) : Prop := x < 128 /\ x <> 10 /\ x <> 13.
Lemma line_cons l : forall s, (forall x, In x l -> plain_byte x) ->
  text_lines (l ++ 10 :: s) = l :: text_lines s.
Proof.
  induction l as [|x l IH]; intros s H; [reflexivity|]. cbn [app text_lines].
  destruct (H x) as (H1 & H2 & H3); [simpl; auto|].
  destruct (N.eqb_spec x 10); [contradiction|]. destruct (N.eqb_spec x 13); [contradiction|]. cbn [andb].
  rewrite IH by (intros y Hy; apply H; simpl; auto). reflexivity.
Qed.
Lemma line_last l : l <> [] -> (forall x, In x l -> plain_byte x) -> text_lines l = [l].
Proof.
  induction l as [|x l IH]; intros Hn H; [congruence|]. cbn [text_lines].
  destruct (H x) as (H1 & H2 & H3); [simpl; auto|].
  destruct (N.eqb_spec x 10); [contradiction|]. destruct (N.eqb_spec x 13); [contradiction|]. cbn [andb].
  destruct l as [|y l]; [reflexivity|]. rewrite IH; [reflexivity|discriminate|intros z Hz; apply H; simpl; auto].
Qed.
Lemma utf8_ascii l : (forall x, In x l -> x < 128) -> utf8_decode l = Some l.
Proof.
  induction l as [|x l IH]; intros H; [reflexivity|]. cbn [utf8_decode].
  destruct (N.ltb_spec x 128) as [Hx|Hx]; [|specialize (H x (or_introl eq_refl)); lia].
  rewrite IH by (intros; apply H; simpl; auto). reflexivity.
Qed.
Lemma utf8_plain l : (forall x, In x l -> plain_byte x) -> utf8_decode l = Some l.
Proof. intros H. apply utf8_ascii. intros x Hx. apply H; auto. Qed.
Lemma digit_plain d : 48 <= d <= 57 -> plain_byte d.
Proof. unfold plain_byte. lia. Qed.
