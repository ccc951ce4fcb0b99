(** * CharFacts: the decoder of the model against the specification of UTF-8 and of lines *)
From Verif Require Export SpecChars TextFacts.
From Coq Require Import Lia.
Open Scope N_scope.

Ltac ttb := repeat match goal with
  | |- context[?a <? ?b] => first [rewrite (proj2 (N.ltb_lt a b)) by lia | rewrite (proj2 (N.ltb_ge a b)) by lia]
  | |- context[?a <=? ?b] => first [rewrite (proj2 (N.leb_le a b)) by lia | rewrite (proj2 (N.leb_gt a b)) by lia]
  | |- context[?a =? ?b] => first [rewrite (proj2 (N.eqb_eq a b)) by lia | rewrite (proj2 (N.eqb_neq a b)) by lia]
  end.

Lemma decode_one x r : scalar x -> utf8_decode (utf8_bytes x ++ r) = option_map (cons x) (utf8_decode r).
Proof.
  intros Hs. unfold utf8_bytes.
  destruct (N.ltb_spec x 128); [cbn [app utf8_decode]; ttb; reflexivity|].
  pose proof (N.div_mod' x 64) as D1. pose proof (N.mod_lt x 64 ltac:(lia)) as M1.
  set (q1 := x / 64) in *. set (r1 := x mod 64) in *.
  destruct (N.ltb_spec x 2048).
  { cbn [app utf8_decode]. unfold between, cont, between. ttb. cbn [andb]. do 2 f_equal. lia. }
  pose proof (N.div_mod' q1 64) as D2. pose proof (N.mod_lt q1 64 ltac:(lia)) as M2.
  assert (x / 4096 = q1 / 64) as E2 by (unfold q1; rewrite N.div_div by lia; reflexivity).
  rewrite E2 in *. set (q2 := q1 / 64) in *. set (r2 := q1 mod 64) in *.
  destruct (N.ltb_spec x 65536).
  { cbn [app utf8_decode]. unfold between, cont, between. destruct Hs as [Hs|Hs].
    - destruct (N.eq_dec q2 0).
      + ttb. cbn [andb orb]. do 2 f_equal. lia.
      + destruct (N.eq_dec q2 13).
        * ttb. cbn [andb orb]. do 2 f_equal. lia.
        * ttb. cbn [andb orb]. do 2 f_equal. lia.
    - ttb. cbn [andb orb]. do 2 f_equal. lia. }
  pose proof (N.div_mod' q2 64) as D3. pose proof (N.mod_lt q2 64 ltac:(lia)) as M3.
  assert (x / 262144 = q2 / 64) as E3 by (unfold q2, q1; rewrite !N.div_div by lia; reflexivity).
  rewrite E3 in *. set (q3 := q2 / 64) in *. set (r3 := q2 mod 64) in *.
  destruct Hs as [Hs|Hs]; [lia|].
  cbn [app utf8_decode]. unfold between, cont, between.
  destruct (N.eq_dec q3 0); [|destruct (N.eq_dec q3 4)]; ttb; cbn [andb orb]; do 2 f_equal; lia.
Qed.

Lemma decode_complete s : (forall x, In x s -> scalar x) -> utf8_decode (flat_map utf8_bytes s) = Some s.
Proof.
  induction s as [|x s IH]; intros H; [reflexivity|]. cbn [flat_map]. rewrite decode_one by (apply H; left; auto).
  rewrite IH by (intros; apply H; right; auto). reflexivity.
Qed.

Lemma div64 a b : b < 64 -> (a * 64 + b) / 64 = a.
Proof. intros. symmetry. apply (N.div_unique _ _ _ b); lia. Qed.
Lemma mod64 a b : b < 64 -> (a * 64 + b) mod 64 = b.
Proof. intros. symmetry. apply (N.mod_unique _ _ a); lia. Qed.

Ltac bb H := repeat (apply andb_prop in H as [H ?]); repeat match goal with
  | E : _ && _ = true |- _ => apply andb_prop in E as [? ?]
  | E : (_ <=? _) = true |- _ => apply N.leb_le in E
  | E : (_ =? _) = true |- _ => apply N.eqb_eq in E
  | E : cont _ = true |- _ => unfold cont in E
  | E : between _ _ _ = true |- _ => unfold between in E
  end.

Lemma two_bytes b0 b1 : 194 <= b0 <= 223 -> 128 <= b1 <= 191 ->
  scalar ((b0 - 192) * 64 + (b1 - 128)) /\ utf8_bytes ((b0 - 192) * 64 + (b1 - 128)) = [b0; b1].
Proof.
  intros H0 H1. split; [left; lia|]. unfold utf8_bytes. ttb. rewrite div64, mod64 by lia.
  f_equal; [lia|]. f_equal. lia.
Qed.
Lemma three_bytes b0 b1 b2 : 224 <= b0 <= 239 -> 128 <= b1 <= 191 -> 128 <= b2 <= 191 ->
  (b0 = 224 -> 160 <= b1) -> (b0 = 237 -> b1 <= 159) ->
  scalar ((b0 - 224) * 4096 + (b1 - 128) * 64 + (b2 - 128)) /\
  utf8_bytes ((b0 - 224) * 4096 + (b1 - 128) * 64 + (b2 - 128)) = [b0; b1; b2].
Proof.
  intros H0 H1 H2 A B. split; [unfold scalar; lia|]. unfold utf8_bytes. ttb.
  replace 4096 with (64 * 64) by reflexivity. rewrite <- N.div_div by lia.
  replace ((b0 - 224) * (64 * 64) + (b1 - 128) * 64 + (b2 - 128)) with (((b0 - 224) * 64 + (b1 - 128)) * 64 + (b2 - 128)) by lia.
  rewrite div64, mod64, div64, mod64 by lia. f_equal; [lia|]. f_equal; [lia|]. f_equal. lia.
Qed.
Lemma four_bytes b0 b1 b2 b3 : 240 <= b0 <= 244 -> 128 <= b1 <= 191 -> 128 <= b2 <= 191 -> 128 <= b3 <= 191 ->
  (b0 = 240 -> 144 <= b1) -> (b0 = 244 -> b1 <= 143) ->
  scalar ((b0 - 240) * 262144 + (b1 - 128) * 4096 + (b2 - 128) * 64 + (b3 - 128)) /\
  utf8_bytes ((b0 - 240) * 262144 + (b1 - 128) * 4096 + (b2 - 128) * 64 + (b3 - 128)) = [b0; b1; b2; b3].
Proof.
  intros H0 H1 H2 H3 A B. split; [unfold scalar; lia|]. unfold utf8_bytes. ttb.
  replace 262144 with (64 * 64 * 64) by reflexivity. replace 4096 with (64 * 64) by reflexivity. rewrite <- !N.div_div by lia.
  replace ((b0 - 240) * (64 * 64 * 64) + (b1 - 128) * (64 * 64) + (b2 - 128) * 64 + (b3 - 128))
    with ((((b0 - 240) * 64 + (b1 - 128)) * 64 + (b2 - 128)) * 64 + (b3 - 128)) by lia.
  rewrite div64, mod64, div64, mod64, div64, mod64 by lia. f_equal; [lia|]. f_equal; [lia|]. f_equal; [lia|]. f_equal. lia.
Qed.

Lemma encodes_cons raw s x : encodes raw s -> scalar x -> encodes (utf8_bytes x ++ raw) (x :: s).
Proof. intros [H1 ->] Hx. split; [|reflexivity]. intros y [<-|Hy]; auto. Qed.

Lemma decode_sound k : forall raw s, (length raw <= k)%nat -> utf8_decode raw = Some s -> encodes raw s.
Proof.
  induction k as [|k IH]; intros raw s Hk E.
  { destruct raw; [|simpl in Hk; lia]. injection E as <-. split; [intros x []|reflexivity]. }
  destruct raw as [|b0 r0]; [injection E as <-; split; [intros x []|reflexivity]|].
  assert (forall x n r, (length r <= k)%nat -> b0 :: n = utf8_bytes x -> b0 :: r0 = utf8_bytes x ++ r -> scalar x ->
    option_map (cons x) (utf8_decode r) = Some s -> encodes (b0 :: r0) s) as G.
  { intros x n r Hr _ -> Hs E'. destruct (utf8_decode r) as [s'|] eqn:Er; [|discriminate]. injection E' as <-.
    apply encodes_cons; auto. }
  cbn [utf8_decode] in E. simpl in Hk. destruct (N.ltb_spec b0 128).
  { eapply (G b0 [] r0); eauto; try lia.
    - unfold utf8_bytes. ttb. reflexivity.
    - unfold utf8_bytes. ttb. reflexivity.
    - left. lia. }
  destruct r0 as [|b1 r1]; [discriminate|]. simpl in Hk.
  destruct (between 194 223 b0 && cont b1) eqn:C1.
  { bb C1. destruct (two_bytes b0 b1) as [S1 S2]; try lia. eapply (G _ [b1] r1); eauto; try lia; rewrite S2; reflexivity. }
  clear C1.
  destruct r1 as [|b2 r2]; [discriminate|]. simpl in Hk.
  match type of E with (if ?b then _ else _) = _ => destruct b eqn:C2 end.
  { apply andb_prop in C2 as [Hc C2].
    assert (224 <= b0 <= 239 /\ 128 <= b1 <= 191 /\ 128 <= b2 <= 191 /\ (b0 = 224 -> 160 <= b1) /\ (b0 = 237 -> b1 <= 159)) as (A1 & A2 & A3 & A4 & A5).
    { clear E G IH. bb Hc. repeat (apply Bool.orb_true_iff in C2 as [C2|C2]); bb C2; repeat split; lia. }
    clear Hc C2.
    destruct (three_bytes b0 b1 b2 A1 A2 A3 A4 A5) as [S1 S2]. eapply (G _ [b1; b2] r2); eauto; try lia; rewrite S2; reflexivity. }
  clear C2.
  destruct r2 as [|b3 r3]; [discriminate|]. simpl in Hk.
  match type of E with (if ?b then _ else _) = _ => destruct b eqn:C3 end; [|discriminate].
  apply andb_prop in C3 as [Hc C3]. apply andb_prop in Hc as [Hc Hd].
  assert (240 <= b0 <= 244 /\ 128 <= b1 <= 191 /\ 128 <= b2 <= 191 /\ 128 <= b3 <= 191 /\ (b0 = 240 -> 144 <= b1) /\ (b0 = 244 -> b1 <= 143))
    as (A1 & A2 & A3 & A4 & A5 & A6).
  { clear E G IH. bb Hc. bb Hd. repeat (apply Bool.orb_true_iff in C3 as [C3|C3]); bb C3; repeat split; lia. }
  clear Hc Hd C3.
  destruct (four_bytes b0 b1 b2 b3 A1 A2 A3 A4 A5 A6) as [S1 S2]. eapply (G _ [b1; b2; b3] r3); eauto; try lia; rewrite S2; reflexivity.
Qed.

Lemma decode_iff raw s : utf8_decode raw = Some s <-> encodes raw s.
Proof. split; [apply (decode_sound (length raw)); auto|]. intros [H ->]. apply decode_complete; auto. Qed.

Lemma white_space_proof : forall x, is_whitespace x = true <-> In x white_space.
Proof.
  intros x. unfold is_whitespace, between. rewrite !Bool.orb_true_iff, !Bool.andb_true_iff, !N.eqb_eq, !N.leb_le.
  unfold white_space. cbn [In]. split; [|lia].
  intros H. lia.
Qed.

(** ** Lines *)
Lemma lines_lf l rest : ~ In 10 l -> (forall l', l <> l' ++ [13]) -> text_lines (l ++ 10 :: rest) = l :: text_lines rest.
Proof.
  induction l as [|x l IH]; intros H1 H2; [reflexivity|]. cbn [app text_lines].
  rewrite (proj2 (N.eqb_neq x 10)) by (intros ->; apply H1; left; auto).
  assert ((x =? 13) && match l ++ 10 :: rest with y :: _ => y =? 10 | [] => false end = false) as ->.
  { destruct (N.eqb_spec x 13) as [->|]; [|reflexivity]. destruct l as [|y l]; [destruct (H2 []); reflexivity|].
    cbn. apply N.eqb_neq. intros ->. apply H1. right. left. auto. }
  rewrite IH; [reflexivity|intros Hi; apply H1; right; auto|]. intros l' ->. apply (H2 (x :: l')). reflexivity.
Qed.
Lemma lines_crlf l rest : ~ In 10 l -> text_lines (l ++ 13 :: 10 :: rest) = l :: text_lines rest.
Proof.
  induction l as [|x l IH]; intros H1; [reflexivity|]. cbn [app]. cbn [text_lines].
  rewrite (proj2 (N.eqb_neq x 10)) by (intros ->; apply H1; left; auto).
  assert (match l ++ 13 :: 10 :: rest with y :: _ => y =? 10 | [] => false end = false) as ->.
  { destruct l as [|y l]; [reflexivity|]. cbn. apply N.eqb_neq. intros ->. apply H1. right. left. auto. }
  rewrite Bool.andb_false_r. rewrite IH; [reflexivity|]. intros Hi; apply H1; right; auto.
Qed.
Lemma lines_last l : l <> [] -> ~ In 10 l -> text_lines l = [l].
Proof.
  induction l as [|x l IH]; intros H0 H1; [congruence|]. cbn [text_lines].
  rewrite (proj2 (N.eqb_neq x 10)) by (intros ->; apply H1; left; auto).
  assert (match l with y :: _ => y =? 10 | [] => false end = false) as ->.
  { destruct l as [|y l]; [reflexivity|]. apply N.eqb_neq. intros ->. apply H1. right. left. auto. }
  rewrite Bool.andb_false_r. destruct l as [|y l]; [reflexivity|]. rewrite IH; [reflexivity|discriminate|].
  intros Hi; apply H1; right; auto.
Qed.
Lemma consists_lines b ls : consists_of b ls -> text_lines b = ls.
Proof.
  induction 1; [reflexivity|apply lines_last; auto| |].
  - cbn [app]. rewrite lines_lf by auto. congruence.
  - cbn [app]. rewrite lines_crlf by auto. congruence.
Qed.
Lemma first_lf b : In 10 b -> exists l rest, b = l ++ 10 :: rest /\ ~ In 10 l.
Proof.
  induction b as [|x b IH]; [intros []|]. intros H. destruct (N.eq_dec x 10) as [->|Hx].
  - exists [], b. auto.
  - destruct IH as (l & rest & -> & Hl); [destruct H as [H|H]; [congruence|auto]|].
    exists (x :: l), rest. split; auto. intros [H'|H']; auto.
Qed.
Lemma last_cr (l : list N) : (exists l', l = l' ++ [13]) \/ (forall l', l <> l' ++ [13]).
Proof.
  destruct l as [|x l] using rev_ind; [right; intros [|? ?]; discriminate|]. destruct (N.eq_dec x 13) as [->|Hx]; [eauto|].
  right. intros l' E. apply app_inj_tail in E as [_ E]. auto.
Qed.
Lemma lines_consist k : forall b, (length b <= k)%nat -> consists_of b (text_lines b).
Proof.
  induction k as [|k IH]; intros b Hk.
  { destruct b; [|simpl in Hk; lia]. constructor. }
  destruct (in_dec N.eq_dec 10 b) as [Hi|Hi].
  - destruct (first_lf b Hi) as (l & rest & -> & Hl). rewrite app_length in Hk. simpl in Hk.
    destruct (last_cr l) as [(l' & ->)|Hn].
    + assert (~ In 10 l') as Hl' by (intros Hx; apply Hl; apply in_or_app; auto).
      rewrite <- app_assoc. cbn [app]. rewrite lines_crlf by auto. apply (co_crlf l' rest); auto. apply IH. lia.
    + rewrite lines_lf by auto. apply (co_lf l rest); auto. apply IH. lia.
  - destruct b as [|x b]; [constructor|]. rewrite lines_last by (auto; discriminate). constructor; [discriminate|auto].
Qed.

Lemma Forall2_weaken {A C} (P Q : A -> C -> Prop) l m : (forall a b, P a b -> Q a b) -> Forall2 P l m -> Forall2 Q l m.
Proof. intros H. induction 1; constructor; auto. Qed.

Lemma file_lines_iff b ss : file_lines b ss <-> exists raws, consists_of b raws /\ Forall2 encodes raws ss.
Proof.
  unfold file_lines. split.
  - intros H. exists (text_lines b). split; [apply (lines_consist (length b)); auto|].
    eapply Forall2_weaken; [|exact H]. intros ? ? ?. apply decode_iff. auto.
  - intros (raws & H1 & H2). rewrite (consists_lines _ _ H1). eapply Forall2_weaken; [|exact H2]. intros ? ? ?. apply decode_iff. auto.
Qed.

Lemma consists_fun b l1 l2 : consists_of b l1 -> consists_of b l2 -> l1 = l2.
Proof. intros H1 H2. apply consists_lines in H1. apply consists_lines in H2. congruence. Qed.

From Verif Require Export ReaderFacts.
Lemma only_utf8_proof : forall c b g raws raw,
  from_dimacs_file c (contents b) = Ok g -> consists_of b raws -> In raw raws -> exists s, encodes raw s.
Proof.
  intros c b g raws raw H Hc Hi. apply from_dimacs_spec in H as (ss & arcs & Hl & _).
  apply file_lines_iff in Hl as (raws' & Hc' & HF). rewrite (consists_fun _ _ _ Hc Hc') in Hi. clear Hc Hc'.
  induction HF as [|r s rs ss' Hr HF IH] in raw, Hi |- *; [destruct Hi|]. destruct Hi as [<-|Hi]; eauto.
Qed.
