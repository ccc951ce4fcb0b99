(** * WriterFacts: what arrives in a file *)
From Verif Require Export SpecText BaseFacts.
Open Scope N_scope.

Lemma write_loop_spec sched : forall file buf f b s ok,
  write_loop sched file buf = (f, b, s, ok) ->
  f ++ b = file ++ buf /\ (ok = true -> b = []) /\ (lenN b <= lenN buf) /\
  ((forall o, In o sched -> no_error o) -> ok = true /\ forall o, In o s -> no_error o).
Proof.
  induction sched as [|o sched IH]; intros file buf f b s ok HE.
  - destruct buf as [|x buf]; simpl in HE; injection HE as <- <- <- <-.
    + repeat split; auto; try lia.
    + rewrite app_nil_r. repeat split; auto; unfold lenN; simpl; try lia.
  - destruct buf as [|x buf]; cbn [write_loop] in HE.
    { injection HE as <- <- <- <-. repeat split; auto; lia. }
    destruct o as [k| |].
    + destruct (N.eqb_spec k 0) as [->|Hk].
      * injection HE as <- <- <- <-. repeat split; auto; try discriminate; try lia.
        -- exfalso. apply (H (WOk 0) (or_introl eq_refl)). reflexivity.
        -- intros o Ho. apply H. simpl; auto.
      * apply IH in HE. destruct HE as (H1 & H2 & H3 & H4). repeat split; auto.
        -- rewrite H1, <- app_assoc, firstn_skipn. reflexivity.
        -- unfold lenN in *. rewrite skipn_length in H3. lia.
        -- apply H4. intros o Ho. apply H. simpl; auto.
        -- apply H4. intros o Ho. apply H. simpl; auto.
    + apply IH in HE. destruct HE as (H1 & H2 & H3 & H4). repeat split; auto.
      * apply H4. intros o Ho. apply H. simpl; auto.
      * apply H4. intros o Ho. apply H. simpl; auto.
    + injection HE as <- <- <- <-. repeat split; auto; try discriminate; try lia.
      * exfalso. apply (H WErr (or_introl eq_refl)).
      * intros o Ho. apply H. simpl; auto.
Qed.

(** what a writer has been given, is giving, and may still lose *)
Definition good (w : BufWriter) : Prop := forall o, In o (bw_sched w) -> no_error o.

Lemma flush_spec w w' ok : bw_flush_buf w = (w', ok) ->
  bw_file w' ++ bw_buf w' = bw_file w ++ bw_buf w /\ (ok = true -> bw_buf w' = []) /\
  lenN (bw_buf w') <= lenN (bw_buf w) /\ (good w -> ok = true /\ good w').
Proof.
  unfold bw_flush_buf, good. destruct (write_loop _ _ _) as [[[f b] s] ok'] eqn:E. intros [= <- <-]. simpl.
  apply write_loop_spec in E. exact E.
Qed.

Lemma write_all_spec cap w data w' ok : 1 <= cap -> lenN (bw_buf w) <= cap -> bw_write_all cap w data = (w', ok) ->
  (ok = true -> bw_file w' ++ bw_buf w' = bw_file w ++ bw_buf w ++ data) /\
  (exists r, bw_file w ++ bw_buf w ++ data = (bw_file w' ++ bw_buf w') ++ r) /\
  lenN (bw_buf w') <= cap /\ (good w -> ok = true /\ good w').
Proof.
  intros Hcap Hb. unfold bw_write_all.
  destruct (N.ltb_spec (lenN data) (cap - lenN (bw_buf w))) as [H|H].
  { intros [= <- <-]. simpl. repeat split; auto.
    - exists []. rewrite app_nil_r. auto.
    - rewrite lenN_app. lia. }
  destruct (if cap - lenN (bw_buf w) <? lenN data then bw_flush_buf w else (w, true)) as [w1 ok1] eqn:E1.
  assert (bw_file w1 ++ bw_buf w1 = bw_file w ++ bw_buf w /\ lenN (bw_buf w1) <= lenN (bw_buf w) /\
    (ok1 = true -> cap - lenN (bw_buf w) < lenN data -> bw_buf w1 = []) /\
    (cap - lenN (bw_buf w) >= lenN data -> w1 = w) /\ (good w -> ok1 = true /\ good w1)) as (F1 & F2 & F3 & F4 & F5).
  { destruct (N.ltb_spec (cap - lenN (bw_buf w)) (lenN data)) as [G|G].
    - apply flush_spec in E1. destruct E1 as (A & B & C & D). repeat split; auto; try tauto; try (intros; lia).
    - injection E1 as <- <-. repeat split; auto; try lia. }
  destruct ok1; simpl.
  - destruct (N.leb_spec cap (lenN data)) as [G|G].
    + assert (bw_buf w1 = []) as HN.
      { destruct (N.ltb_spec (cap - lenN (bw_buf w)) (lenN data)) as [G2|G2]; [auto|].
        rewrite F4 by lia. assert (lenN (bw_buf w) = 0) by lia. destruct (bw_buf w); auto. rewrite lenN_cons in *. lia. }
      destruct (write_loop (bw_sched w1) (bw_file w1) data) as [[[f b] s] ok'] eqn:E2. intros [= <- <-]. simpl.
      apply write_loop_spec in E2. destruct E2 as (A & B & C & D). rewrite HN, app_nil_r in *.
      rewrite F1 in A. rewrite <- app_assoc in A. repeat split.
      * intros Hok. rewrite (B Hok), app_nil_r in A. auto.
      * exists b. auto.
      * unfold lenN; simpl; lia.
      * apply D. apply F5. auto.
      * destruct (D (proj2 (F5 H0))) as (_ & HG). exact HG.
    + intros [= <- <-]. simpl. rewrite app_assoc, F1, <- app_assoc. repeat split; auto.
      * exists []. rewrite app_nil_r. auto.
      * rewrite lenN_app. destruct (N.ltb_spec (cap - lenN (bw_buf w)) (lenN data)) as [G2|G2].
        -- rewrite (F3 eq_refl G2). unfold lenN at 1; simpl. lia.
        -- rewrite F4 by lia. lia.
      * apply F5; auto.
  - intros [= <- <-]. repeat split; try discriminate; try lia.
    + exists data. rewrite F1, <- app_assoc. auto.
    + apply F5; auto.
    + apply F5; auto.
Qed.

Lemma write_pieces_spec cap ps : 1 <= cap -> forall w w' ok, lenN (bw_buf w) <= cap -> bw_write_pieces cap w ps = (w', ok) ->
  (ok = true -> bw_file w' ++ bw_buf w' = bw_file w ++ bw_buf w ++ concat ps) /\
  (exists r, bw_file w ++ bw_buf w ++ concat ps = (bw_file w' ++ bw_buf w') ++ r) /\
  lenN (bw_buf w') <= cap /\ (good w -> ok = true /\ good w').
Proof.
  intros Hcap. induction ps as [|p ps IH]; intros w w' ok Hb HE; simpl in HE.
  - injection HE as <- <-. simpl. rewrite app_nil_r. repeat split; auto. exists []. rewrite app_nil_r. auto.
  - destruct (bw_write_all cap w p) as [w1 ok1] eqn:E1.
    destruct (write_all_spec cap w p w1 ok1 Hcap Hb E1) as (A1 & (r1 & A2) & A3 & A4). simpl. destruct ok1.
    + destruct (IH w1 w' ok A3 HE) as (B1 & (r & B2) & B3 & B4).
      specialize (A1 eq_refl).
      assert (bw_file w ++ bw_buf w ++ p ++ concat ps = bw_file w1 ++ bw_buf w1 ++ concat ps) as HX.
      { transitivity ((bw_file w ++ bw_buf w ++ p) ++ concat ps); [rewrite <- !app_assoc; auto|].
        rewrite <- A1, <- app_assoc. auto. }
      repeat split; auto.
      * intros Hok. rewrite (B1 Hok), HX. auto.
      * exists r. rewrite HX, B2. auto.
      * apply B4, A4; auto.
      * apply B4, A4; auto.
    + injection HE as <- <-. repeat split; try discriminate; auto.
      * exists (r1 ++ concat ps). rewrite (app_assoc _ r1), <- A2, <- !app_assoc. auto.
      * apply A4; auto.
      * apply A4; auto.
Qed.

Definition line_text (l : res (list (list N))) : list N := match l with Ok ps => concat ps | _ => [] end.
Lemma write_lines_spec cap ls : 1 <= cap -> (forall l, In l ls -> exists ps, l = Ok ps) ->
  forall w w' r, lenN (bw_buf w) <= cap -> write_lines cap w ls = (w', r) ->
  (r = Ok IoOk \/ r = Ok IoErr) /\
  (r = Ok IoOk -> bw_file w' ++ bw_buf w' = bw_file w ++ bw_buf w ++ flat_map line_text ls) /\
  (exists q, bw_file w ++ bw_buf w ++ flat_map line_text ls = (bw_file w' ++ bw_buf w') ++ q) /\
  lenN (bw_buf w') <= cap /\ (good w -> r = Ok IoOk /\ good w').
Proof.
  intros Hcap. induction ls as [|l ls IH]; intros HL w w' r Hb HE; simpl in HE.
  - injection HE as <- <-. simpl. rewrite app_nil_r. repeat split; auto. exists []. rewrite app_nil_r. auto.
  - destruct (HL l (or_introl eq_refl)) as (ps & ->).
    destruct (bw_write_pieces cap w ps) as [w1 ok1] eqn:E1.
    destruct (write_pieces_spec cap ps Hcap w w1 ok1 Hb E1) as (A1 & (r1 & A2) & A3 & A4). cbn [flat_map line_text].
    destruct ok1.
    + destruct (IH (fun l H => HL l (or_intror H)) w1 w' r A3 HE) as (B0 & B1 & (q & B2) & B3 & B4).
      specialize (A1 eq_refl).
      assert (bw_file w ++ bw_buf w ++ concat ps ++ flat_map line_text ls = bw_file w1 ++ bw_buf w1 ++ flat_map line_text ls) as HX.
      { transitivity ((bw_file w ++ bw_buf w ++ concat ps) ++ flat_map line_text ls); [rewrite <- !app_assoc; auto|].
        rewrite <- A1, <- app_assoc. auto. }
      repeat split; auto.
      * intros Hok. rewrite (B1 Hok), HX. auto.
      * exists q. rewrite HX, B2. auto.
      * apply B4, A4; auto.
      * apply B4, A4; auto.
    + injection HE as <- <-. repeat split; try discriminate; auto.
      * exists (r1 ++ flat_map line_text ls). rewrite (app_assoc _ r1), <- A2, <- !app_assoc. auto.
      * destruct (A4 H). discriminate.
      * apply A4; auto.
Qed.

(** everything a complete writer run can do *)
Lemma with_writer_spec dv old ls file r : (forall l, In l ls -> exists ps, l = Ok ps) ->
  with_writer dv old (Ok ls) = (file, r) ->
  (r = Ok IoOk \/ r = Ok IoErr) /\
  (dv_create_ok dv = false -> file = old /\ r = Ok IoErr) /\
  (dv_create_ok dv = true -> exists f q, file = Some f /\ flat_map line_text ls = f ++ q /\
     (r = Ok IoOk -> lenN q <= buf_capacity)) /\
  (reliable dv -> file = Some (flat_map line_text ls) /\ r = Ok IoOk).
Proof.
  intros HL. unfold with_writer, reliable. destruct (dv_create_ok dv).
  2: { intros [= <- <-]. split; [auto|]. split; [auto|]. split; [discriminate|]. intros (H & _). discriminate. }
  destruct (write_lines buf_capacity (mkBW [] [] (dv_sched dv)) ls) as [w' r'] eqn:E. intros [= <- <-].
  destruct (write_lines_spec buf_capacity ls ltac:(discriminate) HL (mkBW [] [] (dv_sched dv)) w' r' ltac:(discriminate) E) as (A0 & A1 & (q & A2) & A3 & A4).
  simpl in A1, A2. unfold bw_drop. destruct (bw_flush_buf w') as [w2 ok2] eqn:E2. simpl.
  apply flush_spec in E2. destruct E2 as (B1 & B2 & B3 & B4). repeat split; auto; try discriminate.
  - intros _. exists (bw_file w2), (bw_buf w2 ++ q). split; auto. split.
    + rewrite A2, <- B1, <- app_assoc. auto.
    + intros Hr. specialize (A1 Hr). rewrite A1 in A2. assert (q = []) as ->.
      { assert (List.length (flat_map line_text ls) = List.length (flat_map line_text ls ++ q)) as HL2 by congruence.
        rewrite app_length in HL2. destruct q; auto. simpl in HL2. lia. }
      rewrite app_nil_r. lia.
  - destruct H as (_ & H). destruct (A4 H) as (Hr & Hg). specialize (A1 Hr). destruct (B4 Hg) as (-> & _).
    rewrite (B2 eq_refl), app_nil_r in B1. rewrite B1, A1. auto.
  - destruct H as (_ & H). apply A4; auto.
Qed.
