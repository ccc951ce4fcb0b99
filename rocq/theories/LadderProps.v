(** * LadderProps: with limited searches stored weights can double at every level *)
From Verif Require Export Shape.
From Verif Require Export Examples FileProps FileTrunc TraceFacts LimitFacts RelLinear BuildProps SpecLadder.
From Coq Require Import Lia Arith.PeanoNat.
Open Scope N_scope.

Section Edges.
  Variables (L k M : N).
  Hypothesis HM : L + 4 <= M.
  Hypothesis Hk : 2 <= k.

  Definition dead (s : N) : Prop := 3 * L + 2 <= s < 3 * L + 1 + k.
  Definition orig (u v w : N) : Prop := In (mkEdge u v w) (ladder_edges L k M).

  Lemma orig_spec u v w : orig u v w <->
    (u = 0 /\ v = 1 /\ w = M) \/ (u = 1 /\ v = 0 /\ w = M) \/ ((u = 0 \/ u = 1) /\ dead v /\ w = 1) \/
    exists i p, i < L /\ (p = 3 * i + 3 \/ p = 3 * i + 4) /\
      ((u = p /\ v = 3 * i /\ w = 1) \/ (u = 3 * i /\ v = p /\ w = L + 4) \/
       (u = p /\ v = 3 * i + 2 /\ w = L + 3) \/ (u = 3 * i + 2 /\ v = p /\ w = 1)).
  Proof.
    unfold orig, ladder_edges, ladder_base. rewrite !in_app_iff, !in_flat_map. split.
    - intros [[[E|[E|[]]]|(s & Hs & [E|[E|[]]])]|(i & Hi & Hin)]; try (injection E as <- <- <-); auto.
      + unfold ladder_dead_ends in Hs. apply rangeN_In in Hs. right. right. left. auto.
      + unfold ladder_dead_ends in Hs. apply rangeN_In in Hs. right. right. left. auto.
      + apply rangeN_In in Hi. right. right. right. apply in_app_iff in Hin as [Hin|Hin];
          destruct Hin as [E|[E|[E|[E|[]]]]]; injection E as <- <- <-.
        all: first [exists i, (3 * i + 3); split; [lia|]; split; [lia|]; intuition lia
                   |exists i, (3 * i + 4); split; [lia|]; split; [lia|]; intuition lia].
    - intros [(-> & -> & ->)|[(-> & -> & ->)|[([-> | ->] & Hs & ->)|(i & p & Hi & Hp & Hu)]]].
      + left. left. left. auto.
      + left. left. right. left. auto.
      + left. right. exists v. split; [apply rangeN_In; exact Hs|left; auto].
      + left. right. exists v. split; [apply rangeN_In; exact Hs|right; left; auto].
      + right. exists i. split; [apply rangeN_In; lia|]. apply in_app_iff.
        destruct Hp as [-> | ->]; [left|right]; destruct Hu as [(-> & -> & ->)|[(-> & -> & ->)|[(-> & -> & ->)|(-> & -> & ->)]]];
          unfold ladder_side; simpl; auto 6.
  Qed.

  Ltac orig_cases H := apply orig_spec in H as
    [(? & ? & ?)|[(? & ? & ?)|[([?|?] & ? & ?)|(?j & ?p & ? & [?|?] & [(? & ? & ?)|[(? & ? & ?)|[(? & ? & ?)|(? & ? & ?)]]])]]].

  Lemma orig_fun u v w w' : orig u v w -> orig u v w' -> w = w'.
  Proof. intros A B. orig_cases A; orig_cases B; unfold dead in *; lia. Qed.
  Lemma orig_ok u v w : orig u v w -> u <> v /\ 1 <= w /\ u < 3 * L + 1 + k /\ v < 3 * L + 1 + k /\ w <= M.
  Proof. intros A. orig_cases A; unfold dead in *; lia. Qed.

  Section Level.
    Variable i : N.
    Hypothesis Hi : i < L.
    Lemma to_a p w : 3 * i + 2 <= p < 3 * L + 2 -> orig p (3 * i) w -> (p = 3 * i + 3 \/ p = 3 * i + 4) /\ w = 1.
    Proof. intros Hp A. orig_cases A; unfold dead in *; lia. Qed.
    Lemma to_b p w : 3 * i + 2 <= p < 3 * L + 2 -> ~ orig p (3 * i + 1) w.
    Proof. intros Hp A. orig_cases A; unfold dead in *; lia. Qed.
    Lemma from_u q w : orig (3 * i + 3) q w -> (q = 3 * i /\ w = 1) \/ (q = 3 * i + 2 /\ w = L + 3) \/
      ((q = 3 * i + 6 \/ q = 3 * i + 7) /\ w = L + 4 /\ i + 1 < L).
    Proof. intros A. orig_cases A; unfold dead in *; lia. Qed.
    Lemma from_v q w : orig (3 * i + 4) q w -> (q = 3 * i /\ w = 1) \/ (q = 3 * i + 2 /\ w = L + 3).
    Proof. intros A. orig_cases A; unfold dead in *; lia. Qed.
    Lemma from_y q w : orig (3 * i + 2) q w -> (q = 3 * i + 3 \/ q = 3 * i + 4) /\ w = 1.
    Proof. intros A. orig_cases A; unfold dead in *; lia. Qed.
    Lemma from_up p q w : 3 * i + 2 <= p < 3 * L + 2 -> orig p q w -> q = 3 * i \/ 3 * i + 2 <= q < 3 * L + 2.
    Proof. intros Hp A. orig_cases A; unfold dead in *; lia. Qed.
    Lemma side_edges p : p = 3 * i + 3 \/ p = 3 * i + 4 ->
      orig p (3 * i) 1 /\ orig (3 * i) p (L + 4) /\ orig p (3 * i + 2) (L + 3) /\ orig (3 * i + 2) p 1.
    Proof. intros Hp. repeat split; apply orig_spec; right; right; right; exists i, p; split; auto; split; auto; tauto. Qed.
  End Level.
End Edges.

Lemma path_first {R u v W} : path R u v W -> (v = u /\ W = 0) \/ exists q w W', R u q w /\ path R q v W' /\ W = w + W'.
Proof. intros [|a b d w W' A P]; [auto|]. right. exists b, w, W'. auto. Qed.
Lemma path_potential (R : N -> N -> N -> Prop) (phi : N -> N) : (forall a b w, R a b w -> phi b <= phi a + w) ->
  forall u v W, path R u v W -> phi v <= phi u + W.
Proof. intros Hs u v W P. induction P as [|a b d w W A P IH]; [lia|]. specialize (Hs _ _ _ A). lia. Qed.
Lemma path_closed (R : N -> N -> N -> Prop) (S : N -> Prop) : (forall a b w, S a -> R a b w -> S b) ->
  forall u v W, path R u v W -> S u -> S v.
Proof. intros Hs u v W P. induction P as [|a b d w W A P IH]; eauto. Qed.

Section Ladder.
  Variables (c : cfg) (H : heap_ops) (hinv : list HeapItem -> Prop).
  Hypothesis HL : heap_laws H hinv.
  Hypothesis Hdbg : debug_build c = true.
  Variables (L k M : N).
  Hypothesis HM : L + 4 <= M.
  Hypothesis Hk : 2 <= k.
  Let n := 3 * L + 1 + k.
  Hypothesis Hn : n <= umax c.
  Hypothesis Hu : 2 * L + 6 <= umax c.
  Local Notation dead := (dead L k).
  Local Notation orig := (orig L k M).
  Local Notation F := (rung_weight L M).

  Lemma rung_0 : F 0 = M.
  Proof. unfold rung_weight. rewrite N.pow_0_r. lia. Qed.
  Lemma rung_next i : F (i + 1) = 2 * F i + L + 5.
  Proof.
    unfold rung_weight. rewrite N.pow_add_r, N.pow_1_r.
    assert (L + 5 <= (M + L + 5) * 2 ^ i) as G; [|lia].
    assert (1 <= 2 ^ i) as G by (pose proof (N.pow_nonzero 2 i); lia).
    replace (L + 5) with ((L + 5) * 1) at 1 by lia. apply N.mul_le_mono; lia.
  Qed.
  Lemma rung_ge i : M <= F i.
  Proof. induction i as [|i IH] using N.peano_ind; [rewrite rung_0; lia|]. rewrite <- N.add_1_r, rung_next. lia. Qed.
  Lemma rung_mono i j : i <= j -> F i <= F j.
  Proof.
    induction j as [|j IH] using N.peano_ind; intros Hij; [assert (i = 0) as -> by lia; lia|].
    destruct (N.eq_dec i (N.succ j)) as [->|]; [lia|]. assert (F i <= F j) by (apply IH; lia).
    rewrite <- N.add_1_r, rung_next. lia.
  Qed.

  Lemma no_arcs_row g0 x p gr s q w : rowgraph0 n g0 x p gr -> (forall q w, ~ arel g0 s q w) -> ~ arel gr s q w.
  Proof.
    intros (_ & _ & Ho) Hd A. destruct (Ho _ _ _ A) as [B|(_ & w1 & w2 & B & _)]; exact (Hd _ _ B).
  Qed.
  Lemma own_row g0 x p gr q w : rowgraph0 n g0 x p gr -> arel gr p q w -> arel g0 p q w.
  Proof. intros (_ & _ & Ho) A. destruct (Ho _ _ _ A) as [|(X & _)]; congruence. Qed.
  Lemma dead_list : NoDup (ladder_dead_ends L k) /\ lenN (ladder_dead_ends L k) = k - 1 /\
    forall s, In s (ladder_dead_ends L k) <-> dead s.
  Proof.
    split; [apply rangeN_NoDup|]. split; [unfold ladder_dead_ends; rewrite lenN_rangeN; lia|].
    intros s. unfold ladder_dead_ends. rewrite rangeN_In. reflexivity.
  Qed.

  (** From [p] the dead ends are settled first, and nothing else can be settled then. *)
  Lemma hidden_by_dead g0 x p q limit D gr : rowgraph0 n g0 x p gr ->
    (forall s, dead s -> exists w, w <= D /\ arel g0 p s w) ->
    (forall q w, arel g0 p q w -> dead q \/ L + 3 <= w) ->
    (forall s q w, dead s -> ~ arel g0 s q w) ->
    p <> x -> ~ dead x -> ~ dead p -> D < L + 3 -> (forall w, ~ arel g0 p q w) ->
    hidden c k gr p x q limit.
  Proof.
    intros Hr Hs Hl Hd Hpx Hdx Hdp HD Hq m w A. right.
    destruct dead_list as (Hnd & Hlen & Hin). exists D, (p :: ladder_dead_ends L k).
    split; [constructor; auto; rewrite Hin; auto|]. split; [rewrite lenN_cons; lia|]. split; [lia|]. split.
    - intros z [<-|Hz]; [exists 0; split; [lia|constructor]|]. apply Hin in Hz. destruct (Hs z Hz) as (w' & Hw & B).
      destruct Hr as (_ & Hle & _). destruct (Hle _ _ _ B) as (w2 & B2 & Hw2). exists (w2 + 0). split; [lia|].
      econstructor; [|constructor]. split; auto. split; auto. intros ->. auto.
    - intros W P. destruct (path_first P) as [(-> & _)|(q' & w' & W' & (B & _) & P' & ->)].
      + destruct A as (A & _). destruct (Hq w). eapply own_row; eauto.
      + apply (own_row _ _ _ _ _ _ Hr) in B. destruct (Hl _ _ B) as [G|G]; [|lia]. exfalso.
        destruct (path_first P') as [(-> & _)|(q2 & w2 & W2 & (B2 & _) & _)].
        * destruct A as (A & _). eapply no_arcs_row; eauto.
        * eapply no_arcs_row; eauto.
  Qed.

  Record rung (i : N) (g : PrepGraph) : Prop := mk_rung {
    rg_dead : forall p s, p = 3 * i \/ p = 3 * i + 1 -> dead s -> exists w, w <= i + 1 /\ arel g p s w;
    rg_light : forall p q w, p = 3 * i \/ p = 3 * i + 1 -> arel g p q w -> dead q \/ L + 3 <= w;
    rg_end : forall s q w, dead s -> ~ arel g s q w;
    rg_up : forall p q w, 3 * i + 2 <= p < 3 * L + 2 -> arel g p q w <-> orig p q w;
    rg_next : i < L -> arel g (3 * i) (3 * i + 3) (L + 4) /\ arel g (3 * i) (3 * i + 4) (L + 4);
    rg_rung : arel g (3 * i) (3 * i + 1) (F i) /\ arel g (3 * i + 1) (3 * i) (F i);
    rg_to_a : forall q w, arel g (3 * i) q w -> q < 3 * i + 5 \/ dead q;
    rg_to_b : forall q w, arel g (3 * i + 1) q w -> q < 3 * i + 2 \/ dead q
  }.

  (** between the contractions of the two sides of rung [i] *)
  Record half (i : N) (g : PrepGraph) : Prop := mk_half {
    hf_dead : forall p s, p = 3 * i + 3 \/ p = 3 * i + 4 -> dead s -> exists w, w <= i + 2 /\ arel g p s w;
    hf_light : forall p q w, p = 3 * i + 3 \/ p = 3 * i + 4 -> arel g p q w -> dead q \/ L + 3 <= w;
    hf_end : forall s q w, dead s -> ~ arel g s q w;
    hf_up : forall p q w, 3 * i + 5 <= p < 3 * L + 2 -> arel g p q w <-> orig p q w;
    hf_next : i + 1 < L -> arel g (3 * i + 3) (3 * i + 6) (L + 4) /\ arel g (3 * i + 3) (3 * i + 7) (L + 4);
    hf_in : arel g (3 * i + 3) (3 * i + 1) (1 + F i) /\ arel g (3 * i + 4) (3 * i + 1) (1 + F i);
    hf_out : arel g (3 * i + 1) (3 * i + 3) (F i + (L + 4)) /\ arel g (3 * i + 1) (3 * i + 4) (F i + (L + 4));
    hf_uv : forall w, ~ arel g (3 * i + 3) (3 * i + 4) w /\ ~ arel g (3 * i + 4) (3 * i + 3) w;
    hf_to_u : forall q w, arel g (3 * i + 3) q w -> q < 3 * i + 8 \/ dead q;
    hf_to_v : forall q w, arel g (3 * i + 4) q w -> q < 3 * i + 5 \/ dead q;
    hf_to_b : forall q w, arel g (3 * i + 1) q w -> q < 3 * i + 5 \/ dead q;
    hf_no_b : forall p w, 3 * i + 5 <= p -> ~ arel g p (3 * i + 1) w
  }.

  Lemma up_not_dead p : p < 3 * L + 2 -> ~ dead p.
  Proof. unfold LadderProps.dead. lia. Qed.
  Lemma dead_ge s : dead s -> 3 * L + 2 <= s.
  Proof. unfold LadderProps.dead. lia. Qed.

  Section StepA.
    Variables (i : N) (g : PrepGraph).
    Hypothesis Hi : i < L.
    Hypothesis W : pg_wf n g.
    Hypothesis R : rung i g.
    Local Notation a := (3 * i).
    Local Notation b := (3 * i + 1).
    Local Notation y := (3 * i + 2).
    Local Notation isuv p := (p = 3 * i + 3 \/ p = 3 * i + 4).

    Lemma a_from_uv p w : isuv p -> arel g p a w <-> w = 1.
    Proof.
      intros Hp. rewrite (rg_up _ _ R) by lia. split.
      - intros A. apply to_a in A; lia.
      - intros ->. apply side_edges; auto.
    Qed.
    Lemma a_from_other p w : 3 * i + 2 <= p < 3 * L + 2 -> ~ isuv p -> ~ arel g p a w.
    Proof. intros Hp Hne A. apply (rg_up _ _ R) in A; [|lia]. apply to_a in A; auto; tauto. Qed.
    Lemma uv_row gr p q w : isuv p -> rowgraph0 n g a p gr -> arelx gr a p q w ->
      (q = y /\ w = L + 3) \/ (L + 4 <= w /\ 3 * i + 6 <= q < 3 * L + 2).
    Proof.
      intros Hp Hr (A & _ & Hq). apply (own_row _ _ _ _ _ _ Hr) in A. apply (rg_up _ _ R) in A; [|lia].
      destruct Hp as [-> | ->]; [apply from_u in A|apply from_v in A]; auto; lia.
    Qed.
    Lemma y_row gr p q w : rowgraph0 n g a p gr -> arel gr y q w -> isuv q /\ w = 1.
    Proof.
      intros (_ & _ & Ho) A. destruct (Ho _ _ _ A) as [B|(_ & w1 & w2 & B & _)].
      - apply (rg_up _ _ R) in B; [|lia]. apply from_y in B; auto.
      - apply a_from_other in B; lia.
    Qed.

    Lemma miss_dead p s : isuv p -> dead s -> always_missed0 c n k g a p s.
    Proof.
      intros Hp Hs. destruct (rg_dead _ _ R a s (or_introl eq_refl) Hs) as (wq & Hw & B).
      exists 1, wq. split; [apply a_from_uv; auto|]. split; auto. pose proof (dead_ge _ Hs).
      split; [lia|]. split; [lia|]. intros gr Hr m w A. left. intros W' P.
      destruct (path_first P) as [(-> & _)|(q' & w' & W2 & B' & P' & ->)].
      - apply (uv_row gr p s w Hp Hr) in A. lia.
      - apply (uv_row gr p q' w' Hp Hr) in B'. lia.
    Qed.

    Lemma miss_b p : isuv p -> F i + (L + 4) < umax c -> always_missed c n k g a p b.
    Proof.
      intros Hp HF. exists 1, (F i). split; [apply a_from_uv; auto|]. split; [apply (rg_rung _ _ R)|].
      split; [lia|]. split; [lia|]. intros gr (Hr & Hcomp) m w A.
      set (p' := 3 * i + 3 + (3 * i + 4) - p). assert (isuv p' /\ p' <> p) as (Hp' & Hne) by lia. clearbody p'.
      assert (forall q w, 3 * i + 2 <= q < 3 * L + 2 -> ~ isuv q -> arel gr q a w -> False) as Hna.
      { intros q w0 Hq Hq' B. destruct Hr as (_ & _ & Ho). destruct (Ho _ _ _ B) as [B'|(_ & w1 & w2 & _ & B' & _)].
        - eapply a_from_other; eauto.
        - destruct B' as (kk & B'). apply (wf_arc _ _ W) in B'. simpl in B'. tauto. }
      assert (forall q r w0, 3 * i + 2 <= q < 3 * L + 2 -> q <> p' -> arelx gr a q r w0 -> 3 * i + 2 <= r < 3 * L + 2) as Hup.
      { intros q r w0 Hq Hq' (B & _ & Hra). destruct Hr as (_ & _ & Ho).
        assert (arel g q r w0) as B'.
        { destruct (Ho _ _ _ B) as [B'|(Hqp & w1 & w2 & B' & _)]; auto. exfalso. eapply (a_from_other q); eauto; lia. }
        apply (rg_up _ _ R) in B'; [|lia]. apply from_up with (i := i) in B'; auto; lia. }
      destruct (Hcomp p') as [Hun|Hco].
      - (* nothing but upper nodes can be reached *)
        left. intros W' P. exfalso.
        assert (forall q r w0, 3 * i + 2 <= q < 3 * L + 2 -> arelx gr a q r w0 -> 3 * i + 2 <= r < 3 * L + 2) as Hup'.
        { intros q r w0 Hq B. destruct (N.eq_dec q p') as [->|]; [|eauto]. destruct B as (B & _ & Hra).
          apply Hun in B. apply (rg_up _ _ R) in B; [|lia]. apply from_up with (i := i) in B; auto; lia. }
        assert (3 * i + 2 <= m < 3 * L + 2) as Hm.
        { eapply (path_closed _ (fun q => 3 * i + 2 <= q < 3 * L + 2)); [intros; eapply Hup'; eauto|exact P|lia]. }
        specialize (Hup' _ _ _ Hm A). lia.
      - set (phi := fun q => if q =? p then 0 else if q <? 3 * i + 2 then 2 * L + 7 else L + 3).
        assert (forall q r w0, arelx gr a q r w0 -> phi r <= phi q + w0) as Hphi.
        { intros q r w0 B. unfold phi.
          destruct (N.eqb_spec q p) as [->|Hqp].
          { apply (uv_row gr p r w0 Hp Hr) in B. destruct (N.eqb_spec r p); [lia|]. destruct (N.ltb_spec r (3 * i + 2)); lia. }
          destruct (N.eqb_spec r p); [lia|]. destruct (N.ltb_spec r (3 * i + 2)) as [Hlow|]; [|destruct (q <? 3 * i + 2); lia].
          destruct (N.ltb_spec q (3 * i + 2)); [lia|].
          destruct (N.eq_dec q p') as [->|Hqp'].
          - destruct B as (B & _ & Hra). destruct Hr as (_ & _ & Ho). destruct (Ho _ _ _ B) as [B'|(_ & w1 & w2 & B1 & B2 & ->)].
            + apply (rg_up _ _ R) in B'; [|lia]. apply from_up with (i := i) in B'; auto; lia.
            + apply a_from_uv in B1; auto. apply (rg_light _ _ R) in B2; [|auto]. destruct B2 as [B2|B2]; [|lia].
              apply dead_ge in B2. lia.
          - destruct (N.lt_ge_cases q (3 * L + 2)) as [Hq|Hq].
            + specialize (Hup q r w0). specialize (Hup ltac:(lia) Hqp' B). lia.
            + exfalso. destruct B as (B & _). assert (dead q) as Hd.
              { destruct Hr as (Wr & _). destruct B as (kk & B). pose proof (outs_src _ _ _ _ _ _ Wr B).
                unfold LadderProps.dead. unfold n in *. lia. }
              revert B. eapply no_arcs_row; eauto. intros; eapply rg_end; eauto. }
        destruct (N.eq_dec m p') as [->|Hmp'].
        + left. intros W' P. apply (path_potential _ _ Hphi) in P. unfold phi in P. rewrite N.eqb_refl in P.
          destruct (N.eqb_spec p' p); [tauto|]. destruct (N.ltb_spec p' (3 * i + 2)); [lia|].
          destruct A as (A & _). destruct Hr as (_ & _ & Ho). destruct (Ho _ _ _ A) as [B|(_ & w1 & w2 & B1 & B2 & ->)].
          * apply (rg_up _ _ R) in B; [|lia]. exfalso. eapply to_b; [| | | |exact B]; auto; lia.
          * apply a_from_uv in B1; auto. pose proof (proj1 (rg_rung _ _ R)) as B3. rewrite (arel_fun n g a b w2 (F i) W B2 B3).
            lia.
        + destruct (N.lt_ge_cases m (3 * i + 2)) as [Hlow|Hm].
          * right. destruct dead_list as (Hnd & Hlen & Hin). exists (2 * L + 6), (p :: ladder_dead_ends L k).
            split; [constructor; auto; rewrite Hin; apply up_not_dead; lia|]. split; [rewrite lenN_cons; lia|].
            split; [pose proof (rung_ge i); lia|]. split.
            -- intros z [<-|Hz]; [exists 0; split; [lia|constructor]|]. apply Hin in Hz.
               destruct (Hco z (miss_dead p' z Hp' Hz)) as (w2 & wp & wq & C1 & C2 & C3 & Hw2).
               apply a_from_uv in C2; auto. subst wp.
               destruct (rg_dead _ _ R a z (or_introl eq_refl) Hz) as (wq' & Hwq & C4).
               rewrite (arel_fun n g a z _ _ W C3 C4) in Hw2.
               pose proof Hr as (Wr & Hle & _).
               assert (arel g p y (L + 3)) as C5 by (apply (rg_up _ _ R); [lia|]; apply side_edges; auto).
               assert (arel g y p' 1) as C6 by (apply (rg_up _ _ R); [lia|]; apply side_edges; auto).
               destruct (Hle _ _ _ C5) as (w5 & D5 & Hw5). destruct (Hle _ _ _ C6) as (w6 & D6 & Hw6).
               pose proof (dead_ge _ Hz).
               exists (w5 + (w6 + (w2 + 0))). split; [lia|].
               econstructor; [split; [exact D5|]; lia|]. econstructor; [split; [exact D6|]; lia|].
               econstructor; [split; [exact C1|]; lia|]. constructor.
            -- intros W' P. apply (path_potential _ _ Hphi) in P. unfold phi in P. rewrite N.eqb_refl in P.
               destruct (N.eqb_spec m p); [lia|]. destruct (N.ltb_spec m (3 * i + 2)); lia.
          * exfalso. destruct (N.lt_ge_cases m (3 * L + 2)) as [Hm2|Hm2].
            -- specialize (Hup m b w ltac:(lia) Hmp' A). lia.
            -- destruct A as (B & _). assert (dead m) as Hd.
               { destruct Hr as (Wr & _). destruct B as (kk & B). pose proof (outs_src _ _ _ _ _ _ Wr B).
                 unfold LadderProps.dead. unfold n in *. lia. }
               revert B. eapply no_arcs_row; eauto. intros; eapply rg_end; eauto.
    Qed.

    Lemma miss_out q : isuv q -> F i + (L + 4) < umax c -> always_missed0 c n k g a b q.
    Proof.
      intros Hq HF. exists (F i), (L + 4). split; [apply (rg_rung _ _ R)|].
      split; [destruct (rg_next _ _ R Hi); destruct Hq as [-> | ->]; auto|]. split; [lia|]. split; [lia|].
      intros gr Hr. eapply (hidden_by_dead g a b q _ (i + 1) gr Hr).
      - intros s. apply (rg_dead _ _ R). auto.
      - intros q' w'. apply (rg_light _ _ R). auto.
      - apply (rg_end _ _ R).
      - lia.
      - apply up_not_dead. lia.
      - apply up_not_dead. lia.
      - lia.
      - intros w A. apply (rg_to_b _ _ R) in A as [A|A]; [lia|]. apply dead_ge in A. lia.
    Qed.

    Lemma found_uv p q : isuv p -> isuv q -> p <> q -> always_found c n k g a p q.
    Proof.
      intros Hp Hq Hne. exists 1, (L + 4). split; [apply a_from_uv; auto|].
      split; [destruct (rg_next _ _ R Hi); destruct Hq as [-> | ->]; auto|]. split; auto. split; [lia|].
      intros gr (Hr & _). pose proof Hr as (Wr & Hle & _).
      assert (arel g p y (L + 3)) as C5 by (apply (rg_up _ _ R); [lia|]; apply side_edges; auto).
      assert (arel g y q 1) as C6 by (apply (rg_up _ _ R); [lia|]; apply side_edges; auto).
      destruct (Hle _ _ _ C5) as (w5 & D5 & Hw5). destruct (Hle _ _ _ C6) as (w6 & D6 & Hw6).
      assert (arelx gr a p y w5) as X5 by (split; [exact D5|lia]).
      assert (arelx gr a y q w6) as X6 by (split; [exact D6|lia]).
      assert (w5 = L + 3) by (apply (uv_row gr p y w5 Hp Hr) in X5; lia). subst w5.
      exists y, (L + 3), w6. split; auto. split; auto. split; [lia|].
      intros m W' P. destruct (path_first P) as [(-> & _)|(q' & w' & W2 & B' & P' & ->)]; [auto|]. right.
      apply (uv_row gr p q' w' Hp Hr) in B' as [(-> & ->)|]; [|lia].
      destruct (path_first P') as [(-> & _)|(q2 & w2 & W3 & (B2 & _) & _ & ->)]; [auto|]. right.
      apply (y_row gr p q2 w2 Hr) in B2. lia.
    Qed.

    Lemma step_a ws g' ws' : ws_base n ws -> F i + (L + 4) < umax c -> contract_node c H g ws a k = Ok (g', ws') ->
      pg_wf n g' /\ ws_base n ws' /\ half i g'.
    Proof.
      intros Hb HF E.
      destruct (contract_lim c H hinv HL Hdbg n Hn k Hk g a ws g' ws' W Hb E) as (W' & Hb' & Hkeep & Hor & Hmi & Hfo & _).
      split; auto. split; auto.
      assert (forall p q w, isuv p -> arel g' p q w ->
        (q = y /\ w = L + 3) \/ (p = 3 * i + 3 /\ (q = 3 * i + 6 \/ q = 3 * i + 7) /\ w = L + 4 /\ i + 1 < L) \/
        (exists w2, arel g a q w2 /\ w = 1 + w2)) as Huv.
      { intros p q w Hp A. destruct (Hor _ _ _ A) as (Hpa & Hqa & [B|(w1 & w2 & B1 & B2 & ->)]).
        - apply (rg_up _ _ R) in B; [|lia]. destruct Hp as [-> | ->]; [apply from_u in B|apply from_v in B]; auto; lia.
        - apply a_from_uv in B1; auto. subst. right. right. eauto. }
      assert (forall p q w, 3 * i + 5 <= p < 3 * L + 2 -> arel g' p q w -> orig p q w) as Hups.
      { intros p q w Hp A. destruct (Hor _ _ _ A) as (Hpa & Hqa & [B|(w1 & w2 & B1 & B2 & ->)]).
        - apply (rg_up _ _ R) in B; auto. lia.
        - apply a_from_other in B1; lia. }
      assert (forall p, isuv p -> arel g a p (L + 4)) as Hnext.
      { intros p Hp. destruct (rg_next _ _ R Hi); destruct Hp as [-> | ->]; auto. }
      assert (forall s q w, dead s -> ~ arel g' s q w) as Hend.
      { intros s q w Hs A. apply Hor in A as (_ & _ & [B|(w1 & w2 & B & _)]); eapply (rg_end _ _ R); eauto. }
      constructor; auto.
      - intros p s Hp Hs. destruct (Hmi p s (missed0_missed _ _ _ _ _ _ _ (miss_dead p s Hp Hs))) as (w & wp & wq & A & B1 & B2 & Hw).
        apply a_from_uv in B1; auto. destruct (rg_dead _ _ R a s (or_introl eq_refl) Hs) as (wq' & Hwq & C4).
        rewrite (arel_fun n g a s _ _ W B2 C4) in Hw. exists w. split; auto. lia.
      - intros p q w Hp A. apply Huv in A as [A|[A|(w2 & A & ->)]]; auto; try lia.
        apply (rg_light _ _ R) in A; auto. destruct A; [auto|lia].
      - intros p q w Hp. split; [apply Hups; lia|]. intros A.
        assert (q <> a) as Hq by (intros ->; apply to_a in A; auto; lia).
        pose proof A as B. apply (rg_up _ _ R) in B; [|lia]. destruct (Hkeep _ _ _ B) as (w' & C & _); [lia|auto|].
        pose proof (Hups _ _ _ Hp C) as D. rewrite (orig_fun L k M HM Hk _ _ _ _ A D). auto.
      - intros HiL.
        assert (forall q, q = 3 * i + 6 \/ q = 3 * i + 7 -> arel g' (3 * i + 3) q (L + 4)) as G; [|split; apply G; auto].
        intros q Hq. assert (orig (3 * i + 3) q (L + 4)) as A.
        { replace (3 * i + 3) with (3 * (i + 1)) by lia. apply side_edges; lia. }
        pose proof A as B. apply (rg_up _ _ R) in B; [|lia]. destruct (Hkeep _ _ _ B) as (w' & C & _); [lia|lia|].
        pose proof (Huv (3 * i + 3) q w' (or_introl eq_refl) C) as [D|[D|(w2 & D & _)]]; [lia| |].
        + replace (L + 4) with w' by lia. auto.
        + apply (rg_to_a _ _ R) in D as [D|D]; [lia|apply dead_ge in D; lia].
      - assert (forall p, isuv p -> arel g' p b (1 + F i)) as G; [|split; apply G; auto].
        intros p Hp. destruct (Hmi p b (miss_b p Hp HF)) as (w & _ & _ & A & _).
        pose proof (Huv p b w Hp A) as [D|[D|(w2 & D & ->)]]; [lia|lia|].
        rewrite (arel_fun n g a b _ _ W D (proj1 (rg_rung _ _ R))) in A. auto.
      - assert (forall p, isuv p -> arel g' b p (F i + (L + 4))) as G; [|split; apply G; auto].
        intros p Hp. destruct (Hmi b p (missed0_missed _ _ _ _ _ _ _ (miss_out p Hp HF))) as (w & _ & _ & A & _).
        destruct (Hor _ _ _ A) as (_ & _ & [D|(w1 & w2 & D1 & D2 & ->)]).
        + apply (rg_to_b _ _ R) in D as [D|D]; [lia|apply dead_ge in D; lia].
        + rewrite (arel_fun n g b a _ _ W D1 (proj2 (rg_rung _ _ R))), (arel_fun n g a p _ _ W D2 (Hnext p Hp)) in A. auto.
      - intros w. split; intros A; apply Hfo in A; try (apply found_uv; lia); apply (rg_up _ _ R) in A; try lia.
        + apply from_u in A; auto; lia.
        + apply from_v in A; auto; lia.
      - intros q w A. apply Huv in A as [A|[A|(w2 & A & _)]]; auto; try lia. apply (rg_to_a _ _ R) in A. intuition lia.
      - intros q w A. apply Huv in A as [A|[A|(w2 & A & _)]]; auto; try lia. apply (rg_to_a _ _ R) in A. intuition lia.
      - intros q w A. destruct (Hor _ _ _ A) as (_ & _ & [D|(w1 & w2 & _ & D & _)]).
        + apply (rg_to_b _ _ R) in D. intuition lia.
        + apply (rg_to_a _ _ R) in D. auto.
      - intros p w Hp A. destruct (N.lt_ge_cases p (3 * L + 2)) as [Hm2|Hm2].
        + apply Hups in A; [|lia]. apply to_b with (i := i) in A; auto. lia.
        + apply Hend in A; auto. destruct A as (kk & B). pose proof (outs_src _ _ _ _ _ _ W' B).
          unfold LadderProps.dead. unfold n in *. lia.
    Qed.
  End StepA.

  Section StepB.
    Variables (i : N) (g : PrepGraph).
    Hypothesis Hi : i < L.
    Hypothesis W : pg_wf n g.
    Hypothesis R : half i g.
    Local Notation b := (3 * i + 1).
    Local Notation isuv p := (p = 3 * i + 3 \/ p = 3 * i + 4).

    Lemma in_b p : isuv p -> arel g p b (1 + F i).
    Proof. destruct (hf_in _ _ R). intros [-> | ->]; auto. Qed.
    Lemma out_b p : isuv p -> arel g b p (F i + (L + 4)).
    Proof. destruct (hf_out _ _ R). intros [-> | ->]; auto. Qed.

    Lemma miss_rung p q : isuv p -> isuv q -> p <> q -> F (i + 1) < umax c -> always_missed0 c n k g b p q.
    Proof.
      intros Hp Hq Hne HF. rewrite rung_next in HF. exists (1 + F i), (F i + (L + 4)).
      split; [apply in_b; auto|]. split; [apply out_b; auto|]. split; auto. split; [lia|].
      intros gr Hr. eapply (hidden_by_dead g b p q _ (i + 2) gr Hr).
      - intros s. apply (hf_dead _ _ R). auto.
      - intros q' w'. apply (hf_light _ _ R). auto.
      - apply (hf_end _ _ R).
      - lia.
      - apply up_not_dead. lia.
      - apply up_not_dead. lia.
      - lia.
      - intros w A. destruct (hf_uv _ _ R w). destruct Hp as [-> | ->], Hq as [-> | ->]; tauto.
    Qed.

    Lemma step_b ws g' ws' : ws_base n ws -> F (i + 1) < umax c -> contract_node c H g ws b k = Ok (g', ws') ->
      pg_wf n g' /\ ws_base n ws' /\ rung (i + 1) g'.
    Proof.
      intros Hb HF E.
      destruct (contract_lim c H hinv HL Hdbg n Hn k Hk g b ws g' ws' W Hb E) as (W' & Hb' & Hkeep & Hor & Hmi & Hfo & _).
      split; auto. split; auto.
      replace (3 * (i + 1)) with (3 * i + 3) in * by lia.
      assert (forall p q w, 3 * i + 5 <= p < 3 * L + 2 -> arel g' p q w -> orig p q w) as Hups.
      { intros p q w Hp A. destruct (Hor _ _ _ A) as (Hpa & Hqa & [B|(w1 & w2 & B1 & B2 & ->)]).
        - apply (hf_up _ _ R) in B; auto.
        - apply (hf_no_b _ _ R) in B1; [tauto|lia]. }
      assert (forall p, p = 3 * (i + 1) \/ p = 3 * (i + 1) + 1 -> isuv p) as Hpq by (intros; lia).
      constructor.
      - intros p s Hp Hs. apply Hpq in Hp. destruct (hf_dead _ _ R p s Hp Hs) as (w & Hw & A). apply dead_ge in Hs.
        destruct (Hkeep _ _ _ A) as (w' & B & Hw'); [lia|lia|]. exists w'. split; auto. lia.
      - intros p q w Hp A. apply Hpq in Hp. destruct (Hor _ _ _ A) as (Hpa & Hqa & [B|(w1 & w2 & B1 & B2 & ->)]).
        + apply (hf_light _ _ R) in B; auto.
        + rewrite (arel_fun n g p b _ _ W B1 (in_b p Hp)). pose proof (rung_ge i). lia.
      - intros s q w Hs A. apply Hor in A as (_ & _ & [B|(w1 & w2 & B & _)]); eapply (hf_end _ _ R); eauto.
      - intros p q w Hp. split; [apply Hups; lia|]. intros A.
        assert (q <> b) as Hq by (intros ->; apply to_b with (i := i) in A; auto; lia).
        pose proof A as B. apply (hf_up _ _ R) in B; [|lia]. destruct (Hkeep _ _ _ B) as (w' & C & _); [lia|auto|].
        assert (orig p q w') as D by (apply Hups; auto; lia). rewrite (orig_fun L k M HM Hk _ _ _ _ A D). auto.
      - intros HiL. assert (forall q, q = 3 * i + 6 \/ q = 3 * i + 7 -> arel g' (3 * i + 3) q (L + 4)) as G.
        { intros q Hq. assert (arel g (3 * i + 3) q (L + 4)) as B by (destruct (hf_next _ _ R HiL); destruct Hq as [-> | ->]; auto).
          destruct (Hkeep _ _ _ B) as (w' & C & _); [lia|lia|].
          destruct (Hor _ _ _ C) as (Hpa & Hqa & [D|(w1 & w2 & _ & D & _)]).
          - rewrite (arel_fun n g _ _ _ _ W B D). auto.
          - apply (hf_to_b _ _ R) in D as [D|D]; [lia|apply dead_ge in D; lia]. }
        replace (3 * (i + 1)) with (3 * i + 3) by lia.
        split; [replace (3 * i + 3 + 3) with (3 * i + 6) by lia|replace (3 * i + 3 + 4) with (3 * i + 7) by lia]; auto.
      - assert (forall p q, isuv p -> isuv q -> p <> q -> arel g' p q (F (i + 1))) as G.
        { intros p q Hp Hq Hne. destruct (Hmi p q (missed0_missed _ _ _ _ _ _ _ (miss_rung p q Hp Hq Hne HF))) as (w & _ & _ & A & _).
          destruct (Hor _ _ _ A) as (_ & _ & [D|(w1 & w2 & D1 & D2 & ->)]).
          - exfalso. destruct (hf_uv _ _ R w). destruct Hp as [-> | ->], Hq as [-> | ->]; tauto.
          - rewrite (arel_fun n g p b _ _ W D1 (in_b p Hp)), (arel_fun n g b q _ _ W D2 (out_b q Hq)) in A.
            rewrite rung_next. replace (2 * F i + L + 5) with (1 + F i + (F i + (L + 4))) by lia. auto. }
        split; apply G; lia.
      - intros q w A. replace (3 * (i + 1)) with (3 * i + 3) in A by lia.
        destruct (Hor _ _ _ A) as (_ & _ & [D|(w1 & w2 & _ & D & _)]).
        + apply (hf_to_u _ _ R) in D. intuition lia.
        + apply (hf_to_b _ _ R) in D. intuition lia.
      - intros q w A. replace (3 * (i + 1) + 1) with (3 * i + 4) in A by lia.
        destruct (Hor _ _ _ A) as (_ & _ & [D|(w1 & w2 & _ & D & _)]).
        + apply (hf_to_v _ _ R) in D. intuition lia.
        + apply (hf_to_b _ _ R) in D. intuition lia.
    Qed.
  End StepB.

  (** ** The contraction loop *)
  Definition contract_step (ord : N) := fun '(fg, g, ws, rank) node =>
    if ord <=? node then Panic (PExplicit "Order contains invalid node id")
    else
      fg' <- store_node c fg g rank node ;;
      '(g', ws') <- contract_node c H g ws node k ;;
      Ok (fg', g', ws', rank + 1).
  Lemma contract_step_Ok m fg g ws rank x fg' g' ws' rank' :
    contract_step m (fg, g, ws, rank) x = Ok (fg', g', ws', rank') ->
    x < m /\ store_node c fg g rank x = Ok fg' /\ contract_node c H g ws x k = Ok (g', ws').
  Proof.
    unfold contract_step. destruct (N.leb_spec m x); [discriminate|]. intros E.
    apply bind_Ok in E as (f1 & E1 & E). apply bind_Ok in E as ([g1 w1] & E2 & E). injection E as <- <- <- <-. auto.
  Qed.

  Lemma climb g0 ws0 fg0 r0 j : pg_wf n g0 -> ws_base n ws0 -> rung 0 g0 -> j <= L -> F j < umax c ->
    forall fg g ws r, foldM (contract_step n) (flat_map (fun i => [3 * i; 3 * i + 1]) (rangeN 0 j)) (fg0, g0, ws0, r0) = Ok (fg, g, ws, r) ->
    pg_wf n g /\ ws_base n ws /\ rung j g.
  Proof.
    intros W0 B0 R0. induction j as [|j IH] using N.peano_ind; intros Hj HF fg g ws r E.
    - rewrite rangeN_nil in E by lia. simpl in E. injection E as <- <- <- <-. auto.
    - rewrite <- N.add_1_r in *. rewrite rangeN_snoc, flat_map_app, foldM_app in E by lia.
      apply bind_Ok in E as ([[[f1 g1] w1] r1] & E1 & E).
      assert (F j < umax c) as HFj by (pose proof (rung_mono j (j + 1)); lia).
      destruct (IH ltac:(lia) HFj _ _ _ _ E1) as (W1 & B1 & R1).
      cbn [flat_map app foldM] in E. apply bind_Ok in E as ([[[f2 g2] w2] r2] & E2 & E).
      apply bind_Ok in E as ([[[f3 g3] w3] r3] & E3 & E). injection E as <- <- <- <-.
      apply contract_step_Ok in E2 as (_ & _ & E2). apply contract_step_Ok in E3 as (_ & _ & E3).
      pose proof (rung_next j) as Hnx.
      destruct (step_a j g1 ltac:(lia) W1 R1 _ _ _ B1 ltac:(lia) E2) as (W2 & B2 & R2).
      exact (step_b j g2 ltac:(lia) W2 R2 _ _ _ B2 HF E3).
  Qed.

  Lemma later_edges m l : forall fg g ws r fg' g' ws' r', pg_wf n g -> ws_base n ws -> m <= n ->
    foldM (contract_step m) l (fg, g, ws, r) = Ok (fg', g', ws', r') ->
    exists more, fg_edges fg' Fwd = fg_edges fg Fwd ++ more.
  Proof.
    induction l as [|x l IH]; intros fg g ws r fg' g' ws' r' W B Hm E.
    - injection E as <- <- <- <-. exists []. rewrite app_nil_r. auto.
    - cbn [foldM] in E. apply bind_Ok in E as ([[[f1 g1] w1] r1] & E1 & E).
      apply contract_step_Ok in E1 as (Hx & E1 & E2).
      assert (x < n) as Hxn by lia. destruct (store_node_eq c n _ _ _ _ _ W Hxn E1) as (Hs & _).
      destruct (contract_lim c H hinv HL Hdbg n Hn k Hk g x ws g1 w1 W B E2) as (W1 & B1 & _).
      destruct (IH _ _ _ _ _ _ _ _ W1 B1 Hm E) as (more & ->). rewrite (Hs Fwd), <- app_assoc. eauto.
  Qed.

  Definition top_order : list N := [3 * L; 3 * L + 1] ++ map (fun i => 3 * i + 2) (rangeN 0 L) ++ ladder_dead_ends L k.
  Lemma order_split : ladder_order L k = flat_map (fun i => [3 * i; 3 * i + 1]) (rangeN 0 L) ++ top_order.
  Proof.
    unfold ladder_order, top_order. rewrite rangeN_snoc, flat_map_app by lia. rewrite <- app_assoc. reflexivity.
  Qed.

  Lemma top_stored g0 ws0 fg0 r0 fg g ws r : pg_wf n g0 -> ws_base n ws0 -> rung 0 g0 -> F L < umax c ->
    foldM (contract_step n) (ladder_order L k) (fg0, g0, ws0, r0) = Ok (fg, g, ws, r) ->
    In (mkEdge (3 * L) (3 * L + 1) (F L)) (stored (fg_edges fg Fwd)).
  Proof.
    intros W0 B0 R0 HF E. rewrite order_split, foldM_app in E. apply bind_Ok in E as ([[[f1 g1] w1] r1] & E1 & E).
    destruct (climb _ _ _ _ L W0 B0 R0 ltac:(lia) HF _ _ _ _ E1) as (W1 & B1 & R1).
    unfold top_order in E. cbn [app foldM] in E. apply bind_Ok in E as ([[[f2 g2] w2] r2] & E2 & E).
    apply contract_step_Ok in E2 as (Hx & E2 & E3).
    destruct (store_node_eq c n _ _ _ _ _ W1 Hx E2) as (Hs & _).
    destruct (contract_lim c H hinv HL Hdbg n Hn k Hk g1 _ w1 g2 w2 W1 B1 E3) as (W2 & B2 & _).
    destruct (later_edges n ((3 * L + 1) :: map (fun i => 3 * i + 2) (rangeN 0 L) ++ ladder_dead_ends L k) _ _ _ _ _ _ _ _ W2 B2 (N.le_refl _) E) as (more & Em).
    rewrite Em, (Hs Fwd). unfold stored. rewrite !map_app, !in_app_iff. left. right.
    destruct (proj1 (rg_rung _ _ R1)) as (kk & A). rewrite map_map.
    apply in_map_iff. exists (mkArc (3 * L + 1) (F L) kk). split; auto.
  Qed.

  Lemma top_overflows g0 ws0 fg0 r0 : pg_wf n g0 -> ws_base n ws0 -> rung 0 g0 -> 1 <= L ->
    F (L - 1) + (L + 4) < umax c -> umax c < F L ->
    forall s, foldM (contract_step n) (ladder_order L k) (fg0, g0, ws0, r0) <> Ok s.
  Proof.
    intros W0 B0 R0 HL1 HF HF2 [[[fg g] ws] r] E. rewrite order_split, foldM_app in E. apply bind_Ok in E as (s1 & E1 & _).
    assert (L = (L - 1) + 1) as HLe by lia.
    rewrite HLe, rangeN_snoc, flat_map_app, foldM_app in E1 by lia. apply bind_Ok in E1 as ([[[f1 g1] w1] r1] & E1 & E).
    destruct (climb _ _ _ _ (L - 1) W0 B0 R0 ltac:(lia) ltac:(lia) _ _ _ _ E1) as (W1 & B1 & R1).
    cbn [flat_map app foldM] in E. apply bind_Ok in E as ([[[f2 g2] w2] r2] & E2 & E).
    apply bind_Ok in E as ([[[f3 g3] w3] r3] & E3 & _).
    apply contract_step_Ok in E2 as (_ & _ & E2). apply contract_step_Ok in E3 as (_ & _ & E3).
    destruct (step_a (L - 1) g1 ltac:(lia) W1 R1 _ _ _ B1 HF E2) as (W2 & B2 & R2).
    destruct (contract_lim c H hinv HL Hdbg n Hn k Hk g2 _ w2 g3 w3 W2 B2 E3) as (_ & _ & _ & _ & _ & _ & Hov).
    pose proof (rung_next (L - 1)) as Hnx. replace (L - 1 + 1) with L in Hnx by lia.
    specialize (Hov _ _ _ _ (proj1 (hf_in _ _ R2)) (proj2 (hf_out _ _ R2))). lia.
  Qed.
End Ladder.

(** ** The calls *)
Lemma ladder_calls_eq L k M : ladder_calls L k M = add_ops (ladder_edges L k M) ++ [OpFreeze].
Proof. reflexivity. Qed.
Lemma lenN_flat_map2 {A B} (f : A -> list B) m l : (forall a, lenN (f a) = m) -> lenN (flat_map f l) = m * lenN l.
Proof.
  intros Hf. induction l as [|a l IH]; [cbn [flat_map]; change (lenN (@nil B)) with 0; change (lenN (@nil A)) with 0; lia|].
  cbn [flat_map]. rewrite lenN_app, IH, lenN_cons, Hf. rewrite N.mul_add_distr_l. lia.
Qed.
Lemma ladder_edges_len L k M : 1 <= k -> lenN (ladder_edges L k M) = 8 * L + 2 * k.
Proof.
  intros Hk. unfold ladder_edges, ladder_base, ladder_dead_ends.
  rewrite !lenN_app, (lenN_flat_map2 _ 2) by reflexivity. rewrite (lenN_flat_map2 _ 8) by reflexivity.
  rewrite !lenN_rangeN. change (lenN [mkEdge 0 1 M; mkEdge 1 0 M]) with 2. lia.
Qed.
Lemma ladder_accepted L k M e : L + 4 <= M -> 2 <= k ->
  In e (accepted (ladder_calls L k M)) <-> In e (ladder_edges L k M).
Proof.
  intros HM Hk. rewrite ladder_calls_eq, accepted_adds. split; [tauto|]. intros He. split; auto.
  destruct e as [u v w]. apply (orig_ok L k M HM Hk) in He. apply acceptable_spec. cbn. lia.
Qed.
Lemma ladder_frozen c L k M : L + 4 <= M -> 2 <= k -> M <= umax c -> 3 * ladder_nodes L k <= umax c / 2 ->
  exists ig, frozen_graph c (ladder_calls L k M) ig /\ ig_num_nodes ig = ladder_nodes L k.
Proof.
  unfold ladder_nodes. intros HM Hk HMu Hu. pose proof (N.mul_div_le (umax c) 2) as Hh.
  assert (exists ig, frozen_graph c (ladder_calls L k M) ig) as (ig & Hf).
  { pose proof (add_all c (ladder_edges L k M) ig_new eq_refl) as HA.
    rewrite ladder_calls_eq.
    assert (forall e, In e (ladder_edges L k M) -> acceptable e = true /\ e_from e < umax c /\ e_to e < umax c) as He.
    { intros [u v w] He. apply (orig_ok L k M HM Hk) in He. split; [apply acceptable_spec; cbn; lia|]. cbn. lia. }
    pose proof (ladder_edges_len L k M) as Hl.
    eexists. split; [|split].
    - intros o Ho. apply in_app_iff in Ho as [Ho|[<-|[]]]; [|exact I].
      unfold add_ops in Ho. apply in_map_iff in Ho as ([u v w] & <- & Hi). apply (orig_ok L k M HM Hk) in Hi. cbn. lia.
    - rewrite ig_run_app, HA; auto; [reflexivity|]. cbn [ig_edges ig_new]. rewrite Hl by lia. change (lenN (@nil Edge)) with 0. lia.
    - reflexivity. }
  exists ig. split; auto. destruct Hf as (_ & Hr & Hz).
  destruct (C20_nodes_proof c (ladder_calls L k M) ig) as (m & es & Em & _ & _ & _ & Hlt & Hmax); auto.
  { right. intros [u v w] He. apply (ladder_accepted L k M _ HM Hk), (orig_ok L k M HM Hk) in He. cbn. lia. }
  assert (ig_num_nodes ig = m) as ->.
  { unfold ig_get_num_nodes in Em. apply bind_Ok in Em as (u & _ & Em). congruence. }
  assert (In (mkEdge 0 (3 * L + k) 1) (accepted (ladder_calls L k M))) as Hin.
  { apply (ladder_accepted L k M _ HM Hk). change (orig L k M 0 (3 * L + k) 1). apply (orig_spec L k M HM Hk). right. right. left. unfold dead. lia. }
  destruct Hmax as ([u v w] & He & ->); [destruct (accepted _); [destruct Hin|discriminate]|].
  apply (ladder_accepted L k M _ HM Hk), (orig_ok L k M HM Hk) in He. apply Hlt in Hin. cbn in *. lia.
Qed.
Lemma ladder_perm L k : 2 <= k -> permutation_of_nodes (ladder_nodes L k) (ladder_order L k).
Proof.
  intros Hk. unfold ladder_nodes, ladder_order, ladder_dead_ends. split.
  - assert (forall m, NoDup (flat_map (fun i => [3 * i; 3 * i + 1]) (rangeN 0 m)) /\
      forall x, In x (flat_map (fun i => [3 * i; 3 * i + 1]) (rangeN 0 m)) -> exists i, i < m /\ (x = 3 * i \/ x = 3 * i + 1)) as G.
    { intros m. induction m as [|m (IH1 & IH2)] using N.peano_ind.
      - rewrite rangeN_nil by lia. split; [constructor|intros x []].
      - rewrite <- N.add_1_r, rangeN_snoc, flat_map_app by lia. split.
        + apply NoDup_app_intro; auto.
          * cbn. constructor; [intros [X|[]]; lia|]. constructor; [intros []|constructor].
          * intros x Hx [X|[X|[]]]; apply IH2 in Hx as (i & Hi & Hx); lia.
        + intros x Hx. apply in_app_iff in Hx as [Hx|[X|[X|[]]]]; [apply IH2 in Hx as (i & Hi & Hx); exists i; lia| |]; exists m; lia. }
    destruct (G (L + 1)) as (G1 & G2). apply NoDup_app_intro; auto.
    + apply NoDup_app_intro; [apply FinFun.Injective_map_NoDup; [intros x z Hxz; lia|apply rangeN_NoDup]|apply rangeN_NoDup|].
      intros x Hx Hx'. apply in_map_iff in Hx as (i & <- & Hi). rewrite rangeN_In in *. lia.
    + intros x Hx Hx'. apply G2 in Hx as (i & Hi & Hx). apply in_app_iff in Hx' as [Hx'|Hx'].
      * apply in_map_iff in Hx' as (j & <- & Hj). lia.
      * apply rangeN_In in Hx'. lia.
  - intros x. rewrite !in_app_iff, in_flat_map, in_map_iff, rangeN_In. split.
    + intros [(i & Hi & [<-|[<-|[]]])|[(i & <- & Hi)|Hx]]; try (apply rangeN_In in Hi); lia.
    + intros Hx. destruct (N.lt_ge_cases x (3 * L + 2)) as [Hlt|]; [|right; right; lia].
      pose proof (N.div_mod x 3 ltac:(lia)) as D. pose proof (N.mod_lt x 3 ltac:(lia)) as Dl.
      set (q := x / 3) in *. set (r := x mod 3) in *. clearbody q r.
      destruct (N.eq_dec r 2).
      * right. left. exists q. split; [lia|]. apply rangeN_In. lia.
      * left. exists q. split; [apply rangeN_In; lia|]. cbn. lia.
Qed.

Lemma rung_start L k M g : L + 4 <= M -> 2 <= k -> (forall u v w, arel g u v w <-> orig L k M u v w) -> rung L k M 0 g.
Proof.
  intros HM Hk Ho.
  assert (forall p s, p = 3 * 0 \/ p = 3 * 0 + 1 -> dead L k s -> arel g p s 1) as Hd.
  { intros p s Hp Hs. apply Ho, (orig_spec L k M HM Hk). right. right. left. split; [lia|auto]. }
  constructor.
  - intros p s Hp Hs. exists 1. split; [lia|auto].
  - intros p q w Hp A. apply Ho, (orig_spec L k M HM Hk) in A as [A|[A|[A|(i & p' & Hi & Hp' & A)]]]; [lia|lia|tauto|lia].
  - intros s q w Hs A. unfold dead in Hs. apply Ho, (orig_spec L k M HM Hk) in A as [A|[A|[A|(i & p' & Hi & Hp' & A)]]]; lia.
  - intros p q w _. apply Ho.
  - intros HL. split; apply Ho; [apply (side_edges L k M HM Hk 0 HL (3 * 0 + 3))|apply (side_edges L k M HM Hk 0 HL (3 * 0 + 4))]; auto.
  - assert (rung_weight L M 0 = M) as -> by (unfold rung_weight; rewrite N.pow_0_r; lia). split; apply Ho, (orig_spec L k M HM Hk); lia.
  - intros q w A. apply Ho, (orig_spec L k M HM Hk) in A as [A|[A|[A|(i & p' & Hi & Hp' & A)]]]; [lia|lia|tauto|lia].
  - intros q w A. apply Ho, (orig_spec L k M HM Hk) in A as [A|[A|[A|(i & p' & Hi & Hp' & A)]]]; [lia|lia|tauto|lia].
Qed.

Lemma rung_big L M i : M * 2 ^ i <= rung_weight L M i.
Proof.
  unfold rung_weight. assert (1 <= 2 ^ i) as G by (pose proof (N.pow_nonzero 2 i); lia).
  set (x := 2 ^ i) in *. clearbody x. assert (L + 5 <= (L + 5) * x) by (replace (L + 5) with ((L + 5) * 1) at 1 by lia; apply N.mul_le_mono_l; auto).
  replace ((M + L + 5) * x) with (M * x + (L + 5) * x) by lia. lia.
Qed.

(** what a run of prepare_with_order on such a graph does *)
Lemma ladder_run c H hinv L k M ig : debug_build c = true -> heap_laws H hinv -> L + 4 <= M -> 2 <= k ->
  3 * ladder_nodes L k <= umax c / 2 -> frozen_graph c (ladder_calls L k M) ig -> ig_num_nodes ig = ladder_nodes L k ->
  exists g0, pg_wf (ladder_nodes L k) g0 /\ rung L k M 0 g0 /\
    forall fg, prepare_with_order_with_params c H ig (ladder_order L k) (mkParamsWithOrder k) = Ok (inl fg) ->
    exists fg0 fg1 g1 w1 r1, finish_contraction c (ladder_nodes L k) fg1 = Ok fg /\
      foldM (contract_step c H k (ladder_nodes L k)) (ladder_order L k) (fg0, g0, ws_new c (ladder_nodes L k), 0) =
      Ok (fg1, g1, w1, r1).
Proof.
  intros Hd HL HM Hk Hu Hf Hn.
  assert (ig_ok c ig) as Hok by (apply (frozen_graph_ok c (ladder_calls L k M)); auto; left; auto).
  destruct (from_input_ok c ig Hok) as (g0 & E0 & W0 & A0). rewrite Hn in W0.
  exists g0. split; auto. split.
  - apply rung_start; auto. intros u v w. destruct Hf as (_ & Hr & Hz).
    pose proof (run_edges c (ladder_calls L k M) ig Hr Hz u v w) as He. rewrite !(ladder_accepted L k M _ HM Hk) in He.
    fold (orig L k M u v w) in He. split.
    + intros (kk & A). apply A0 in A as (_ & A). apply He in A. tauto.
    + intros A. exists (umax c). apply A0. split; auto. apply He. split; auto. intros w' A'.
      apply (ladder_accepted L k M _ HM Hk) in A'. rewrite (orig_fun L k M HM Hk u v w w' A A'). lia.
  - intros fg E. unfold prepare_with_order_with_params, build_with_order_with_params in E.
    apply bind_Ok in E as (m & Em & E). unfold ig_get_num_nodes in Em. apply bind_Ok in Em as (u & _ & Em). injection Em as <-.
    destruct (negb _); [discriminate|]. apply bind_Ok in E as (fg0 & _ & E). apply bind_Ok in E as (fg' & E & Er). injection Er as <-.
    unfold run_contraction_with_order in E. rewrite E0 in E. cbn [bind] in E. rewrite Hn in E.
    apply bind_Ok in E as ([[[fg1 g1] w1] r1] & E1 & E2). exists fg0, fg1, g1, w1, r1. split; auto.
Qed.

Lemma C79_doubling_proof : forall c H hinv L k M ig fg, debug_build c = true -> heap_laws H hinv ->
  2 <= k -> L + 4 <= M -> 3 * ladder_nodes L k <= umax c / 2 -> rung_weight L M L < umax c ->
  frozen_graph c (ladder_calls L k M) ig -> ig_num_nodes ig = ladder_nodes L k ->
  prepare_with_order_with_params c H ig (ladder_order L k) (mkParamsWithOrder k) = Ok (inl fg) ->
  stored_edge fg (3 * L) (3 * L + 1) (rung_weight L M L).
Proof.
  intros c H hinv L k M ig fg Hd HL Hk HM Hu HF Hf Hn E. pose proof (N.mul_div_le (umax c) 2) as Hh.
  destruct (ladder_run c H hinv L k M ig Hd HL HM Hk Hu Hf Hn) as (g0 & W0 & R0 & Hrun).
  destruct (Hrun fg E) as (fg0 & fg1 & g1 & w1 & r1 & E2 & E1). clear Hrun.
  unfold ladder_nodes in *. left.
  pose proof (finish_stored _ _ _ _ Fwd E2) as Hs. cbn [fg_edges] in Hs. rewrite Hs.
  exact (top_stored c H hinv HL Hd L k M HM Hk ltac:(lia) ltac:(lia) g0 _ fg0 0 fg1 g1 w1 r1 W0 (ws_new_base _ _) R0 HF E1).
Qed.

Lemma C79_overflow_proof : forall c H hinv L k M ig, debug_build c = true -> heap_laws H hinv ->
  2 <= k -> L + 4 <= M -> ladder_nodes L k * ladder_nodes L k <= umax c / 2 ->
  1 <= L -> rung_weight L M (L - 1) + (L + 4) < umax c -> umax c < rung_weight L M L ->
  frozen_graph c (ladder_calls L k M) ig -> ig_num_nodes ig = ladder_nodes L k ->
  prepare_with_order_with_params c H ig (ladder_order L k) (mkParamsWithOrder k) = Panic POverflow.
Proof.
  intros c H hinv L k M ig Hd HL Hk HM Hsq HL1 HF HF2 Hf Hn. pose proof (N.mul_div_le (umax c) 2) as Hh.
  assert (6 <= ladder_nodes L k) as H6 by (unfold ladder_nodes; lia).
  assert (3 * ladder_nodes L k <= umax c / 2) as Hu.
  { etransitivity; [|exact Hsq]. apply N.mul_le_mono_r. lia. }
  destruct (ladder_run c H hinv L k M ig Hd HL HM Hk Hu Hf Hn) as (g0 & W0 & R0 & Hrun).
  assert (ig_ok c ig) as Hok by (apply (frozen_graph_ok c (ladder_calls L k M)); auto; left; auto).
  pose proof (ladder_perm L k Hk) as Hperm. rewrite <- Hn in Hperm.
  pose proof (build_order_str c H hinv HL ig Hok (fun r => r = POverflow) (or_intror eq_refl)) as G.
  rewrite Hn in G. specialize (G ltac:(lia) ltac:(lia) (ladder_order L k) (mkParamsWithOrder k)).
  rewrite <- Hn in G. specialize (G (or_introl (perm_order _ _ Hperm))).
  unfold prepare_with_order_with_params in *.
  destruct (build_with_order_with_params c H ig (ladder_order L k) (mkParamsWithOrder k)) as [[fg|m]|r|] eqn:Eb; simpl in G;
    [|exfalso|subst; auto|contradiction].
  - exfalso. destruct (Hrun fg eq_refl) as (fg0 & fg1 & g1 & w1 & r1 & E2 & E1). unfold ladder_nodes in *.
    exact (top_overflows c H hinv HL Hd L k M HM Hk ltac:(lia) ltac:(lia) g0 _ fg0 0 W0 (ws_new_base _ _) R0 HL1 HF HF2 _ E1).
  - apply (order_inr c H ig (ladder_order L k) (mkParamsWithOrder k) m); auto; [apply Hf|apply perm_len; auto].
Qed.

Lemma C79_detour_proof L k M : 2 <= k -> L + 4 <= M -> 1 <= L ->
  walk (accepted (ladder_calls L k M)) (3 * L) (3 * L + 1) [3 * L; 3 * L - 1; 3 * L + 1] (L + 4).
Proof.
  intros Hk HM HL. assert (L - 1 < L) as Hl by lia.
  pose proof (side_edges L k M HM Hk (L - 1) Hl) as Hs.
  replace (3 * (L - 1) + 3) with (3 * L) in Hs by lia. replace (3 * (L - 1) + 4) with (3 * L + 1) in Hs by lia.
  replace (3 * (L - 1) + 2) with (3 * L - 1) in Hs by lia.
  replace (L + 4) with (L + 3 + (1 + 0)) by lia.
  econstructor; [apply (ladder_accepted L k M _ HM Hk), Hs; auto|].
  econstructor; [apply (ladder_accepted L k M _ HM Hk), Hs; auto|]. constructor.
Qed.

Lemma C79_weights_proof : forall c H hinv L limit M,
  debug_build c = true -> heap_laws H hinv -> 2 <= limit -> L + 4 <= M ->
  3 * ladder_nodes L limit <= umax c / 2 -> rung_weight L M L < umax c ->
  exists ig, frozen_graph c (ladder_calls L limit M) ig /\ ig_num_nodes ig = 3 * L + 1 + limit /\
    permutation_of_nodes (ig_num_nodes ig) (ladder_order L limit) /\
    (forall e, In e (accepted (ladder_calls L limit M)) -> e_weight e <= M) /\
    forall fg, prepare_with_order_with_params c H ig (ladder_order L limit) (mkParamsWithOrder limit) = Ok (inl fg) ->
      exists w, stored_edge fg (3 * L) (3 * L + 1) w /\ M * 2 ^ L <= w.
Proof.
  intros c H hinv L limit M Hd HL Hk HM Hu HF. pose proof (rung_big L M L) as Hb.
  assert (M <= umax c) as HMu.
  { assert (M * 1 <= M * 2 ^ L); [|lia]. apply N.mul_le_mono_l. pose proof (N.pow_nonzero 2 L). lia. }
  destruct (ladder_frozen c L limit M HM Hk HMu Hu) as (ig & Hf & Hn). exists ig. split; auto. split; [exact Hn|].
  split; [rewrite Hn; apply ladder_perm; auto|]. split.
  - intros [u v w] He. apply (ladder_accepted L limit M _ HM Hk) in He. apply (orig_ok L limit M HM Hk) in He. cbn. tauto.
  - intros fg E. exists (rung_weight L M L). split; auto. apply (C79_doubling_proof c H hinv L limit M ig fg); auto.
Qed.

Lemma C79_succeed_proof : forall c H hinv L limit M,
  debug_build c = true -> heap_laws H hinv -> 2 <= limit -> L + 4 <= M ->
  3 * ladder_nodes L limit <= umax c / 2 -> prep_bound c (ladder_nodes L limit) M ->
  exists ig fg w, frozen_graph c (ladder_calls L limit M) ig /\ ig_num_nodes ig = 3 * L + 1 + limit /\
    prepare_with_order_with_params c H ig (ladder_order L limit) (mkParamsWithOrder limit) = Ok (inl fg) /\
    stored_edge fg (3 * L) (3 * L + 1) w /\ M * 2 ^ L <= w.
Proof.
  intros c H hinv L limit M Hd HL Hk HM Hu HB.
  assert (rung_weight L M L < umax c) as HF.
  { destruct HB as (HB & _). unfold rung_weight, ladder_nodes in *.
    assert (2 ^ L * 8 <= 2 ^ (3 * L + 1 + limit + 1)) as Hp.
    { change 8 with (2 ^ 3). rewrite <- N.pow_add_r. apply N.pow_le_mono_r; lia. }
    assert (M * (2 ^ L * 8) <= umax c) as Hq by (etransitivity; [|exact HB]; apply N.mul_le_mono_l; auto).
    assert (1 <= 2 ^ L) as Hz by (pose proof (N.pow_nonzero 2 L); lia).
    set (x := 2 ^ L) in *. clearbody x.
    assert ((M + L + 5) * x <= (M * 3) * x) as Hr by (apply N.mul_le_mono_r; lia).
    assert (M * 1 <= M * x) by (apply N.mul_le_mono_l; auto). lia. }
  destruct (C79_weights_proof c H hinv L limit M Hd HL Hk HM Hu HF) as (ig & Hf & Hn & Hp & Hw & Hs).
  destruct (C14_order_proof c (ladder_calls L limit M) ig M H hinv (ladder_order L limit) (mkParamsWithOrder limit)) as (fg & HE); auto.
  { rewrite Hn. exact HB. }
  destruct (Hs fg HE) as (w & A & B). exists ig, fg, w. auto.
Qed.

Lemma C79_close_proof : forall L limit M, 2 <= limit -> L + 4 <= M -> 1 <= L ->
  exists p, walk (accepted (ladder_calls L limit M)) (3 * L) (3 * L + 1) p (L + 4).
Proof. intros L limit M Hk HM HL. eexists. apply C79_detour_proof; auto. Qed.

Lemma C79_overflow_all_proof : forall c H hinv L limit M,
  debug_build c = true -> heap_laws H hinv -> 2 <= limit -> L + 4 <= M -> 1 <= L ->
  ladder_nodes L limit * ladder_nodes L limit <= umax c / 2 ->
  rung_weight L M (L - 1) + (L + 4) < umax c -> umax c < rung_weight L M L ->
  exists ig, frozen_graph c (ladder_calls L limit M) ig /\ ig_num_nodes ig = 3 * L + 1 + limit /\
    permutation_of_nodes (ig_num_nodes ig) (ladder_order L limit) /\
    prepare_with_order_with_params c H ig (ladder_order L limit) (mkParamsWithOrder limit) = Panic POverflow.
Proof.
  intros c H hinv L limit M Hd HL Hk HM HL1 Hsq HF HF2. pose proof (rung_big L M (L - 1)) as Hb.
  assert (M <= umax c) as HMu.
  { assert (M * 1 <= M * 2 ^ (L - 1)); [|lia]. apply N.mul_le_mono_l. pose proof (N.pow_nonzero 2 (L - 1)). lia. }
  assert (3 * ladder_nodes L limit <= umax c / 2) as Hu.
  { etransitivity; [|exact Hsq]. apply N.mul_le_mono_r. unfold ladder_nodes. lia. }
  destruct (ladder_frozen c L limit M HM Hk HMu Hu) as (ig & Hf & Hn). exists ig. split; auto. split; [exact Hn|].
  split; [rewrite Hn; apply ladder_perm; auto|]. apply (C79_overflow_proof c H hinv L limit M ig); auto.
Qed.

Lemma C79_default_proof : exists ops ig order,
  frozen_graph cfg64 ops ig /\ ig_num_nodes ig = 263 /\ permutation_of_nodes 263 order /\
  (forall e, In e (accepted ops) -> e_weight e <= 1000) /\
  forall H hinv, heap_laws H hinv -> prepare_with_order cfg64 H ig order = Panic POverflow.
Proof.
  assert (54 + 4 <= 1000) as HM by discriminate. assert (2 <= 100) as Hk by discriminate.
  assert (1000 <= umax cfg64) as H1 by discriminate. assert (3 * ladder_nodes 54 100 <= umax cfg64 / 2) as H2 by (vm_compute; discriminate).
  destruct (ladder_frozen cfg64 54 100 1000 HM Hk H1 H2) as (ig & Hf & Hn).
  exists (ladder_calls 54 100 1000), ig, (ladder_order 54 100). split; auto. split; [exact Hn|].
  split; [apply (ladder_perm 54 100); auto|]. split.
  - intros [u v w] He. apply (ladder_accepted 54 100 1000 _ HM Hk) in He. apply (orig_ok 54 100 1000 HM Hk) in He. apply He.
  - intros H hinv HL. unfold prepare_with_order, build_with_order, params_with_order_default.
    apply (C79_overflow_proof cfg64 H hinv 54 100 1000 ig); [reflexivity|exact HL|exact Hk|exact HM| | | | |exact Hf|exact Hn].
    + vm_compute. discriminate.
    + discriminate.
    + vm_compute. reflexivity.
    + vm_compute. reflexivity.
Qed.
