(** * FillFacts: which pairs of nodes get shortcuts, with and without witness searches *)
From Verif Require Export SpecFill TraceFacts OrderProps ShortcutProps GraphProps ReplayProps OverlayProps MetaProps.
From Coq Require Import Permutation.
Open Scope N_scope.

Inductive steps (R : PrepGraph -> N -> PrepGraph -> Prop) : PrepGraph -> list (N * PrepGraph) -> Prop :=
| steps_end g : steps R g []
| steps_next g x g' T : R g x g' -> steps R g' T -> steps R g ((x, g) :: T).

Section Fill.
  Variables (c : cfg) (H : heap_ops) (hinv : list HeapItem -> Prop).
  Hypothesis Hdbg : debug_build c = true.
  Hypothesis HL : heap_laws H hinv.
  Variable n : N.
  Hypothesis Hn : n <= umax c.

  Lemma order_steps (R : PrepGraph -> N -> PrepGraph -> Prop) maxs :
    (forall g ws x g' ws', pg_wf n g -> ws_base n ws -> contract_node c H g ws x maxs = Ok (g', ws') ->
       R g x g' /\ pg_wf n g' /\ ws_base n ws') ->
    forall L fg g ws k fg' g' ws' k', pg_wf n g -> ws_base n ws ->
    foldM (order_body c H n maxs) L (fg, g, ws, k) = Ok (fg', g', ws', k') ->
    exists T, map fst T = L /\ saved c fg k T fg' /\ (forall p, In p T -> pg_wf n (snd p)) /\ steps R g T.
  Proof.
    intros HR. induction L as [|x L IH]; intros fg g ws k fg' g' ws' k' W B E; cbn [foldM] in E.
    - injection E as <- <- <- <-. exists []. split; auto. split; [apply saved_nil|]. split; [intros p []|constructor].
    - apply bind_Ok in E as ([[[f1 g1] w1] k1] & F & E). unfold order_body in F.
      destruct (N.leb_spec n x) as [|Hx]; [discriminate|].
      apply bind_Ok in F as (f2 & Es & F). apply bind_Ok in F as ([g2 w2] & Ec & F). injection F as <- <- <- <-.
      destruct (HR _ _ _ _ _ W B Ec) as (Hc & W2 & B2).
      destruct (IH _ _ _ _ _ _ _ _ W2 B2 E) as (T & HT & Hs & HW & Hh). exists ((x, g) :: T). split; [simpl; congruence|].
      split; [eapply saved_cons; eauto|]. split; [intros p [<-|Hp]; auto|]. econstructor; eauto.
  Qed.

  (** any limit *)
  Definition step_any (g : PrepGraph) (x : N) (g' : PrepGraph) : Prop :=
    (forall u v w, arel g' u v w -> u <> x /\ v <> x /\
       (arel g u v w \/ (w < umax c /\ exists w1 w2, arel g u x w1 /\ arel g x v w2 /\ w = w1 + w2))) /\
    (forall u v w, arel g u v w -> u <> x -> v <> x -> exists w', arel g' u v w' /\ w' <= w).

  Lemma contract_any maxs g ws x g' ws' : pg_wf n g -> ws_base n ws ->
    contract_node c H g ws x maxs = Ok (g', ws') -> step_any g x g' /\ pg_wf n g' /\ ws_base n ws'.
  Proof.
    intros W B E.
    assert (x < n) as Hx.
    { unfold contract_node, handle_shortcuts in E. apply bind_Ok in E as ([[? ?] ?] & F & _).
      apply bind_Ok in F as (ins0 & Ei & _). apply idx_Ok, getN_Some_lt in Ei. rewrite (wf_li _ _ W) in Ei. auto. }
    destruct (exists_bnd g) as (M & HM).
    pose proof (contract_node_spec c H hinv HL Hdbg n True Hn g ws x maxs M Hx W HM B (fun _ => Logic.I)) as G.
    rewrite E in G. cbn [wp] in G. destruct G as (([W' _ _ Ho _] & [Hk _]) & B' & _). split; [|auto]. split; auto.
    intros u v w (k & Hin). destruct (Ho _ _ _ _ Hin) as (Hu & Hv & [Hi|(_ & Hlt & w1 & k1 & w2 & k2 & A1 & A2 & ->)]);
      (split; [auto|]; split; [auto|]).
    - left. exists k. auto.
    - right. split; auto. exists w1, w2. split; [exists k1; auto|]. split; [exists k2; auto|auto].
  Qed.

  (** limit zero *)
  Definition step_zero (g : PrepGraph) (x : N) (g' : PrepGraph) : Prop := step_any g x g' /\
    forall u v w1 w2, arel g u x w1 -> arel g x v w2 -> u <> v -> w1 + w2 < umax c ->
      exists w', arel g' u v w' /\ w' <= w1 + w2.

  Lemma find_zero g ws target limit ws' mw : ws_base n ws -> target < n ->
    (target <> ws_start ws -> wl ws target = None) ->
    ws_find_max_weight c H ws g target limit 0 = Ok (ws', mw) ->
    ws' = ws /\ (target = ws_start ws -> mw = 0) /\ (target <> ws_start ws -> mw = umax c).
  Proof.
    intros B Ht Hl E. unfold ws_find_max_weight in E.
    apply bind_Ok in E as (? & _ & E). apply bind_Ok in E as (? & _ & E). apply bind_Ok in E as (? & _ & E).
    destruct (N.eqb_spec target (ws_start ws)) as [Hs|Hs].
    { injection E as <- <-. unfold WEIGHT_ZERO. split; auto. split; [auto|congruence]. }
    specialize (Hl Hs). pose proof B as [B1 B2 B3].
    rewrite (vf_is_valid_ok n _ _ B3 Ht) in E. cbn [bind] in E.
    destruct (getN_lt (ws_data ws) target) as [d Hd]; [lia|]. rewrite (idx_Some _ _ _ Hd) in E. cbn [bind] in E.
    assert (vfb (ws_flags ws) target = false) as Hv.
    { unfold wl, view in Hl. destruct (vfb (ws_flags ws) target); auto. congruence. }
    rewrite Hv in E. cbn [andb] in E.
    assert (ws_loop (ws_fuel c ws g) c H ws g target limit 0 = Ok ws) as Hloop.
    { unfold ws_fuel. destruct (fuel_of_S (1 + lenN (ws_heap ws) + lenN (concat (pg_out g)) + ws_num_nodes ws * umax c)) as [rest ->]; [lia|]. cbn [ws_loop]. destruct (ws_heap ws) as [|h0 hs]; [auto|]. destruct (N.leb_spec 0 (ws_settled ws)); [auto|lia]. }
    rewrite Hloop in E. cbn [bind] in E. rewrite (get_current_weight_ok c n _ _ B Ht), Hl in E. cbn [bind] in E.
    injection E as <- <-. split; auto. split; [congruence|auto].
  Qed.

  Lemma init_labels ws s x ws' : ws_base n ws -> s < n -> ws_init c H ws s x = Ok ws' ->
    ws_base n ws' /\ ws_start ws' = s /\ forall v, v <> s -> wl ws' v = None.
  Proof.
    intros [Hn' Hd Hf] Hs E. unfold ws_init in E.
    apply bind_Ok in E as (? & _ & E). apply bind_Ok in E as (? & _ & E).
    destruct (vf_invalidate_ok n _ Hf) as (Hf' & Hvb).
    set (ws1 := mkWS _ _ _ _ _ _ _) in E.
    assert (ws_base n ws1) as B1 by (constructor; auto).
    destruct (update_node_ok n ws1 s 0 B1 Hs) as (ws2 & Eu & B2 & (Hh2 & Hs2 & Ha2) & Hl2).
    rewrite Eu in E. cbn [bind] in E. injection E as <-.
    split; [destruct B2; constructor; auto|]. split; auto. intros v Hv. set (ws3 := mkWS _ _ _ _ _ _ _).
    change (wl ws3 v) with (wl ws2 v). rewrite Hl2. destruct (N.eqb_spec v s); [congruence|].
    unfold wl, view, ws1; simpl. rewrite Hvb; auto.
  Qed.

  Lemma contract_zero g0 ws x g' ws' : pg_wf n g0 -> ws_base n ws ->
    contract_node c H g0 ws x 0 = Ok (g', ws') -> step_zero g0 x g' /\ pg_wf n g' /\ ws_base n ws'.
  Proof.
    intros W0 B E. destruct (contract_any _ _ _ _ _ _ W0 B E) as (Hany & W' & B'). split; [|auto]. split; auto.
    unfold contract_node in E. apply bind_Ok in E as ([[u1 g1] ws1] & F & E). unfold handle_shortcuts in F.
    apply bind_Ok in F as (ins0 & Ei & F).
    assert (x < n) as Hx.
    { apply idx_Ok, getN_Some_lt in Ei. rewrite (wf_li _ _ W0) in Ei. auto. }
    rewrite (ins_idx _ _ _ W0 Hx) in Ei. injection Ei as <-.
    set (J := fun (i j : N) (g : PrepGraph) => pg_wf n g /\ outs g x = outs g0 x /\ ins g x = ins g0 x /\
      forall i' j' ie oe, getN (ins g0 x) i' = Some ie -> getN (outs g0 x) j' = Some oe ->
        (i' < i \/ (i' = i /\ j' < j)) -> a_adj ie <> a_adj oe -> a_weight ie + a_weight oe < umax c ->
        exists w', arel g (a_adj ie) (a_adj oe) w' /\ w' <= a_weight ie + a_weight oe).
    refine ((fun X => _) (foldM_range_ok _ (fun i '(_, g, ws) => J i 0 g /\ ws_base n ws) _ _ _ _ _ eq_refl _ _ _ F)).
    - destruct X as ((W1 & Ho & Hi & HJ) & _). destruct (disconnect_spec n g1 x W1 Hx) as (g2 & D & W2 & Ho2 & Hi2).
      rewrite D in E. cbn [bind] in E. injection E as <- <-.
      intros u v w1 w2 (k1 & A1) (k2 & A2) Hne Hlt. pose proof A1 as A1'. apply (wf_sym _ _ W0) in A1.
      destruct (In_getN _ _ A1) as (i & Hil & Eie). destruct (In_getN _ _ A2) as (j & _ & Eoe).
      destruct (HJ i j _ _ Eie Eoe) as (w' & (k & Ha) & Hw); auto. simpl in *. exists w'. split; auto. exists k.
      apply (wf_arc _ _ W0) in A1' as (_ & Hux & _). apply (wf_arc _ _ W0) in A2 as (_ & Hvx & _).
      rewrite Ho2. destruct (N.eqb_spec u x); [congruence|]. apply without_In. auto.
    - lia.
    - split; auto. split; auto. split; auto. split; auto. intros i' j' ie oe _ _ Hlt. lia.
    - clear E F. intros i [[s g] wi] [[s2 g2] w2] Hi ((W & Ho & Hii & HJ) & Bi) F.
      rewrite (ins_idx _ _ _ W Hx) in F. cbn [bind] in F. rewrite Hii in F.
      apply bind_Ok in F as (ie & Eie & F). apply idx_Ok in Eie. pose proof (getN_In _ _ _ Eie) as Hie.
      assert (a_adj ie < n /\ a_adj ie <> x /\ 1 <= a_weight ie) as (Hien & Hiex & Hiew).
      { destruct ie as [u w k]; simpl. apply (wf_sym _ _ W0) in Hie.
        split; [exact (outs_src _ _ _ _ _ _ W0 Hie)|]. apply (wf_arc _ _ W0) in Hie as (_ & Hne & Hw). auto. }
      apply bind_Ok in F as (w3 & Ei & F). destruct (init_labels _ _ _ _ Bi Hien Ei) as (B3 & Hst & Hl).
      rewrite (outs_idx _ _ _ W Hx) in F. cbn [bind] in F. rewrite Ho in F.
      refine ((fun X => _) (foldM_range_ok _ (fun j '(_, g, ws) => J i j g /\ ws = w3) _ _ _ _ _ eq_refl _ _ _ F)).
      + destruct X as ((W2 & Ho2 & Hi2 & HJ2) & ->). split; auto. split; auto. split; auto. split; auto.
        intros i' j' ie' oe' E1 E2 Hlt. apply HJ2 with (i' := i') (j' := j'); auto. apply getN_Some_lt in E2. lia.
      + lia.
      + split; auto. split; auto.
      + clear F. intros j [[sa ga] wa] [[sb gb] wb] Hj ((Wa & Hoa & Hia & HJa) & ->) F.
        rewrite (ins_idx _ _ _ Wa Hx) in F. cbn [bind] in F. rewrite Hia, (idx_Some _ _ _ Eie) in F.
        cbn [bind] in F. rewrite (outs_idx _ _ _ Wa Hx) in F. cbn [bind] in F. rewrite Hoa in F.
        apply bind_Ok in F as (oe & Eoe & F). apply idx_Ok in Eoe. pose proof (getN_In _ _ _ Eoe) as Hoe.
        assert (a_adj oe < n /\ a_adj oe <> x) as (Hoen & Hoex).
        { destruct oe as [u w k]; simpl. apply (wf_arc _ _ W0) in Hoe as (Hlt & Hne & _). auto. }
        apply bind_Ok in F as (wt & Ewt & F).
        assert (wt <= umax c /\ wt = a_weight ie + a_weight oe) as [Hwt Hwe].
        { unfold uadd in Ewt. rewrite Hdbg in Ewt. destruct (N.leb_spec (a_weight ie + a_weight oe) (umax c)); [|discriminate].
          injection Ewt as <-. auto. }
        apply bind_Ok in F as ([wa' mwa] & Efa & F).
        destruct (find_zero ga w3 (a_adj oe) wt wa' mwa B3 Hoen) as (-> & Hm0 & Hm1); auto.
        { intros Hne. apply Hl. congruence. }
        assert (forall i' j' ie' oe', getN (ins g0 x) i' = Some ie' -> getN (outs g0 x) j' = Some oe' ->
                  (i' < i \/ (i' = i /\ j' < j + 1)) -> (i' < i \/ (i' = i /\ j' < j)) \/ (ie' = ie /\ oe' = oe)) as Hsplit.
        { intros i' j' ie' oe' E1 E2 Hlt.
          assert (i' < i \/ (i' = i /\ j' < j) \/ (i' = i /\ j' = j)) as [C|[C|[-> ->]]] by lia; auto.
          right. split; congruence. }
        destruct (N.leb_spec mwa wt) as [La|La].
        * injection F as <- <- <-. split; auto. split; auto. split; auto. split; auto.
          intros i' j' ie' oe' E1 E2 Hlt Hne Hs. destruct (Hsplit _ _ _ _ E1 E2 Hlt) as [C|(-> & ->)].
          -- apply (HJa i' j'); auto.
          -- exfalso. rewrite Hm1 in La by congruence. lia.
        * apply bind_Ok in F as ([se ge] & Eha & F). injection F as <- <- <-.
          assert (a_adj ie <> a_adj oe) as Hne.
          { intros X. rewrite Hm0 in La by congruence. lia. }
          assert (1 <= wt) as Hw1 by lia. unfold add_shortcut in Eha. cbn [sc_from sc_to sc_weight sc_center] in Eha.
          destruct (add_or_reduce_spec n ga (a_adj ie) (a_adj oe) wt x Wa Hien Hoen Hne Hw1)
            as (g'' & E' & W'' & Ho' & Hi' & Hor & Hle & w2' & k2 & Hin & Hlw).
          rewrite E' in Eha. cbn [bind] in Eha. injection Eha as <- <-. split; auto. split; auto.
          split; [rewrite Ho'; auto|]. split; [rewrite Hi'; auto|].
          intros i' j' ie' oe' E1 E2 Hlt Hne' Hs. destruct (Hsplit _ _ _ _ E1 E2 Hlt) as [C|(-> & ->)].
          -- destruct (HJa i' j' _ _ E1 E2 C Hne' Hs) as (w0 & (k0 & A0) & Hw0).
             destruct (Hle _ _ _ _ A0) as (w5 & k5 & A5 & Hw5). exists w5. split; [exists k5; auto|lia].
          -- exists w2'. split; [exists k2; auto|]. lia.
  Qed.
End Fill.
