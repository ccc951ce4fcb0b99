(** * WitnessProps: proofs about single witness searches *)
From Verif Require Export SpecWitness WitnessFacts ContractFacts ExactFacts BuilderFacts RelContract.
From Verif Require Import RelFacts RelProps.
Open Scope N_scope.

Lemma detour_path g x u v W : detour g x u v W <-> u <> x /\ v <> x /\ path (arelx g x) u v W.
Proof.
  split.
  - induction 1 as [u Hu|u arcs a v W Hu Hg Hi D (Ha & Hv & IH)]; [repeat split; auto; constructor|].
    split; auto. split; auto. econstructor; [|exact IH]. split; auto. exists (a_center a). unfold outs. rewrite Hg. destruct a; auto.
  - intros (Hu & Hv & Hp). induction Hp as [u|u y v w W ((k & Hk) & _ & Hy) Hp IH]; [constructor; auto|].
    unfold outs in Hk. destruct (getN (pg_out g) u) as [arcs|] eqn:E; [|destruct Hk].
    change w with (a_weight (mkArc y w k)). econstructor; eauto.
Qed.

Section Search.
  Variables (c : cfg) (H : heap_ops) (hinv : list HeapItem -> Prop).
  Hypothesis HL : heap_laws H hinv.
  Hypothesis Hdbg : debug_build c = true.
  Variables (ops : list ig_op) (ig : InputGraph).
  Hypothesis Hfz : frozen_graph c ops ig.
  Let n := ig_num_nodes ig.
  Hypothesis Hn : n <= umax c.

  Lemma working_wf g ws : working c H ig g ws -> pg_wf n g /\ ws_base n ws.
  Proof.
    induction 1 as [g m Eg En|g ws x m g' ws' _ (W & B) E|g ws params x level m r g' ws' _ (W & B) E].
    - pose proof Hfz as (_ & _ & Hfr). unfold ig_get_num_nodes, ig_check_frozen in En. rewrite Hfr in En. injection En as <-.
      assert (ig_ok c ig) as Hok.
      { eapply frozen_ok_if; eauto. pose proof (from_input_checks c ig Hfr) as C. rewrite Eg in C. exact C. }
      destruct (from_input_ok c ig Hok) as (g0' & Eg' & W & _). assert (g0' = g) by congruence. subst. split; auto. apply ws_new_base.
    - destruct (exists_bnd g) as (Bd & HB).
      assert (x < n) as Hx.
      { unfold contract_node, handle_shortcuts in E. apply bind_Ok in E as ([[s g1] ws1] & E & _). apply bind_Ok in E as (is & E & _).
        unfold idx in E. destruct (getN (pg_in g) x) eqn:G; [|discriminate]. apply getN_Some_lt in G. rewrite (wf_li _ _ W) in G. auto. }
      pose proof (contract_node_spec c H hinv HL Hdbg n True Hn g ws x m Bd Hx W HB B (fun _ => Logic.I)) as R.
      rewrite E in R. destruct R as ((C & _) & B' & _). split; auto. apply (cs_wf _ _ _ _ _ C).
    - assert (x < n) as Hx.
      { unfold calc_relevance, handle_shortcuts in E. apply bind_Ok in E as ([[s g1] ws1] & E & _). apply bind_Ok in E as (is & E & _).
        unfold idx in E. destruct (getN (pg_in g) x) eqn:G; [|discriminate]. apply getN_Some_lt in G. rewrite (wf_li _ _ W) in G. auto. }
      pose proof (relevance_str c H hinv HL n (fun _ => True) (or_intror Logic.I) Hn g ws params x level m Hx (wf_str _ _ W) B) as R.
      rewrite E in R. destruct R as (-> & B'). auto.
  Qed.

  (** the contract of one call *)
  Lemma find_contract g s x ws target limit maxs ws' w :
    pg_wf n g -> x < n -> ws_inv c hinv n g s x ws -> ws_cmp c n g s x (fun _ => False) ws -> target < n ->
    ws_find_max_weight c H ws g target limit maxs = Ok (ws', w) ->
    target <> x /\ ws_inv c hinv n g s x ws' /\ ws_cmp c n g s x (fun _ => False) ws' /\ w <= umax c /\
    (w < umax c -> reach g x s target w) /\
    (wset ws' target = true -> forall W, path (arelx g x) s target W -> w <= W) /\
    (ws_settled ws' < maxs -> limit < w -> forall W, path (arelx g x) s target W -> limit < W) /\
    ws_settled ws' <= N.max maxs (ws_settled ws).
  Proof.
    intros W Hx I C Ht E. destruct (exists_bnd g) as (Bd & HB).
    assert (forall ws2, ws_inv c hinv n g s x ws2 -> ws_cmp c n g s x (fun _ => False) ws2 -> forall d, wl ws2 target = Some d ->
              wd_settled d = true -> forall W, path (arelx g x) s target W -> wd_weight d <= W) as Hexact.
    { intros ws2 I2 C2 d Hd Hs W' Hp. destruct (N.lt_ge_cases W' (umax c)) as [Hlt|Hge].
      - destruct (cmp_path c Hdbg n Hn _ _ _ _ _ _ C2 Hp Hlt) as [(d' & Hd' & G)|(h & Hh & G)].
        + congruence.
        + pose proof (wi_mono _ _ _ _ _ _ _ I2 _ _ _ Hd Hs Hh). lia.
      - pose proof (wi_max _ _ _ _ _ _ _ I2 _ _ Hd). lia. }
    unfold ws_find_max_weight in E. apply bind_Ok in E as (u1 & _ & E). apply bind_Ok in E as (u2 & _ & E).
    apply bind_Ok in E as (u3 & Ea & E). rewrite (wi_start _ _ _ _ _ _ _ I), (wi_avoid _ _ _ _ _ _ _ I) in *.
    assert (target <> x) as Htx.
    { intros ->. rewrite N.eqb_refl in Ea. destruct (s =? x); discriminate. }
    split; auto. destruct (N.eqb_spec target s) as [->|Hts].
    { injection E as <- <-. unfold WEIGHT_ZERO. split; auto. split; auto. split; [lia|]. split; [intros; apply reach_refl|]. split; [lia|]. split; lia. }
    destruct (wi_base _ _ _ _ _ _ _ I) as [Hn' Hd Hf].
    rewrite (vf_is_valid_ok n _ _ Hf Ht) in E. cbn [bind] in E.
    destruct (getN_lt (ws_data ws) target) as [d Hd']; [lia|]. rewrite (idx_Some _ _ _ Hd') in E. cbn [bind] in E.
    destruct (vfb (ws_flags ws) target && (wd_settled d || (wd_weight d <=? limit))) eqn:Ec.
    { injection E as <- <-. apply andb_true_iff in Ec as [Ev Ec].
      assert (wl ws target = Some d) as Hw by (unfold wl, view; rewrite Ev; auto).
      split; auto. split; auto. split; [apply (wi_max _ _ _ _ _ _ _ I _ _ Hw)|].
      split; [intros _; apply (wi_label _ _ _ _ _ _ _ I _ _ Hw)|]. unfold wset. rewrite Hw.
      split; [intros Hs; apply (Hexact _ I C _ Hw Hs)|]. split; [|lia].
      intros _ Hgt W' Hp. apply orb_true_iff in Ec as [Es|El]; [|apply N.leb_le in El; lia].
      pose proof (Hexact _ I C _ Hw Es W' Hp). lia. }
    apply bind_Ok in E as (ws1 & E1 & E).
    assert (ws_settled ws1 <= N.max maxs (ws_settled ws)) as Hcnt.
    { clear - E1. revert E1. generalize (ws_fuel c ws g). intros f. revert ws.
      assert (forall curr arcs ws fd ws' fd', foldM (ws_relax c H curr target limit) arcs (ws, fd) = Ok (ws', fd') ->
                ws_settled ws' = ws_settled ws) as HR.
      { intros curr. induction arcs as [|a arcs IH]; intros ws fd ws' fd'; cbn [foldM]; [intros E; injection E as <- <-; auto|].
        intros E. apply bind_Ok in E as ([w1 f1] & E1 & E2). apply IH in E2. rewrite E2. clear E2.
        unfold ws_relax in E1. destruct (a_adj a =? ws_avoid ws); [injection E1 as <- <-; auto|].
        apply bind_Ok in E1 as (y1 & _ & E1). apply bind_Ok in E1 as (y2 & _ & E1).
        destruct (y1 <? y2); [|injection E1 as <- <-; auto]. apply bind_Ok in E1 as (w2 & Eu & E1).
        injection E1 as <- <-. cbn [ws_settled ws_set_heap]. apply update_node_settled in Eu. auto. }
      induction f as [|rest IH]; [|specialize (IH tt)]; intros ws E; cbn [ws_loop] in E; [discriminate|].
      destruct (ws_heap ws) as [|it h]; [injection E as <-; lia|]. destruct (N.leb_spec maxs (ws_settled ws)); [injection E as <-; lia|].
      destruct (hp_peek H (it :: h)) as [curr|]; [|discriminate]. destruct (limit <? hi_weight curr); [injection E as <-; lia|].
      cbv zeta in E. apply bind_Ok in E as (st & _ & E). destruct st; [apply IH in E; exact E|].
      apply bind_Ok in E as (arcs & _ & E). apply bind_Ok in E as ([ws2 fd] & E1 & E). apply HR in E1. cbn [ws_settled ws_set_heap] in E1.
      apply bind_Ok in E as (ws3 & E2 & E). apply settle_settled in E2. destruct (fd || _); [injection E as <-; lia|].
      apply IH in E. lia. }
    pose proof (ws_loop_spec c H hinv HL Hdbg n True Hn g g g s x Bd target limit maxs (ws_fuel c ws g) ws W HB (pg_le_refl g) Hx
                  (fun _ => Logic.I) (fun u v w0 _ Ha => Ha) I C) as R.
    rewrite E1 in R. destruct R as (I' & C' & Hdone & _).
    { unfold WitnessFacts.mu, ws_fuel. rewrite fsize_of. unfold lenN. pose proof (udeg_le (wset ws) (pg_out g) 0). lia. }
    rewrite (get_current_weight_ok c n _ _ (wi_base _ _ _ _ _ _ _ I') Ht) in E. cbn [bind] in E. injection E as <- <-.
    split; auto. split; auto. split; [|split; [|split; [|split; auto]]].
    - destruct (wl ws1 target) as [d1|] eqn:El; [apply (wi_max _ _ _ _ _ _ _ I' _ _ El)|lia].
    - destruct (wl ws1 target) as [d1|] eqn:El; [intros _; apply (wi_label _ _ _ _ _ _ _ I' _ _ El)|lia].
    - unfold wset. destruct (wl ws1 target) as [d1|] eqn:El; [|discriminate]. intros Hs. apply (Hexact _ I' C' _ El Hs).
    - intros Hm Hgt W' Hp. destruct (N.lt_ge_cases limit W') as [|Hle]; auto. exfalso.
      assert (W' < umax c) as HW.
      { destruct (wl ws1 target) as [d1|] eqn:El; [pose proof (wi_max _ _ _ _ _ _ _ I' _ _ El)|]; lia. }
      destruct (Hdone Hm) as [Hall|(d1 & El & G)]; [|rewrite El in Hgt; lia].
      destruct (cmp_path c Hdbg n Hn _ _ _ _ _ _ C' Hp HW) as [(d1 & El & G)|(h & Hh & G)]; [rewrite El in Hgt; lia|].
      specialize (Hall h Hh). lia.
  Qed.

  Lemma searching_inv g s x ws : searching c H ig g s x ws ->
    pg_wf n g /\ x < n /\ s < n /\ s <> x /\ ws_inv c hinv n g s x ws /\ ws_cmp c n g s x (fun _ => False) ws.
  Proof.
    induction 1 as [ws0 ws Hw Hs Hx E|ws t lim m ws' w _ (W & Hx & Hs & Hsx & I & C) Ht E].
    - apply working_wf in Hw as (W & B).
      assert (s <> x) as Hsx.
      { intros ->. unfold ws_init in E. apply bind_Ok in E as (u & _ & E). rewrite N.eqb_refl in E. discriminate. }
      destruct (ws_init_spec c H hinv HL Hdbg n Hn g g s x ws0 B Hs Hsx) as (ws1 & E1 & I & C).
      assert (ws1 = ws) by congruence. subst. auto 8.
    - apply (find_contract g s x) in E as (_ & I' & C' & _); auto 8.
  Qed.
End Search.

Lemma C74_proof c ops ig H hinv g s x ws target weight_limit settled_limit ws' w :
  debug_build c = true -> frozen_graph c ops ig -> ig_num_nodes ig <= umax c -> heap_laws H hinv ->
  searching c H ig g s x ws -> target < ig_num_nodes ig ->
  ws_find_max_weight c H ws g target weight_limit settled_limit = Ok (ws', w) ->
  (w < WEIGHT_MAX c -> exists W, W <= w /\ detour g x s target W) /\
  (ws_is_settled ws' target = Ok true -> forall W, detour g x s target W -> w <= W) /\
  (ws_settled ws' < settled_limit -> weight_limit < w -> forall W, detour g x s target W -> weight_limit < W) /\
  ws_settled ws' <= N.max settled_limit (ws_settled ws) /\ ws_settled ws' < ig_num_nodes ig.
Proof.
  intros Hdbg Hf Hn HL Hs Ht E. destruct (searching_inv c H hinv HL Hdbg ops ig Hf Hn g s x ws Hs) as (W & Hx & Hsn & Hsx & I & C).
  destruct (find_contract c H hinv HL Hdbg ig Hn g s x ws target weight_limit settled_limit ws' w W Hx I C Ht E)
    as (Htx & I' & C' & Hmax & Hup & Hex & Hlim & Hcnt).
  split; [|split; [|split; [|split; auto]]].
  - intros Hw. destruct (Hup Hw) as (W' & Hle & Hp). exists W'. split; auto. apply detour_path. auto.
  - intros Hset W' D. apply detour_path in D as (_ & _ & D). apply Hex; auto.
    rewrite (WitnessFacts.is_settled_ok _ _ _ (wi_base _ _ _ _ _ _ _ I') Ht) in Hset. congruence.
  - intros H1 H2 W' D. apply detour_path in D as (_ & _ & D). eapply Hlim; eauto.
  - eapply cmp_count; eauto.
Qed.
