(** * StackChain: the query that needs as many nested calls as its path has edges *)
From Verif Require Export StackFacts.
From Coq Require Import Lia Arith.PeanoNat.
Open Scope N_scope.

Lemma chain_nodes n u v ns W : walk (accepted (chain_calls n)) u v ns W -> ns = rangeN u (v + 1).
Proof.
  induction 1 as [u|u v t w ns W Hin HW IH].
  - rewrite rangeN_cons by lia. rewrite rangeN_nil by lia. reflexivity.
  - apply chain_accepted in Hin as (i & _ & Hi). injection Hi as -> -> ->. pose proof (chain_walk _ _ _ _ _ HW).
    rewrite rangeN_cons by lia. rewrite IH. reflexivity.
Qed.

Lemma k_unpack_deep c fg d id k : nested c fg d id k -> forall room nodes reverse,
  (room <= N.to_nat k)%nat -> k_unpack room c fg d nodes id reverse = Panic stack_overflow.
Proof.
  intros Nk room nodes reverse Hr.
  destruct (proj2 (C58_recursion_proof _ _ _ _ _ Nk (S (N.to_nat k)) nodes reverse) ltac:(lia)) as (l & El).
  destruct (k_unpack_same c fg room (S (N.to_nat k)) d nodes id reverse) as [G|G]; [rewrite El; discriminate| |exact G].
  exfalso. rewrite El in G. clear El.
  assert (forall room d nodes id rv nodes', k_unpack room c fg d nodes id rv = Ok nodes' -> unpack room c fg d nodes id rv = Ok nodes') as HK.
  { clear. induction room as [|room IH]; intros d nodes id rv nodes' EQ; [discriminate|]. cbn [k_unpack] in EQ. cbn [unpack].
    apply bind_Ok in EQ as (e & -> & EQ). cbn [bind]. apply bind_Ok in EQ as (sc & -> & EQ). cbn [bind].
    destruct (negb sc); auto. destruct rv; apply bind_Ok in EQ as (n1 & E1 & E2); rewrite (IH _ _ _ _ _ E1); cbn [bind]; auto. }
  apply HK in G. rewrite (proj1 (C58_recursion_proof _ _ _ _ _ Nk room nodes reverse) Hr) in G. discriminate.
Qed.

Section Deep.
  Variables (c : cfg) (n : N) (ig : InputGraph) (fg : FastGraph).
  Hypothesis Hn : 2 <= n.
  Hypothesis Hf : frozen_graph c (chain_calls n) ig.
  Hypothesis Hnum : ig_num_nodes ig = n.
  Hypothesis Hp : prepared c ig fg.
  Hypothesis Hord : get_node_ordering fg = Ok (from_one_end n).
  Hypothesis Hd : debug_build c = true.
  Hypothesis Hu : n <= umax c.
  Variables (c' : cfg) (H : heap_ops) (hinv : list HeapItem -> Prop).
  Hypothesis Hcc : umax c = umax c'.
  Hypothesis HL : heap_laws H hinv.

  Lemma deep_nested d id k : nested c fg d id k -> nested c' fg d id k.
  Proof.
    induction 1 as [d id e He Hi Ho|d id e ki ko He Hi Ho Ni IHi No IHo].
    - apply (nested_edge c' fg d id e); auto; unfold INVALID_EDGE in *; congruence.
    - apply (nested_shortcut c' fg d id e); auto; unfold INVALID_EDGE in *; congruence.
  Qed.

  Let E := ig_edges ig.
  Lemma deep_str : fg_str c' E n fg.
  Proof. apply (str_cfg c); auto. apply shape_str, chain_shape; auto. Qed.

  Lemma deep_rank v : v < n -> rk fg v < n /\ (rk fg v = n - 1 -> v = n - 1) /\ (rk fg v = n - 2 -> v = 0).
  Proof.
    intros Hv. pose proof (chain_rank c n ig fg Hn Hf Hnum Hp Hord Hd Hu) as CR.
    destruct (N.eq_dec v 0) as [->|H0]; [rewrite (CR _ _ (chain_position_0 n Hn)); lia|].
    destruct (N.eq_dec v (n - 1)) as [->|H1]; [rewrite (CR _ _ (chain_position_last n Hn)); lia|].
    rewrite (CR _ _ (chain_position n v ltac:(lia))). lia.
  Qed.
  Lemma deep_top : rk fg (n - 1) = n - 1 /\ rk fg 0 = n - 2.
  Proof.
    pose proof (chain_rank c n ig fg Hn Hf Hnum Hp Hord Hd Hu) as CR.
    rewrite (CR _ _ (chain_position_0 n Hn)), (CR _ _ (chain_position_last n Hn)). auto.
  Qed.

  (** every label stems from a stored edge *)
  Lemma deep_label d roots M s v dt : tinv c' hinv n fg d roots None M s -> lab s v = Some dt ->
    (exists w, In (v, w) roots /\ d_inc_edge dt = umax c') \/
    (exists ed, getN (fg_edges fg d) (d_inc_edge dt) = Some ed /\ fe_base ed = d_parent dt /\ fe_adj ed = v /\
       d_inc_edge dt <> umax c' /\ lab s (d_parent dt) <> None /\ rk fg (d_parent dt) < rk fg v).
  Proof.
    intros I El. destruct (ti_lab _ _ _ _ _ _ _ _ _ I _ _ El) as [(A1 & A2 & w & A3)|(ed & (b & e & A1 & A2 & A3 & A4) & A5 & A6)].
    - left. eauto.
    - right. pose proof deep_str as S. exists ed. split; auto.
      pose proof (fs_base _ _ _ _ S d _ _ _ _ _ A4 (begin_end_slice _ _ _ _ _ A1 A2) A3) as Hbase.
      destruct (fs_edge _ _ _ _ S _ _ _ A4) as (_ & _ & Hr). split; auto. split; auto.
      split; [pose proof (getN_Some_lt _ _ _ A4); pose proof (fs_len _ _ _ _ S d); lia|]. split; auto. congruence.
  Qed.

  Lemma deep_bwd M s : tinv c' hinv n fg Bwd [(n - 1, 0)] None M s -> forall k v, rk fg v <= k -> lab s v <> None -> v = n - 1.
  Proof.
    intros I. induction k as [|k IH] using N.peano_ind; intros v Hk Hl; (destruct (lab s v) as [dt|] eqn:El; [|congruence]);
      (destruct (deep_label _ _ _ _ _ _ I El) as [(w & [Hw|[]] & _)|(ed & A1 & A2 & A3 & A4 & A5 & A6)]; [congruence|]); [lia|].
    exfalso. apply IH in A5; [|lia]. rewrite A5 in A6. destruct deep_top as [T _].
    destruct (deep_rank v) as [Hv _]; [|lia]. eapply lab_lt; [apply I|exact El].
  Qed.
  Lemma deep_fwd M s : tinv c' hinv n fg Fwd [(0, 0)] None M s -> forall k v, rk fg v <= k -> lab s v <> None -> v = 0 \/ v = n - 1.
  Proof.
    intros I. induction k as [|k IH] using N.peano_ind; intros v Hk Hl; (destruct (lab s v) as [dt|] eqn:El; [|congruence]);
      (destruct (deep_label _ _ _ _ _ _ I El) as [(w & [Hw|[]] & _)|(ed & A1 & A2 & A3 & A4 & A5 & A6)]; [left; congruence|]); [lia|].
    assert (v < n) as Hv by (eapply lab_lt; [apply I|exact El]). destruct deep_top as [T1 T0].
    destruct (deep_rank v Hv) as (R1 & R2 & R3). right. apply R2.
    apply IH in A5 as [A5|A5]; [| |lia]; rewrite A5 in A6; lia.
  Qed.

  Lemma deep_query room pc : pc_ok n pc -> N.of_nat room <= n - 2 ->
    wp (fun _ => True) (k_pc_calc_path room c' H pc fg 0 (n - 1)) (fun '(_, r) => r = None).
  Proof.
    intros (Hpn & Bf & Bb) Hr. unfold k_pc_calc_path, k_calc_path_multiple.
    assert (forall b m, wp (fun _ => True) (assert b m) (fun _ => b = true)) as Has by (intros [] m; simpl; auto).
    set (P := fun _ : panic_reason => True).
    assert ((forall r, P r) \/ ((debug_build c' = false \/ P POverflow) /\ fg_str c' E n fg)) as HP by (left; intros r; exact Logic.I).
    eapply wp_bind_mono; [apply Has|]. intros [] Q1. apply N.eqb_eq in Q1.
    do 4 (eapply wp_bind_mono; [apply Has|]; intros [] _).
    destruct (reset_ok n _ Bf) as [Rf1 Rf2]. destruct (reset_ok n _ Bb) as [Rb1 Rb2].
    eapply wp_bind_mono; [apply (init_best_term c' E n fg P HP)|]. intros [bw0 mn0] [Hb0 Hm0].
    eapply wp_bind_mono.
    { apply (init_side_term c' H hinv HL E n fg P HP Fwd [(0, 0)] _ Rf1 Rf2); auto. intros v w [[= <- <-]|[]]. lia. }
    intros fwd1 (I1 & Hmu1 & Hl1).
    eapply wp_bind_mono.
    { apply (init_side_term c' H hinv HL E n fg P HP Bwd [(n - 1, 0)] _ Rb1 Rb2); auto. intros v w [[= <- <-]|[]]. lia. }
    intros bwd1 (I2 & Hmu2 & Hl2).
    eapply wp_bind_mono.
    { apply (main_loop_term c' H hinv HL E n fg P HP [(0, 0)] [(n - 1, 0)] _ 0 0); auto.
      - destruct Hm0 as [->|(A1 & w1 & w2 & A2 & A3 & A4 & A5)]; [left; auto|right]. split; auto. split; eauto.
      - unfold query_fuel. rewrite fsize_of, N2Nat.id, Q1, Hpn. lia. }
    intros [[[fwd2 bwd2] best] mn] (Mf & Mb & J1 & J2 & Hm).
    unfold INVALID_NODE. destruct (N.eqb_spec mn (umax c')) as [|Hmn]; [apply wp_Ok; auto|].
    destruct Hm as [|(M1 & M2 & M3)]; [congruence|].
    eapply wp_bind_mono; [apply Has|]. intros [] _.
    assert (k_extract_nodes room c' fg fwd2 bwd2 mn = Panic stack_overflow) as ->; [|exact Logic.I].
    (* the searches meet at the target, which the forward search has reached over the deepest shortcut *)
    pose proof (deep_bwd _ _ J2 _ _ (N.le_refl _) M3) as ->.
    destruct (lab fwd2 (n - 1)) as [df|] eqn:Ef; [|congruence]. destruct (lab bwd2 (n - 1)) as [db|] eqn:Eb; [|congruence].
    unfold k_extract_nodes, INVALID_NODE. destruct (N.eqb_spec (n - 1) (umax c')); [congruence|]. cbn [negb assert bind].
    rewrite (valid_ok n); [|apply J1|lia]. rewrite Ef. cbn [assert bind].
    rewrite (valid_ok n); [|apply J2|lia]. rewrite Eb. cbn [assert bind].
    cbn [k_unpack_tree]. rewrite (idx_Some _ _ _ (lab_data _ _ _ Ef)). cbn [bind].
    destruct (deep_label _ _ _ _ _ _ J1 Ef) as [(w & [Hw|[]] & _)|(ed & A1 & A2 & A3 & A4 & A5 & A6)].
    { injection Hw as Hw _. lia. }
    unfold INVALID_EDGE. apply N.eqb_neq in A4. rewrite A4.
    assert (d_parent df = 0) as Hpar.
    { destruct (deep_fwd _ _ J1 _ _ (N.le_refl _) A5) as [G|G]; auto. rewrite G in A6. lia. }
    rewrite (k_unpack_deep c' fg Fwd (d_inc_edge df) (n - 2)); [reflexivity| |lia].
    apply deep_nested. apply (chain_nested c n ig fg Hn Hf Hnum Hp Hord Hd Hu (n - 2) Fwd _ ed A1); cbn; lia.
  Qed.
End Deep.

Lemma C80_overflow_proof : forall c H hinv n, debug_build c = true -> heap_laws H hinv -> 2 <= n ->
  n * n <= umax c / 2 -> 4 * n <= umax c ->
  exists ig fg, frozen_graph c (chain_calls n) ig /\ ig_num_nodes ig = n /\
    permutation_of_nodes n (from_one_end n) /\
    prepare_with_order_with_params c H ig (from_one_end n) (mkParamsWithOrder n) = Ok (inl fg) /\
    forall c' H' hinv' pc room, c' = c \/ c' = unchecked c -> heap_laws H' hinv' -> calculator c n pc ->
      exists pc', pc_calc_path c' H' pc fg 0 (n - 1) = Ok (pc', Some (mkSP 0 (n - 1) (n - 1) (rangeN 0 n))) /\
        k_pc_calc_path room c' H' pc fg 0 (n - 1) =
          if N.of_nat room <=? n - 2 then Panic stack_overflow
          else Ok (pc', Some (mkSP 0 (n - 1) (n - 1) (rangeN 0 n))).
Proof.
  intros c H hinv n Hd HL Hn B1 B2. pose proof (N.mul_div_le (umax c) 2) as Hh.
  assert (2 * n <= n * n) as Hsq by (apply N.mul_le_mono_r; auto).
  destruct (chain_frozen c n Hn) as (ig & Hf & Hnum); [lia|].
  pose proof (chain_perm n Hn) as Hperm.
  assert (forall e, In e (accepted (chain_calls n)) -> e_weight e <= 1) as Hw1.
  { intros e He. apply chain_accepted in He as (i & _ & ->). cbn. lia. }
  destruct (C60_order_proof c (chain_calls n) ig 1 H hinv (from_one_end n) (mkParamsWithOrder n)) as (fg & HE); auto.
  { rewrite Hnum. exact Hperm. }
  { cbn. lia. }
  { rewrite Hnum. split; [lia|]. split; lia. }
  exists ig, fg. split; auto. split; auto. split; auto. split; auto.
  assert (prepared_by_order c ig (from_one_end n) (mkParamsWithOrder n) fg) as Hpo by (exists H, hinv; auto).
  assert (prepared c ig fg) as Hp.
  { right. exists (from_one_end n), (mkParamsWithOrder n). rewrite Hnum. auto. }
  assert (get_node_ordering fg = Ok (from_one_end n)) as Hord.
  { apply (C10_given_proof c (chain_calls n) ig (from_one_end n) (mkParamsWithOrder n)); auto; [lia|rewrite Hnum; auto]. }
  intros c' H' hinv' pc room Hc' HL' Hcalc.
  (* the answer *)
  assert (exists pc', pc_calc_path c H' pc fg 0 (n - 1) = Ok (pc', Some (mkSP 0 (n - 1) (n - 1) (rangeN 0 n)))) as (pc' & EQ).
  { destruct (C60_query_proof c (chain_calls n) ig fg 1 0 0 H' hinv' pc [(0, 0)] [(n - 1, 0)]) as (pc' & r & EQ); auto.
    - right. exists (from_one_end n), (mkParamsWithOrder n). rewrite Hnum. split; auto. split; auto. cbn. lia.
    - rewrite Hnum. exact Hcalc.
    - discriminate.
    - discriminate.
    - intros v w [[= <- <-]|[]]. rewrite Hnum. lia.
    - intros v w [[= <- <-]|[]]. rewrite Hnum. lia.
    - rewrite Hnum. assert ((n - 1) * (n - 1) <= n * n) by (apply N.mul_le_mono; lia). lia.
    - exists pc'. assert (answer c fg 0 (n - 1) r) as HA.
      { exists H', hinv'. split; auto. right. exists n, pc, pc'. auto. }
      destruct (chain_walk_to n (n - 1)) as (ns & HW); [lia|].
      destruct r as [p|].
      + destruct (C03_proof c _ ig fg _ _ p Hd Hf Hp HA) as (S1 & S2 & S3).
        destruct (S3 (ig_edges ig)) as (W1 & _).
        { destruct Hf as (_ & _ & F3). unfold ig_get_edges, ig_check_frozen. rewrite F3. reflexivity. }
        apply (frozen_walk c (chain_calls n) ig) in W1; auto.
        pose proof (chain_walk _ _ _ _ _ W1) as E1. pose proof (chain_nodes _ _ _ _ _ W1) as E2.
        unfold pc_calc_path. rewrite EQ. destruct p as [s t w nodes]. cbn [sp_get_source sp_get_target sp_get_weight sp_get_nodes sp_source sp_target sp_weight sp_nodes] in *.
        replace (n - 1 + 1) with n in E2 by lia. repeat f_equal; auto; lia.
      + exfalso. destruct (C02_proof c (chain_calls n) ig fg 0 (n - 1) None Hd Hf Hp HA) as [HN _].
        apply (HN eq_refl). exists ns, (n - 1). split; auto. unfold WEIGHT_MAX. lia. }
  assert (pc_calc_path c' H' pc fg 0 (n - 1) = Ok (pc', Some (mkSP 0 (n - 1) (n - 1) (rangeN 0 n)))) as EQ'.
  { destruct Hc' as [-> | ->]; auto. apply C15_query_proof, EQ. }
  exists pc'. split; auto. destruct (N.leb_spec (N.of_nat room) (n - 2)) as [Hr|Hr].
  - assert (umax c = umax c') as Hcc by (destruct Hc' as [-> | ->]; reflexivity).
    pose proof (deep_query c n ig fg Hn Hf Hnum Hp Hord Hd ltac:(lia) c' H' hinv' Hcc HL' room pc (calculator_ok _ _ _ Hcalc) Hr) as HQ.
    destruct (C80_same_proof room c' H' pc fg [(0, 0)] [(n - 1, 0)]) as [G|G].
    + fold (pc_calc_path c' H' pc fg 0 (n - 1)). rewrite EQ'. discriminate.
    + exfalso. unfold k_pc_calc_path in HQ. rewrite G in HQ. fold (pc_calc_path c' H' pc fg 0 (n - 1)) in HQ. rewrite EQ' in HQ.
      cbn in HQ. discriminate.
    + exact G.
  - apply C80_path_proof; [exact EQ'|]. intros p [= <-]. cbn [sp_get_nodes sp_nodes]. rewrite lenN_rangeN. lia.
Qed.
