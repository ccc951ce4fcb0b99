(** * StackFacts: proofs about queries with a limited call stack *)
From Verif Require Export ChainProps TermProps EffortFacts Stack.
From Verif Require Export SpecShortcut.
From Coq Require Import Lia Arith.PeanoNat.
Open Scope N_scope.

(** [m'] does what [m] does, or runs out of stack. *)
Definition same_or {A} (m m' : res A) : Prop := m <> Diverge -> m' = m \/ m' = Panic stack_overflow.
Lemma same_or_bind {A B} (m m' : res A) (k k' : A -> res B) : same_or m m' -> (forall a, m = Ok a -> same_or (k a) (k' a)) ->
  same_or (bind m k) (bind m' k').
Proof.
  intros H1 H2 HD. destruct m as [a|r|]; cbn [bind] in *; [| |congruence].
  - destruct H1 as [-> | ->]; [discriminate| |right; reflexivity]. cbn [bind]. apply (H2 a eq_refl HD).
  - destruct H1 as [-> | ->]; [discriminate|left; reflexivity|right; reflexivity].
Qed.
Lemma same_or_refl {A} (m : res A) : same_or m m. Proof. left. reflexivity. Qed.

Lemma k_unpack_same c fg : forall room fuel d nodes id rv,
  same_or (unpack fuel c fg d nodes id rv) (k_unpack room c fg d nodes id rv).
Proof.
  induction room as [|room IH]; intros fuel d nodes id rv; [intros _; right; reflexivity|].
  destruct fuel as [|fuel]; [intros HD; cbn in HD; congruence|]. cbn [unpack k_unpack].
  apply same_or_bind; [apply same_or_refl|]. intros e _. apply same_or_bind; [apply same_or_refl|]. intros sc _.
  destruct (negb sc); [apply same_or_refl|]. destruct rv; apply same_or_bind; auto.
Qed.
Lemma k_tree_same c fg d s room : forall fuel result node,
  same_or (unpack_tree fuel c fg d s result node) (k_unpack_tree fuel room c fg d s result node).
Proof.
  induction fuel as [|fuel IH]; intros result node; [apply same_or_refl|]. cbn [unpack_tree k_unpack_tree].
  apply same_or_bind; [apply same_or_refl|]. intros dt _. destruct (_ =? _); [apply same_or_refl|].
  apply same_or_bind; [apply k_unpack_same|auto].
Qed.

(** A relation between the extraction of nodes with and without limited stack carries over to the queries. *)
Lemma C80_same_proof : forall room c H pc fg sources targets,
  pc_calc_path_multiple c H pc fg sources targets <> Diverge ->
  k_calc_path_multiple room c H pc fg sources targets = pc_calc_path_multiple c H pc fg sources targets \/
  k_calc_path_multiple room c H pc fg sources targets = Panic stack_overflow.
Proof.
  intros room c H pc fg ss ts. unfold k_calc_path_multiple, pc_calc_path_multiple.
  do 5 (apply same_or_bind; [apply same_or_refl|intros [] _]).
  apply same_or_bind; [apply same_or_refl|]. intros [bw0 mn0] _.
  apply same_or_bind; [apply same_or_refl|]. intros fwd1 _.
  apply same_or_bind; [apply same_or_refl|]. intros bwd1 _.
  apply same_or_bind; [apply same_or_refl|]. intros [[[fwd2 bwd2] bw] mn] _.
  destruct (mn =? INVALID_NODE c); [apply same_or_refl|].
  apply same_or_bind; [apply same_or_refl|]. intros _ _.
  apply same_or_bind; [|intros nodes _; apply same_or_refl].
  unfold k_extract_nodes, extract_nodes.
  do 5 (apply same_or_bind; [apply same_or_refl|intros ? _]).
  apply same_or_bind; [apply k_tree_same|]. intros [ra xa] _.
  apply same_or_bind; [apply k_tree_same|]. intros [rb xb] _. apply same_or_refl.
Qed.

(** ** Room for the nodes of the path *)
Lemma k_unpack_room c fg : forall fuel d nodes id rv nodes', unpack fuel c fg d nodes id rv = Ok nodes' ->
  exists L, nodes' = nodes ++ L /\ (1 <= List.length L)%nat /\
    forall room, (List.length L <= room)%nat -> k_unpack room c fg d nodes id rv = Ok nodes'.
Proof.
  induction fuel as [|fuel IH]; intros d nodes id rv nodes' EQ; [discriminate|]. cbn [unpack] in EQ.
  apply bind_Ok in EQ as (e & E1 & EQ). apply bind_Ok in EQ as (sc & E2 & EQ).
  assert (forall d1 i1 d2 i2, (nodes1 <- unpack fuel c fg d1 nodes i1 rv ;; unpack fuel c fg d2 nodes1 i2 rv) = Ok nodes' ->
    exists L, nodes' = nodes ++ L /\ (2 <= List.length L)%nat /\ forall room, (List.length L <= S room)%nat ->
      (nodes1 <- k_unpack room c fg d1 nodes i1 rv ;; k_unpack room c fg d2 nodes1 i2 rv) = Ok nodes') as G.
  { intros d1 i1 d2 i2 G. apply bind_Ok in G as (nodes1 & G1 & G2).
    apply IH in G1 as (L1 & -> & H1 & K1). apply IH in G2 as (L2 & -> & H2 & K2).
    exists (L1 ++ L2). rewrite app_assoc, app_length. split; auto. split; [lia|]. intros room Hr.
    rewrite K1 by lia. cbn [bind]. apply K2. lia. }
  destruct (negb sc) eqn:Es.
  - injection EQ as <-. eexists. split; [reflexivity|]. split; [simpl; lia|]. intros room Hr.
    destruct room as [|room]; [simpl in Hr; lia|]. cbn [k_unpack]. rewrite E1. cbn [bind]. rewrite E2. cbn [bind]. rewrite Es. auto.
  - destruct rv; apply G in EQ as (L & -> & HL & HK); exists L; (split; [reflexivity|]); (split; [lia|]); intros room Hr;
      (destruct room as [|room]; [lia|]); cbn [k_unpack]; rewrite E1; cbn [bind]; rewrite E2; cbn [bind]; rewrite Es; apply HK; auto.
Qed.
Lemma k_tree_room c fg d s : forall fuel result node r x, unpack_tree fuel c fg d s result node = Ok (r, x) ->
  exists L, r = result ++ L /\
    forall room, (List.length L <= room)%nat -> k_unpack_tree fuel room c fg d s result node = Ok (r, x).
Proof.
  induction fuel as [|fuel IH]; intros result node r x EQ; [discriminate|]. cbn [unpack_tree] in EQ.
  apply bind_Ok in EQ as (dt & E1 & EQ). destruct (d_inc_edge dt =? INVALID_EDGE c) eqn:Ei.
  - injection EQ as <- <-. exists []. rewrite app_nil_r. split; auto. intros room _. cbn [k_unpack_tree]. rewrite E1. cbn [bind].
    rewrite Ei. auto.
  - apply bind_Ok in EQ as (r1 & E2 & EQ). apply k_unpack_room in E2 as (L1 & -> & _ & K1).
    apply IH in EQ as (L2 & -> & K2). exists (L1 ++ L2). rewrite app_assoc, app_length. split; auto. intros room Hr.
    cbn [k_unpack_tree]. rewrite E1. cbn [bind]. rewrite Ei, K1 by lia. cbn [bind]. apply K2. lia.
Qed.
Lemma C80_path_proof : forall room c H pc fg sources targets pc' r,
  pc_calc_path_multiple c H pc fg sources targets = Ok (pc', r) ->
  (forall p, r = Some p -> lenN (sp_get_nodes p) <= N.of_nat room + 1) ->
  k_calc_path_multiple room c H pc fg sources targets = Ok (pc', r).
Proof.
  intros room c H pc fg ss ts pc' r. unfold k_calc_path_multiple, pc_calc_path_multiple. intros EQ Hr.
  do 5 (apply bind_Ok in EQ as ([] & E0 & EQ); rewrite E0; clear E0; cbn [bind]).
  apply bind_Ok in EQ as ([bw0 mn0] & E0 & EQ); rewrite E0; clear E0; cbn [bind].
  apply bind_Ok in EQ as (fwd1 & E0 & EQ); rewrite E0; clear E0; cbn [bind].
  apply bind_Ok in EQ as (bwd1 & E0 & EQ); rewrite E0; clear E0; cbn [bind].
  apply bind_Ok in EQ as ([[[fwd2 bwd2] bw] mn] & E0 & EQ); rewrite E0; clear E0; cbn [bind].
  destruct (mn =? INVALID_NODE c); auto.
  apply bind_Ok in EQ as ([] & E0 & EQ); rewrite E0; clear E0; cbn [bind].
  apply bind_Ok in EQ as (nodes & EX & EQ).
  assert (lenN nodes <= N.of_nat room + 1) as Hn.
  { apply bind_Ok in EQ as (? & _ & EQ). apply bind_Ok in EQ as (? & _ & EQ). apply bind_Ok in EQ as (? & _ & EQ).
    injection EQ as <- <-. apply (Hr _ eq_refl). }
  assert (k_extract_nodes room c fg fwd2 bwd2 mn = Ok nodes) as ->; [|exact EQ].
  clear EQ Hr. unfold extract_nodes in EX. unfold k_extract_nodes.
  do 5 (apply bind_Ok in EX as (? & E0 & EX); rewrite E0; clear E0; cbn [bind]).
  apply bind_Ok in EX as ([ra xa] & E1 & EX). apply bind_Ok in EX as ([rb xb] & E2 & EX). injection EX as <-.
  apply k_tree_room in E1 as (L1 & -> & K1). apply k_tree_room in E2 as (L2 & -> & K2).
  unfold lenN in Hn. rewrite !app_length, rev_length in Hn. simpl in Hn.
  rewrite K1 by lia. cbn [bind]. rewrite K2 by lia. cbn [bind]. reflexivity.
Qed.

(** ** Room for the graph *)
Lemma C80_graph_proof : forall room c ops ig fg H pc sources targets,
  1 <= umax c -> frozen_graph c ops ig -> prepared c ig fg -> 1 <= N.of_nat room -> ig_num_nodes ig <= N.of_nat room + 1 ->
  k_calc_path_multiple room c H pc fg sources targets = pc_calc_path_multiple c H pc fg sources targets.
Proof.
  intros room c ops ig fg H pc ss ts Hu Hf Hp Hr1 Hr.
  assert (forall d nodes id rv, k_unpack room c fg d nodes id rv = unpack (unpack_fuel fg) c fg d nodes id rv) as HU.
  { intros d nodes id rv. destruct (N.lt_ge_cases id (lenN (fg_edges fg d))) as [Hid|Hid].
    - destruct (C58_proof c ops ig fg d id Hu Hf Hp Hid) as (k & Nk & Hk & _).
      destruct (proj2 (C58_recursion_proof _ _ _ _ _ Nk room nodes rv) ltac:(lia)) as (l & E1).
      pose proof (prepared_shape c ops ig fg Hu Hf Hp) as Hs.
      destruct (proj2 (C58_recursion_proof _ _ _ _ _ Nk (unpack_fuel fg) nodes rv)) as (l' & E2).
      { unfold unpack_fuel. rewrite (fs_n _ _ _ _ (shape_str _ _ _ _ Hs)). lia. }
      clear Hr Hk. revert nodes rv l E1 l' E2. 
      assert (forall k d id, nested c fg d id k -> forall room nodes rv, (N.to_nat k < room)%nat ->
        k_unpack room c fg d nodes id rv = unpack room c fg d nodes id rv) as G1.
      { clear. induction 1 as [d id e He Hi Ho|d id e ki ko He Hi Ho Ni IHi No IHo]; intros room nodes rv Hr.
        - destruct room as [|room]; [lia|]. cbn [unpack k_unpack]. rewrite (idx_Some _ _ _ He). cbn [bind].
          assert (fe_is_shortcut c e = Ok false) as ->.
          { unfold fe_is_shortcut. rewrite Hi, Ho, !N.eqb_refl. destruct (debug_build c); reflexivity. }
          reflexivity.
        - destruct room as [|room]; [lia|]. cbn [unpack k_unpack]. rewrite (idx_Some _ _ _ He). cbn [bind].
          assert (fe_is_shortcut c e = Ok true) as ->.
          { apply N.eqb_neq in Hi, Ho. unfold fe_is_shortcut. rewrite Hi, Ho. destruct (debug_build c); reflexivity. }
          cbn [bind negb]. destruct rv.
          + rewrite IHo by lia. apply bind_cong; auto. intros a. apply IHi. lia.
          + rewrite IHi by lia. apply bind_cong; auto. intros a. apply IHo. lia. }
      intros nodes rv l E1 l' E2.
      destruct (k_unpack_same c fg room (unpack_fuel fg) d nodes id rv) as [G|G]; [rewrite E2; discriminate|exact G|].
      rewrite (G1 k) in G; [rewrite E1 in G; discriminate|auto|]. destruct room; [|]; [lia|].
      destruct (Nat.le_gt_cases (S room) (N.to_nat k)) as [Hle|Hgt]; auto.
      exfalso. destruct (C58_recursion_proof _ _ _ _ _ Nk (S room) nodes rv) as [G2 _]. rewrite (G2 Hle) in E1. discriminate.
    - destruct room as [|room]; [lia|]. unfold unpack_fuel. cbn [k_unpack unpack].
      assert (idx (fg_edges fg d) id = Panic PIndex) as ->; [|reflexivity].
      unfold idx. destruct (getN (fg_edges fg d) id) eqn:G; auto. apply getN_Some_lt in G. lia. }
  assert (forall d s fuel result node, k_unpack_tree fuel room c fg d s result node = unpack_tree fuel c fg d s result node) as HT.
  { intros d s. induction fuel as [|fuel IH]; intros result node; auto. cbn [k_unpack_tree unpack_tree].
    apply bind_cong; auto. intros dt. destruct (_ =? _); auto. rewrite HU. apply bind_cong; auto. }
  unfold k_calc_path_multiple, pc_calc_path_multiple.
  do 5 (apply bind_cong; auto; intros []).
  apply bind_cong; auto. intros [bw0 mn0]. apply bind_cong; auto. intros fwd1. apply bind_cong; auto. intros bwd1.
  apply bind_cong; auto. intros [[[fwd2 bwd2] bw] mn]. destruct (mn =? INVALID_NODE c); auto.
  apply bind_cong; auto. intros []. apply bind_cong; auto.
  unfold k_extract_nodes, extract_nodes. do 5 (apply bind_cong; auto; intros ?).
  rewrite HT. apply bind_cong; auto. intros [ra xa]. rewrite HT. apply bind_cong; auto.
Qed.

Lemma C80_single_proof : forall room c H pc fg s t,
  (pc_calc_path c H pc fg s t <> Diverge ->
   k_pc_calc_path room c H pc fg s t = pc_calc_path c H pc fg s t \/ k_pc_calc_path room c H pc fg s t = Panic stack_overflow) /\
  (calc_path c H fg s t <> Diverge ->
   k_calc_path room c H fg s t = calc_path c H fg s t \/ k_calc_path room c H fg s t = Panic stack_overflow).
Proof.
  intros room c H pc fg s t. split.
  - apply C80_same_proof.
  - unfold k_calc_path, calc_path, k_pc_calc_path, pc_calc_path. intros HD.
    assert (pc_calc_path_multiple c H (create_calculator c fg) fg [(s, 0)] [(t, 0)] <> Diverge) as HD'.
    { intros E. apply HD. rewrite E. reflexivity. }
    destruct (C80_same_proof room c H _ fg _ _ HD') as [->| ->]; [left|right]; reflexivity.
Qed.
Lemma C80_single_graph_proof : forall room c ops ig fg H pc s t,
  1 <= umax c -> frozen_graph c ops ig -> prepared c ig fg -> 1 <= N.of_nat room -> ig_num_nodes ig <= N.of_nat room + 1 ->
  k_pc_calc_path room c H pc fg s t = pc_calc_path c H pc fg s t /\ k_calc_path room c H fg s t = calc_path c H fg s t.
Proof.
  intros room c ops ig fg H pc s t Hu Hf Hp Hr Hn.
  unfold k_calc_path, calc_path, k_pc_calc_path, pc_calc_path.
  rewrite !(C80_graph_proof room c ops ig fg H _ _ _ Hu Hf Hp Hr Hn). split; reflexivity.
Qed.
