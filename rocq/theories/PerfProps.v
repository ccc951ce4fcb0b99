(** * PerfProps: the performance tests check the input graph, not the preparation *)
From Verif Require Export RandomProps SpecPerf PrepareProps.
From Coq Require Import Lia Arith.PeanoNat.
Open Scope N_scope.

Lemma tally_unique E limit l : forall a b a' b', tally E limit l a b -> tally E limit l a' b' -> a = a' /\ b = b'.
Proof.
  induction l as [|[s t] l IH]; intros a b a' b' H1 H2.
  - inversion H1; inversion H2; subst. auto.
  - inversion H1 as [|s1 t1 l1 d1 x1 y1 D1 L1 T1|s1 t1 l1 x1 y1 D1 T1]; subst;
    inversion H2 as [|s2 t2 l2 d2 x2 y2 D2 L2 T2|s2 t2 l2 x2 y2 D2 T2]; subst;
    destruct (IH _ _ _ _ T1 T2) as (-> & ->).
    + destruct D1 as ((n1 & W1) & M1), D2 as ((n2 & W2) & M2). apply M1 in W2. apply M2 in W1. split; [f_equal; lia|auto].
    + destruct D1 as ((n1 & W1) & _). apply D2 in W1. lia.
    + destruct D2 as ((n2 & W2) & _). apply D1 in W2. lia.
    + auto.
Qed.

Definition verdict (sum missing a b : N) : res unit :=
  if sum =? a then if missing =? b then Ok tt else Panic (PAssert "invalid number of paths not found")
  else Panic (PAssert "invalid checksum").

Section Perf.
  Variables (c : cfg) (ops : list ig_op) (ig : InputGraph).
  Hypothesis Hd : debug_build c = true.
  Hypothesis Hu : 1 <= umax c.
  Hypothesis Hf : frozen_graph c ops ig.
  Hypothesis Hn : 1 <= ig_num_nodes ig.

  Lemma perf_queries_ok H hinv fg k : heap_laws H hinv -> prepared c ig fg -> forall i r r1 pc ck nf,
    (forall j, r1 j = r (2 * i + j)%nat) -> calculator c (ig_num_nodes ig) pc ->
    (exists a b, tally (accepted ops) (umax c)
        (map (fun i => (r (2 * i)%nat mod ig_num_nodes ig, r (2 * i + 1)%nat mod ig_num_nodes ig)) (seq i k)) a b /\
       perf_queries k c H r1 (ig_num_nodes ig) fg pc ck nf = Ok (ck + a, nf + b)) \/
    perf_queries k c H r1 (ig_num_nodes ig) fg pc ck nf = Panic POverflow.
  Proof.
    intros HL Hp. induction k as [|k IH]; intros i r r1 pc ck nf Hr Hpc.
    - left. exists 0, 0. split; [constructor|]. simpl. rewrite !N.add_0_r. reflexivity.
    - cbn [perf_queries]. unfold gen_range. destruct (N.ltb_spec 0 (ig_num_nodes ig)); [|lia]. cbn [bind].
      destruct (N.ltb_spec 0 (ig_num_nodes ig)); [|lia]. cbn [bind].
      rewrite !N.sub_0_r, !N.add_0_l. cbn [seq map].
      replace (r1 0%nat) with (r (2 * i)%nat) by (rewrite Hr, Nat.add_0_r; reflexivity). rewrite (Hr 1%nat).
      remember (r (2 * i)%nat mod ig_num_nodes ig) as s eqn:Es. remember (r (2 * i + 1)%nat mod ig_num_nodes ig) as t eqn:Et.
      assert (s < ig_num_nodes ig) as Hs by (subst s; apply N.mod_lt; lia).
      assert (t < ig_num_nodes ig) as Ht by (subst t; apply N.mod_lt; lia). clear Es Et.
      assert (forall j, r1 (S (S j)) = r (2 * S i + j)%nat) as Hr' by (intros j; rewrite Hr; f_equal; lia).
      unfold pc_calc_path.
      destruct (C12_accept_proof c ops ig fg H hinv pc [(s, 0)] [(t, 0)] Hu Hf Hp HL Hpc) as [(pc' & o & E)|(_ & E)];
        try discriminate; try (intros v w [[= <- <-]|[]]; assumption).
      2: { right. rewrite E. reflexivity. }
      rewrite E. cbn [bind].
      assert (calculator c (ig_num_nodes ig) pc') as Hpc' by (eapply calculator_multi; eauto).
      assert (answer c fg s t o) as Ha.
      { exists H, hinv. split; [exact HL|]. right. exists (ig_num_nodes ig), pc, pc'. auto. }
      destruct (answer_single c ops ig fg s t o Hd Hf Hp Ha) as (_ & _ & HA).
      destruct o as [p|].
      + assert (is_dist (accepted ops) s t (sp_weight p)) as HD by (eapply answer_is_dist; eauto).
        destruct HA as (_ & _ & Hlt & _). unfold uadd, sp_get_weight. rewrite Hd.
        destruct (N.leb_spec (ck + sp_weight p) (umax c)); [|right; reflexivity]. cbn [bind].
        destruct (IH (S i) r (fun j => r1 (S (S j))) pc' (ck + sp_weight p) nf Hr' Hpc') as [(a & b & HT & ->)|E']; [|auto].
        left. exists (sp_weight p + a), b. split; [apply tally_found; auto|]. do 2 f_equal. lia.
      + unfold uadd. rewrite Hd. destruct (N.leb_spec (nf + 1) (umax c)); [|right; reflexivity]. cbn [bind].
        destruct (IH (S i) r (fun j => r1 (S (S j))) pc' ck (nf + 1) Hr' Hpc') as [(a & b & HT & ->)|E']; [|auto].
        left. exists a, (b + 1). split; [apply tally_missing; auto|]. do 2 f_equal. lia.
  Qed.

  Lemma do_run_ok H hinv fg r k sum missing : heap_laws H hinv -> prepared c ig fg ->
    (exists a b, tally (accepted ops) (umax c) (query_pairs (ig_num_nodes ig) r k) a b /\
       do_run_performance_test c H r k fg (pc_new c (fg_get_num_nodes fg)) (ig_num_nodes ig) sum missing =
         verdict sum missing a b) \/
    do_run_performance_test c H r k fg (pc_new c (fg_get_num_nodes fg)) (ig_num_nodes ig) sum missing = Panic POverflow.
  Proof.
    intros HL Hp. unfold do_run_performance_test.
    assert (calculator c (ig_num_nodes ig) (pc_new c (fg_get_num_nodes fg))) as Hpc.
    { apply (calculator_new c (ig_num_nodes ig) fg). apply (ok_n _ _ _ _ (prepared_ok c ops ig fg Hd Hf Hp)). }
    destruct (perf_queries_ok H hinv fg k HL Hp 0%nat r r _ 0 0 (fun _ => eq_refl) Hpc) as [(a & b & HT & ->)|E].
    - left. exists a, b. split; [exact HT|]. cbn [bind]. unfold verdict, assert. rewrite !N.add_0_l.
      destruct (sum =? a); cbn [bind]; [|reflexivity]. destruct (missing =? b); reflexivity.
    - right. rewrite E. reflexivity.
  Qed.

  Lemma num_nodes_ok : ig_get_num_nodes ig = Ok (ig_num_nodes ig).
  Proof. destruct Hf as (_ & _ & Hz). unfold ig_get_num_nodes, ig_check_frozen. rewrite Hz. reflexivity. Qed.
  Lemma num_edges_ok : ig_get_num_edges ig = Ok (lenN (ig_edges ig)).
  Proof. destruct Hf as (_ & _ & Hz). unfold ig_get_num_edges, ig_check_frozen. rewrite Hz. reflexivity. Qed.

  Lemma C78_outcome_proof_ r k sum missing x : performance_test c r k ig sum missing x ->
    (exists a b, tally (accepted ops) (umax c) (query_pairs (ig_num_nodes ig) r k) a b /\ x = verdict sum missing a b) \/
    x = Panic POverflow \/ x = Panic PCapacity.
  Proof.
    intros [H hinv Q qinv params HL QL|H hinv Q qinv params po HL QL].
    - unfold run_performance_test, fg_new, uadd. rewrite Hd.
      destruct (1 <=? umax c / 2); [|auto].
      destruct (1 + 1 <=? umax c); [|auto]. cbn [bind]. destruct (1 + 1 <=? umax c / 2); [|auto]. cbn [bind].
      unfold prepare_algo.
      destruct (C13_proof c ops ig H hinv Q qinv params Hd Hf HL QL) as [(fg & E)|[E|E]]; rewrite E; auto.
      cbn [bind]. rewrite num_nodes_ok, num_edges_ok. cbn [bind].
      destruct (do_run_ok H hinv fg r k sum missing HL) as [HX|HX]; auto.
      left. exists params, H, hinv, Q, qinv. auto.
    - unfold run_performance_test_fixed_ordering.
      destruct (C13_proof c ops ig H hinv Q qinv params Hd Hf HL QL) as [(fg0 & E)|[E|E]]; rewrite E; auto. cbn [bind].
      assert (prepared c ig fg0) as Hp0 by (left; exists params, H, hinv, Q, qinv; auto).
      destruct (C10_proof c ops ig fg0 Hu Hf Hp0) as (order & Eo & Hperm). rewrite Eo. cbn [bind].
      unfold prepare_algo.
      destruct (C07_accepts_proof c ops ig H hinv order po Hd Hf HL Hperm) as [(fg & E2)|[E2|E2]]; rewrite E2; auto.
      cbn [bind unwrap]. rewrite num_nodes_ok, num_edges_ok. cbn [bind].
      destruct (do_run_ok H hinv fg r k sum missing HL) as [HX|HX]; auto.
      right. exists order, po. split; [exact Hperm|]. exists H, hinv. auto.
  Qed.
End Perf.

Lemma C78_outcome_proof : forall c ops ig r k sum missing x,
  debug_build c = true -> 1 <= umax c -> frozen_graph c ops ig -> 1 <= ig_num_nodes ig ->
  performance_test c r k ig sum missing x ->
  x = Panic POverflow \/ x = Panic PCapacity \/
  exists sum' missing', tally (accepted ops) (umax c) (query_pairs (ig_num_nodes ig) r k) sum' missing' /\
    (sum <> sum' -> x = Panic (PAssert "invalid checksum")) /\
    (sum = sum' -> missing <> missing' -> x = Panic (PAssert "invalid number of paths not found")) /\
    (sum = sum' -> missing = missing' -> x = Ok tt).
Proof.
  intros c ops ig r k sum missing x Hd Hu Hf Hn HT.
  destruct (C78_outcome_proof_ c ops ig Hd Hu Hf Hn r k sum missing x HT) as [(a & b & HA & ->)|[E|E]]; auto.
  right. right. exists a, b. split; [exact HA|]. unfold verdict.
  destruct (N.eqb_spec sum a); destruct (N.eqb_spec missing b); repeat split; intros; congruence.
Qed.

Lemma C78_agree_proof : forall c ops ig r k sum missing x x',
  debug_build c = true -> 1 <= umax c -> frozen_graph c ops ig -> 1 <= ig_num_nodes ig ->
  performance_test c r k ig sum missing x -> performance_test c r k ig sum missing x' ->
  x = x' \/ (x = Panic POverflow \/ x = Panic PCapacity) \/ (x' = Panic POverflow \/ x' = Panic PCapacity).
Proof.
  intros c ops ig r k sum missing x x' Hd Hu Hf Hn H1 H2.
  destruct (C78_outcome_proof_ c ops ig Hd Hu Hf Hn r k sum missing x H1) as [(a & b & HA & ->)|E]; [|auto].
  destruct (C78_outcome_proof_ c ops ig Hd Hu Hf Hn r k sum missing x' H2) as [(a' & b' & HA' & ->)|E]; [|auto].
  left. destruct (tally_unique _ _ _ _ _ _ _ HA HA') as (-> & ->). reflexivity.
Qed.

Lemma C78_tally_proof : forall E limit l a b a' b',
  tally E limit l a b -> tally E limit l a' b' -> a = a' /\ b = b'.
Proof. exact tally_unique. Qed.
