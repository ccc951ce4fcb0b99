(** * ChainProps: a chain contracted from one end to the other *)
From Verif Require Export Shape.
From Verif Require Export FileProps FileTrunc OverlayFacts RelLinear SpecChain.
From Coq Require Import Lia Arith.PeanoNat.
Open Scope N_scope.

Definition chain_edges (n : N) : list Edge := map (fun i => mkEdge i (i + 1) 1) (rangeN 0 (n - 1)).
Lemma chain_calls_eq n : chain_calls n = add_ops (chain_edges n) ++ [OpFreeze].
Proof. unfold chain_calls, add_ops, chain_edges. rewrite map_map. reflexivity. Qed.
Lemma chain_accepted n e : In e (accepted (chain_calls n)) <-> exists i, i + 1 < n /\ e = mkEdge i (i + 1) 1.
Proof.
  rewrite chain_calls_eq, accepted_adds. unfold chain_edges. rewrite in_map_iff. split.
  - intros ((i & <- & Hi) & _). apply rangeN_In in Hi. exists i. split; [lia|reflexivity].
  - intros (i & Hi & ->). split; [exists i; split; auto; apply rangeN_In; lia|].
    apply acceptable_spec. cbn. split; lia.
Qed.
Lemma chain_frozen c n : 2 <= n -> n + 1 <= umax c / 2 -> exists ig, frozen_graph c (chain_calls n) ig /\ ig_num_nodes ig = n.
Proof.
  intros Hn Hu. pose proof (N.mul_div_le (umax c) 2) as Hh.
  assert (exists ig, frozen_graph c (chain_calls n) ig) as (ig & Hf).
  { pose proof (add_all c (chain_edges n) ig_new eq_refl) as HA.
    rewrite chain_calls_eq.
    assert (forall e, In e (chain_edges n) -> acceptable e = true /\ e_from e < umax c /\ e_to e < umax c) as He.
    { intros e He. unfold chain_edges in He. apply in_map_iff in He as (i & <- & Hi). apply rangeN_In in Hi.
      split; [apply acceptable_spec; cbn; lia|]. cbn. lia. }
    assert (lenN (chain_edges n) = n - 1) as Hl.
    { unfold chain_edges, lenN. rewrite map_length. pose proof (lenN_rangeN 0 (n - 1)) as G. unfold lenN in G. lia. }
    eexists. split; [|split].
    - intros o Ho. apply in_app_iff in Ho as [Ho|[<-|[]]]; [|exact I].
      unfold add_ops in Ho. apply in_map_iff in Ho as (e & <- & Hi). unfold chain_edges in Hi.
      apply in_map_iff in Hi as (i & <- & Hi). apply rangeN_In in Hi. cbn. lia.
    - rewrite ig_run_app, HA; auto; [reflexivity|]. cbn [ig_edges ig_new]. rewrite Hl. change (lenN (@nil Edge)) with 0. lia.
    - reflexivity. }
  exists ig. split; auto. destruct Hf as (_ & Hr & Hz).
  destruct (C20_nodes_proof c (chain_calls n) ig) as (m & es & Em & _ & _ & _ & Hlt & Hmax); auto.
  { right. intros e He. apply chain_accepted in He as (i & Hi & ->). cbn. lia. }
  assert (ig_num_nodes ig = m) as ->.
  { unfold ig_get_num_nodes in Em. apply bind_Ok in Em as (u & _ & Em). congruence. }
  assert (In (mkEdge (n - 2) (n - 2 + 1) 1) (accepted (chain_calls n))) as Hin.
  { apply chain_accepted. exists (n - 2). split; [lia|auto]. }
  destruct Hmax as (e & He & ->); [destruct (accepted _); [destruct Hin|discriminate]|].
  apply chain_accepted in He as (i & Hi & ->). apply Hlt in Hin. cbn in *. lia.
Qed.

Lemma chain_perm n : 2 <= n -> permutation_of_nodes n (from_one_end n).
Proof.
  intros Hn. unfold from_one_end. split.
  - apply NoDup_app_intro; [apply rangeN_NoDup| |].
    + constructor; [|constructor; [|constructor]]; cbn; intuition lia.
    + intros x Hx [<-|[<-|[]]]; apply rangeN_In in Hx; lia.
  - intros x. rewrite in_app_iff, rangeN_In. cbn. split; [intros [H|[H|[H|[]]]]; lia|].
    intros Hx. destruct (N.eq_dec x 0); [auto|]. destruct (N.eq_dec x (n - 1)); [auto|]. left. lia.
Qed.
Lemma chain_position n x : 1 <= x < n - 1 -> getN (from_one_end n) (x - 1) = Some x.
Proof.
  intros Hx. unfold from_one_end. rewrite getN_app1 by (rewrite lenN_rangeN; lia).
  rewrite getN_rangeN by lia. f_equal. lia.
Qed.
Lemma chain_position_0 n : 2 <= n -> getN (from_one_end n) (n - 2) = Some 0.
Proof.
  intros Hn. unfold from_one_end. rewrite getN_app2 by (rewrite lenN_rangeN; lia). rewrite lenN_rangeN.
  replace (n - 2 - (n - 1 - 1)) with 0 by lia. reflexivity.
Qed.
Lemma chain_position_last n : 2 <= n -> getN (from_one_end n) (n - 1) = Some (n - 1).
Proof.
  intros Hn. unfold from_one_end. rewrite getN_app2 by (rewrite lenN_rangeN; lia). rewrite lenN_rangeN.
  replace (n - 1 - (n - 1 - 1)) with 1 by lia. reflexivity.
Qed.

Lemma chain_walk n u v ns W : walk (accepted (chain_calls n)) u v ns W -> v = u + W.
Proof.
  induction 1 as [u|u v t w ns W Hin HW IH]; [lia|]. apply chain_accepted in Hin as (i & _ & Hi).
  injection Hi as -> -> ->. lia.
Qed.
Lemma chain_walk_to n k : k < n -> exists ns, walk (accepted (chain_calls n)) 0 k ns k.
Proof.
  assert (forall j u, u + N.of_nat j < n -> exists ns, walk (accepted (chain_calls n)) u (u + N.of_nat j) ns (N.of_nat j)) as G.
  { induction j as [|j IH]; intros u Hu.
    - exists [u]. replace (u + N.of_nat 0) with u by lia. constructor.
    - destruct (IH (u + 1)) as (ns & Hns); [lia|]. exists (u :: ns).
      replace (u + N.of_nat (S j)) with (u + 1 + N.of_nat j) by lia. replace (N.of_nat (S j)) with (1 + N.of_nat j) by lia.
      apply walk_cons with (v := u + 1); auto. apply chain_accepted. exists u. split; [lia|auto]. }
  intros Hk. destruct (G (N.to_nat k) 0) as (ns & Hns); [lia|]. rewrite N2Nat.id, N.add_0_l in Hns. eauto.
Qed.

Lemma walk_first E s m ns W : walk E s m ns W ->
  s = m /\ W = 0 \/ exists v w, In (mkEdge s v w) E /\ getN ns 0 = Some s /\ getN ns 1 = Some v.
Proof.
  destruct 1 as [|u v t w ns W Hin P]; [auto|]. right. exists v, w. split; auto. split; [reflexivity|].
  cbn. destruct P; reflexivity.
Qed.

Section Chain.
  Variables (c : cfg) (n : N) (ig : InputGraph) (fg : FastGraph).
  Hypothesis Hn : 2 <= n.
  Hypothesis Hf : frozen_graph c (chain_calls n) ig.
  Hypothesis Hnum : ig_num_nodes ig = n.
  Hypothesis Hp : prepared c ig fg.
  Hypothesis Hord : get_node_ordering fg = Ok (from_one_end n).
  Hypothesis Hd : debug_build c = true.
  Hypothesis Hu : n <= umax c.

  Lemma chain_shape : fg_shape c (ig_edges ig) n fg.
  Proof. rewrite <- Hnum. apply (prepared_shape c (chain_calls n)); auto. lia. Qed.
  Lemma chain_rank i v : getN (from_one_end n) i = Some v -> rk fg v = i.
  Proof. apply (node_ordering_ok _ _ _ _ _ chain_shape Hord). Qed.
  Lemma chain_edge_up d id e : getN (fg_edges fg d) id = Some e -> edge_start d e < edge_end d e.
  Proof.
    intros He. destruct (C34_proof c _ ig fg _ Hd Hf Hp Hord) as (_ & F & B).
    destruct (sh_edge _ _ _ _ chain_shape _ _ _ He) as (_ & _ & Hr).
    assert (fe_base e <> fe_adj e) as Hne by (intros E; rewrite E in Hr; lia).
    assert (exists ns, walk (ig_edges ig) (edge_start d e) (edge_end d e) ns (fe_weight e)) as (ns & HW).
    { apply getN_In in He. destruct d; [apply F, He|apply B, He]. }
    apply (frozen_walk c (chain_calls n) ig) in HW; auto. apply chain_walk in HW.
    destruct d; cbn [edge_start edge_end] in *; lia.
  Qed.
  Lemma chain_input d id e : getN (fg_edges fg d) id = Some e -> edge_end d e = edge_start d e + 1 \/
    exists ei eo, fe_replaced_in e <> umax c /\ fe_replaced_out e <> umax c /\
      getN (fg_edges fg Bwd) (fe_replaced_in e) = Some ei /\ getN (fg_edges fg Fwd) (fe_replaced_out e) = Some eo /\
      fe_base ei = fe_base eo /\ fe_adj ei = edge_start d e /\ fe_adj eo = edge_end d e /\
      rk fg (fe_base ei) < rk fg (edge_start d e) /\ rk fg (fe_base ei) < rk fg (edge_end d e).
  Proof.
    intros He. destruct (sh_edge _ _ _ _ chain_shape _ _ _ He) as (_ & _ & Hr).
    destruct (sh_mod _ _ _ _ chain_shape _ _ _ He) as [(_ & _ & Hin)|(ei & eo & H1 & H2 & H3 & H4 & H5 & H6 & H7 & H8 & _)].
    - left. destruct Hf as (_ & Hrun & _). apply (hg_sub _ _ _ (proj1 (run_inv _ _ _ Hrun))) in Hin.
      apply chain_accepted in Hin as (i & _ & Hi). destruct d; cbn in *; injection Hi as E1 E2 E3; lia.
    - right. exists ei, eo. destruct d; cbn in *; repeat split; auto; lia.
  Qed.

  Lemma chain_nested k : forall d id e, getN (fg_edges fg d) id = Some e -> edge_start d e = 0 -> edge_end d e = k + 1 ->
    k + 1 < n -> nested c fg d id k.
  Proof.
    induction k as [|k IH] using N.peano_ind; intros d id e He Hs Ht Hk.
    - destruct (chain_input _ _ _ He) as [_|(ei & eo & _ & _ & Gi & Go & Hb & Ai & Ao & _)].
      + destruct (sh_mod _ _ _ _ chain_shape _ _ _ He) as [(Hi & Ho & _)|(ei & eo & H1 & H2 & H3 & H4 & H5 & H6 & H7 & H8 & _)].
        * apply (nested_edge c fg d id e); auto.
        * exfalso. apply chain_edge_up in H3. apply chain_edge_up in H4. cbn [edge_start edge_end] in *.
          destruct d; cbn [edge_start edge_end fsrc fdst] in *; lia.
      + exfalso. apply chain_edge_up in Gi. apply chain_edge_up in Go. cbn [edge_start edge_end] in Gi, Go. lia.
    - destruct (chain_input _ _ _ He) as [G|(ei & eo & Ni & No & Gi & Go & Hb & Ai & Ao & R1 & R2)]; [lia|].
      pose proof (chain_edge_up _ _ _ Gi) as Ui. pose proof (chain_edge_up _ _ _ Go) as Uo. cbn [edge_start edge_end] in Ui, Uo.
      (* the outgoing edge is an edge of the chain *)
      assert (fe_adj eo = fe_base eo + 1) as Hm.
      { destruct (chain_input _ _ _ Go) as [G|(fi & fo & _ & _ & Hi & Ho & Eb & Ei & Eo & Q1 & Q2)]; [exact G|].
        exfalso. apply chain_edge_up in Hi. apply chain_edge_up in Ho. cbn [edge_start edge_end] in *.
        rewrite (chain_rank (fe_base fi - 1) (fe_base fi)) in Q1 by (apply chain_position; lia).
        rewrite (chain_rank (fe_base eo - 1) (fe_base eo)) in Q1 by (apply chain_position; lia). lia. }
      assert (nested c fg Fwd (fe_replaced_out e) 0) as No0.
      { destruct (sh_mod _ _ _ _ chain_shape _ _ _ Go) as [(Hi & Ho & _)|(fi & fo & H1 & H2 & H3 & H4 & H5 & H6 & H7 & H8 & _)].
        - apply (nested_edge c fg Fwd _ eo); auto.
        - exfalso. apply chain_edge_up in H3. apply chain_edge_up in H4. cbn [edge_start edge_end fsrc fdst] in *. lia. }
      assert (nested c fg Bwd (fe_replaced_in e) k) as Ni0.
      { apply (IH Bwd _ ei Gi); cbn [edge_start edge_end]; lia. }
      replace (N.succ k) with (1 + N.max k 0) by lia. apply (nested_shortcut c fg d id e); auto.
  Qed.

  Lemma chain_top : n < umax c -> exists id e, getN (fg_edges fg Fwd) id = Some e /\ fe_base e = 0 /\ fe_adj e = n - 1.
  Proof.
    intros Hlt. destruct (chain_walk_to n (n - 1)) as (ns & HW); [lia|].
    assert (is_dist (accepted (chain_calls n)) 0 (n - 1) (n - 1)) as HD.
    { split; [eauto|]. intros ns' W' HW'. apply chain_walk in HW'. lia. }
    destruct (C35_order_proof c _ ig fg _ 0 (n - 1) (n - 1) Hd Hf Hp Hord HD) as (m & ns1 & ns2 & W1 & W2 & P1 & P2 & HS & HC);
      [unfold WEIGHT_MAX; lia|].
    assert (forall i v, getN (from_one_end n) i = Some v -> i < n) as Hlen.
    { intros i v G. apply getN_Some_lt in G. unfold from_one_end in G. rewrite lenN_app, lenN_rangeN in G.
      change (lenN [0; n - 1]) with 2 in G. lia. }
    assert (m = n - 1) as ->.
    { destruct (walk_first _ _ _ _ _ P2) as [(E & _)|(v & w & _ & G0 & G1)]; [auto|]. exfalso.
      destruct (HC ns2 0 (n - 1) v) as (i & j & Hij & Gi & Gj); auto.
      apply Hlen in Gj. apply chain_rank in Gi. rewrite (chain_rank _ _ (chain_position_last n Hn)) in Gi. lia. }
    destruct (walk_first _ _ _ _ _ P1) as [(E & _)|(v & w & Hin & G0 & G1)]; [lia|].
    destruct (HC ns1 0 0 v) as (i & j & Hij & Gi & Gj); auto.
    pose proof (Hlen _ _ Gj) as Hj. apply chain_rank in Gi. rewrite (chain_rank _ _ (chain_position_0 n Hn)) in Gi.
    assert (j = n - 1) as -> by lia. rewrite (chain_position_last n Hn) in Gj. injection Gj as <-.
    unfold stored in Hin. apply in_map_iff in Hin as (e & He & Hin). apply In_getN in Hin as (id & _ & Hid).
    injection He as E1 E2 _. exists id, e. auto.
  Qed.
End Chain.

Lemma C58_attained_proof : forall c H hinv n, debug_build c = true -> heap_laws H hinv -> 2 <= n ->
  n * n <= umax c / 2 -> 4 * n <= umax c ->
  exists ig fg id, frozen_graph c (chain_calls n) ig /\ ig_num_nodes ig = n /\
    permutation_of_nodes n (from_one_end n) /\
    prepare_with_order_with_params c H ig (from_one_end n) (mkParamsWithOrder n) = Ok (inl fg) /\
    nested c fg Fwd id (n - 2).
Proof.
  intros c H hinv n Hd HL Hn B1 B2. pose proof (N.mul_div_le (umax c) 2) as Hh.
  assert (2 * n <= n * n) as Hsq by (apply N.mul_le_mono_r; auto).
  destruct (chain_frozen c n Hn) as (ig & Hf & Hnum); [lia|].
  pose proof (chain_perm n Hn) as Hperm.
  destruct (C60_order_proof c (chain_calls n) ig 1 H hinv (from_one_end n) (mkParamsWithOrder n)) as (fg & HE); auto.
  { rewrite Hnum. exact Hperm. }
  { cbn. lia. }
  { intros e He. apply chain_accepted in He as (i & _ & ->). cbn. lia. }
  { rewrite Hnum. split; [lia|]. split; lia. }
  assert (prepared_by_order c ig (from_one_end n) (mkParamsWithOrder n) fg) as Hpo by (exists H, hinv; auto).
  assert (prepared c ig fg) as Hp.
  { right. exists (from_one_end n), (mkParamsWithOrder n). rewrite Hnum. auto. }
  assert (get_node_ordering fg = Ok (from_one_end n)) as Hord.
  { apply (C10_given_proof c (chain_calls n) ig (from_one_end n) (mkParamsWithOrder n)); auto; [lia|rewrite Hnum; auto]. }
  destruct (chain_top c n ig fg Hn Hf Hnum Hp Hord Hd) as (id & e & He & Hb & Ha); [lia|lia|].
  exists ig, fg, id. split; auto. split; auto. split; auto. split; auto.
  apply (chain_nested c n ig fg Hn Hf Hnum Hp Hord Hd ltac:(lia) (n - 2) Fwd id e He); cbn; lia.
Qed.

(** ** The recursion of unpack *)
Lemma C58_recursion_proof : forall c fg d id k, nested c fg d id k -> forall room nodes reverse,
  ((room <= N.to_nat k)%nat -> unpack room c fg d nodes id reverse = Diverge) /\
  ((N.to_nat k < room)%nat -> exists l, unpack room c fg d nodes id reverse = Ok (nodes ++ l)).
Proof.
  induction 1 as [d id e He Hi Ho|d id e ki ko He Hi Ho Ni IHi No IHo]; intros room nodes reverse.
  - split; [destruct room; [reflexivity|lia]|]. intros Hr. destruct room as [|room]; [lia|].
    cbn [unpack]. rewrite (idx_Some _ _ _ He). cbn [bind].
    assert (fe_is_shortcut c e = Ok false) as ->.
    { unfold fe_is_shortcut. rewrite Hi, Ho, !N.eqb_refl. destruct (debug_build c); reflexivity. }
    cbn [bind negb]. eauto.
  - destruct room as [|room]; [split; [reflexivity|lia]|]. cbn [unpack]. rewrite (idx_Some _ _ _ He). cbn [bind].
    assert (fe_is_shortcut c e = Ok true) as ->.
    { apply N.eqb_neq in Hi, Ho. unfold fe_is_shortcut. rewrite Hi, Ho. destruct (debug_build c); reflexivity. }
    cbn [bind negb]. destruct reverse.
    + destruct (Nat.le_gt_cases room (N.to_nat ko)) as [Lo|Lo].
      { rewrite (proj1 (IHo room nodes true) Lo). split; [reflexivity|lia]. }
      destruct (proj2 (IHo room nodes true) Lo) as (l & ->). cbn [bind].
      destruct (Nat.le_gt_cases room (N.to_nat ki)) as [Li|Li].
      { rewrite (proj1 (IHi room _ true) Li). split; [reflexivity|lia]. }
      destruct (proj2 (IHi room (nodes ++ l) true) Li) as (l' & ->). split; [lia|].
      intros _. rewrite <- app_assoc. eauto.
    + destruct (Nat.le_gt_cases room (N.to_nat ki)) as [Li|Li].
      { rewrite (proj1 (IHi room nodes false) Li). split; [reflexivity|lia]. }
      destruct (proj2 (IHi room nodes false) Li) as (l & ->). cbn [bind].
      destruct (Nat.le_gt_cases room (N.to_nat ko)) as [Lo|Lo].
      { rewrite (proj1 (IHo room _ false) Lo). split; [reflexivity|lia]. }
      destruct (proj2 (IHo room (nodes ++ l) false) Lo) as (l' & ->). split; [lia|].
      intros _. rewrite <- app_assoc. eauto.
Qed.
