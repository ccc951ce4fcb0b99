(** * StarProps: edges that every preparation stores, and the sizes of prepared stars *)
From Verif Require Import ChainProps FillProps MetaProps UnpackFacts.
From Verif Require Export SpecStar.
From Coq Require Import Lia Arith.PeanoNat.
Open Scope N_scope.

Section Must.
  Variables (c : cfg) (ops : list ig_op) (ig : InputGraph) (fg : FastGraph) (order : list N).
  Hypothesis Hd : debug_build c = true.
  Hypothesis Hf : frozen_graph c ops ig.
  Hypothesis Hp : prepared c ig fg.
  Hypothesis Hord : get_node_ordering fg = Ok order.
  Let Hok : fg_ok c (ig_edges ig) (ig_num_nodes ig) fg := prepared_ok c ops ig fg Hd Hf Hp.

  Lemma must_up d u v W : path (up fg d) u v W -> u = v /\ W = 0 \/ rk fg u < rk fg v.
  Proof.
    induction 1 as [u|u y v w W (id & ed & He & <- & <- & <-) _ IH]; [auto|].
    destruct (ok_edge _ _ _ _ Hok d id ed He) as (_ & _ & _ & Hr). right. destruct IH as [[<- _]|IH]; lia.
  Qed.
  Lemma must_earlier x y : earlier order x y -> rk fg x < rk fg y.
  Proof.
    destruct (node_ordering_ok _ _ _ _ _ (ok_shape _ _ _ _ Hok) Hord) as [_ HG].
    intros (i & j & Hij & Hi & Hj). apply HG in Hi as [_ ->]. apply HG in Hj as [_ ->]. auto.
  Qed.
  Lemma must_between u y v w A B : (forall ns W', walk (accepted ops) u v ns W' -> w <= W') ->
    path (edge_rel (ig_edges ig)) u y A -> path (edge_rel (ig_edges ig)) y v B -> A + B <= w -> on_lightest (accepted ops) u y v.
  Proof.
    intros Hm HA HB Hle ns W HW. apply path_walk in HA as (n1 & HA). apply path_walk in HB as (n2 & HB).
    exists n1, A, n2, B. split; [eapply frozen_walk; eauto|]. split; [eapply frozen_walk; eauto|]. apply Hm in HW. lia.
  Qed.

  Lemma must_store u v w : u <> v -> is_dist (accepted ops) u v w -> w < umax c -> only_earlier_between (accepted ops) order u v ->
    stored_edge fg u v w.
  Proof.
    intros Huv [(ns & HW) Hm] Hw Hlow. destruct (accepted_walk _ _ _ _ _ _ _ Hf HW) as (W' & HW' & Hle).
    apply walk_path in HW'. destruct (ok_complete _ _ _ _ Hok u v W' HW') as (m & W1 & W2 & P1 & P2 & HS); [lia|].
    pose proof (up_fwd_path _ _ _ _ (ok_base _ _ _ _ Hok) _ _ _ P1) as Q1.
    pose proof (up_bwd_path _ _ _ _ (ok_base _ _ _ _ Hok) _ _ _ P2) as Q2.
    assert (w <= W1 + W2) as Hge.
    { destruct (path_walk _ _ _ _ (path_app _ _ _ _ _ _ Q1 Q2)) as (n3 & HW3). eapply Hm, frozen_walk; eauto. }
    destruct (must_up _ _ _ _ P1) as [[<- ->]|R1].
    - (* backward edges only *)
      destruct P2 as [v|v y m w2 W2 Hup P2]; [congruence|]. destruct (must_up _ _ _ _ P2) as [[-> ->]|R2].
      + apply stored_edge_get. destruct Hup as (id & ed & He & <- & <- & <-). exists Bwd, id, ed. cbn. repeat split; auto; lia.
      + exfalso. assert (rk fg v < rk fg y) as Ry.
        { destruct Hup as (id & ed & He & <- & <- & <-). apply (ok_edge _ _ _ _ Hok _ _ _ He). }
        destruct (Hlow y) as [_ Hy]; [intros ->; lia|intros ->; lia| |apply must_earlier in Hy; lia].
        pose proof (up_bwd_path _ _ _ _ (ok_base _ _ _ _ Hok) _ _ _ P2) as Q3.
        destruct Hup as (id & ed & He & <- & <- & <-).
        apply (must_between _ _ _ w _ _ Hm Q3 (edge_path _ _ _ _ (ok_base _ _ _ _ Hok) Bwd _ _ He)). lia.
    - destruct (must_up _ _ _ _ P2) as [[<- ->]|R2].
      + (* forward edges only *)
        destruct P1 as [u|u y v w1 W1 Hup P1]; [congruence|]. destruct (must_up _ _ _ _ P1) as [[-> ->]|R3].
        * apply stored_edge_get. destruct Hup as (id & ed & He & <- & <- & <-). exists Fwd, id, ed. cbn. repeat split; auto; lia.
        * exfalso. assert (rk fg u < rk fg y) as Ry.
          { destruct Hup as (id & ed & He & <- & <- & <-). apply (ok_edge _ _ _ _ Hok _ _ _ He). }
          destruct (Hlow y) as [Hy _]; [intros ->; lia|intros ->; lia| |apply must_earlier in Hy; lia].
          pose proof (up_fwd_path _ _ _ _ (ok_base _ _ _ _ Hok) _ _ _ P1) as Q3.
          destruct Hup as (id & ed & He & <- & <- & <-).
          apply (must_between _ _ _ w _ _ Hm (edge_path _ _ _ _ (ok_base _ _ _ _ Hok) Fwd _ _ He) Q3). lia.
      + exfalso. destruct (Hlow m) as [Hy _]; [intros ->; lia|intros ->; lia| |apply must_earlier in Hy; lia].
        apply (must_between _ _ _ w _ _ Hm Q1 Q2). lia.
  Qed.
End Must.

Lemma C81_must_proof : forall c ops ig fg order u v w, debug_build c = true -> frozen_graph c ops ig -> prepared c ig fg ->
  get_node_ordering fg = Ok order -> u <> v -> is_dist (accepted ops) u v w -> w < umax c ->
  only_earlier_between (accepted ops) order u v -> stored_edge fg u v w.
Proof. intros. eapply must_store; eauto. Qed.

Lemma prepared_some_limit c ig fg : prepared c ig fg -> exists k, prepared_with_limit c ig k fg.
Proof. intros [(ps & Hp)|(o & ps & Hperm & Hp)]; eexists; [left|right]; eauto. Qed.

Lemma through_walk es P u v w : through es P u v w -> exists ns, walk es u v ns w /\ forall y, In y ns -> y = u \/ y = v \/ P y.
Proof.
  induction 1 as [u v w He|u y v w W He Hy _ (ns & HW & HI)].
  - exists [u; v]. split; [replace w with (w + 0) by lia; eapply walk_cons; eauto; constructor|]. cbn. intuition.
  - exists (u :: ns). split; [eapply walk_cons; eauto|]. intros z [<-|Hz]; [auto|]. apply HI in Hz as [->|[->|Hz]]; auto.
Qed.

Lemma walk_middle es u y v A B n1 n2 : walk es u y n1 A -> walk es y v n2 B -> exists ns, walk es u v ns (A + B) /\ In y ns.
Proof.
  induction 1 as [u|u x t w ns W He _ IH]; intros H2.
  - exists n2. split; auto. destruct H2; left; auto.
  - destruct (IH H2) as (n3 & HW & Hy). exists (u :: n3). split; [|right; auto]. rewrite <- N.add_assoc. eapply walk_cons; eauto.
Qed.

Lemma C81_unique_proof : forall c ops ig fg order u v ns w, debug_build c = true -> frozen_graph c ops ig -> prepared c ig fg ->
  get_node_ordering fg = Ok order -> u <> v -> w < umax c ->
  walk (accepted ops) u v ns w -> (forall ns' W', walk (accepted ops) u v ns' W' -> w < W' \/ (W' = w /\ ns' = ns)) ->
  (stored_edge fg u v w <-> forall y, In y ns -> y <> u -> y <> v -> earlier order y u /\ earlier order y v).
Proof.
  intros c ops ig fg order u v ns w Hd Hf Hp Ho Huv Hw HW Huniq. split.
  - intros Hs y Hy Hyu Hyv. destruct (prepared_some_limit _ _ _ Hp) as (k & Hk).
    apply (C63_low_proof c ops ig k fg order Hd Hf Hk Ho) in Hs. apply through_walk in Hs as (ns' & HW' & HI).
    apply Huniq in HW' as [E|[_ E]]; [lia|]. rewrite <- E in Hy. destruct (HI y Hy) as [->|[->|G]]; congruence || auto.
  - intros Hlow. apply (C81_must_proof c ops ig fg order); auto.
    + split; [eauto|]. intros ns' W' H'. destruct (Huniq _ _ H'); lia.
    + intros y Hyu Hyv Hon. destruct (Hon _ _ HW) as (n1 & A & n2 & B & H1 & H2 & Hle).
      destruct (walk_middle _ _ _ _ _ _ _ _ H1 H2) as (n3 & H3 & Hin). destruct (Huniq _ _ H3) as [G|[_ <-]]; [lia|].
      apply Hlow; auto.
Qed.

(** ** Stars *)
Definition star_edges (n : N) : list Edge := map (fun i => mkEdge 0 i 1) (rangeN 1 n) ++ map (fun i => mkEdge i 0 1) (rangeN 1 n).
Lemma star_calls_eq n : star_calls n = add_ops (star_edges n) ++ [OpFreeze].
Proof. unfold star_calls, star_edges, add_ops. rewrite map_app, !map_map, <- app_assoc. reflexivity. Qed.
Lemma star_edges_In n e : In e (star_edges n) <-> exists i, 1 <= i < n /\ (e = mkEdge 0 i 1 \/ e = mkEdge i 0 1).
Proof.
  unfold star_edges. rewrite in_app_iff, !in_map_iff. split.
  - intros [(i & <- & Hi)|(i & <- & Hi)]; apply rangeN_In in Hi; exists i; auto.
  - intros (i & Hi & [-> | ->]); [left|right]; exists i; (split; [auto|apply rangeN_In; auto]).
Qed.
Lemma star_accepted n e : In e (accepted (star_calls n)) <-> exists i, 1 <= i < n /\ (e = mkEdge 0 i 1 \/ e = mkEdge i 0 1).
Proof.
  rewrite star_calls_eq, accepted_adds, star_edges_In. split; [tauto|]. intros (i & Hi & He). split; [eauto|].
  apply acceptable_spec. destruct He as [-> | ->]; cbn; lia.
Qed.
Lemma star_frozen c n : 2 <= n -> 2 * n <= umax c / 2 -> exists ig, frozen_graph c (star_calls n) ig /\ ig_num_nodes ig = n.
Proof.
  intros Hn Hu. pose proof (N.mul_div_le (umax c) 2) as Hh.
  assert (exists ig, frozen_graph c (star_calls n) ig) as (ig & Hf).
  { pose proof (add_all c (star_edges n) ig_new eq_refl) as HA.
    rewrite star_calls_eq.
    assert (forall e, In e (star_edges n) -> acceptable e = true /\ e_from e < umax c /\ e_to e < umax c) as He.
    { intros e He. apply star_edges_In in He as (i & Hi & [-> | ->]); (split; [apply acceptable_spec; cbn; lia|cbn; lia]). }
    assert (lenN (star_edges n) = 2 * (n - 1)) as Hl.
    { unfold star_edges. rewrite lenN_app, !lenN_map, lenN_rangeN. lia. }
    eexists. split; [|split].
    - intros o Ho. apply in_app_iff in Ho as [Ho|[<-|[]]]; [|exact Logic.I].
      unfold add_ops in Ho. apply in_map_iff in Ho as (e & <- & Hi). apply star_edges_In in Hi as (i & Hi & [-> | ->]); cbn; lia.
    - rewrite ig_run_app, HA; auto; [reflexivity|]. cbn [ig_edges ig_new]. rewrite Hl. change (lenN (@nil Edge)) with 0. lia.
    - reflexivity. }
  exists ig. split; auto. destruct Hf as (_ & Hr & Hz).
  destruct (C20_nodes_proof c (star_calls n) ig) as (m & es & Em & _ & _ & _ & Hlt & Hmax); auto.
  { right. intros e He. apply star_accepted in He as (i & Hi & [-> | ->]); cbn; lia. }
  assert (ig_num_nodes ig = m) as ->.
  { unfold ig_get_num_nodes in Em. apply bind_Ok in Em as (u & _ & Em). congruence. }
  assert (In (mkEdge 0 (n - 1) 1) (accepted (star_calls n))) as Hin.
  { apply star_accepted. exists (n - 1). split; [lia|auto]. }
  destruct Hmax as (e & He & ->); [destruct (accepted _); [destruct Hin|discriminate]|].
  apply star_accepted in He as (i & Hi & [-> | ->]); apply Hlt in Hin; cbn in *; lia.
Qed.

Lemma star_weight n u v ns W : walk (accepted (star_calls n)) u v ns W -> u <> v -> 1 <= W /\ (u <> 0 -> v <> 0 -> 2 <= W).
Proof.
  intros HW Huv. destruct HW as [u|u y v w ns W He HW]; [congruence|].
  apply star_accepted in He as (i & Hi & [[= -> -> ->]|[= -> -> ->]]); (split; [lia|]); [congruence|].
  intros _ Hv. destruct HW as [|u y v w ns W He HW]; [congruence|]. apply star_accepted in He as (j & Hj & [[= -> -> ->]|[= -> -> ->]]); lia.
Qed.
Lemma star_out n i : 1 <= i < n -> walk (accepted (star_calls n)) 0 i [0; i] 1.
Proof. intros Hi. change 1 with (1 + 0). apply walk_cons with (v := i); [|constructor]. apply star_accepted. eauto. Qed.
Lemma star_in n i : 1 <= i < n -> walk (accepted (star_calls n)) i 0 [i; 0] 1.
Proof. intros Hi. change 1 with (1 + 0). apply walk_cons with (v := 0); [|constructor]. apply star_accepted. eauto. Qed.
Lemma star_over n i j : 1 <= i < n -> 1 <= j < n -> walk (accepted (star_calls n)) i j [i; 0; j] 2.
Proof.
  intros Hi Hj. change 2 with (1 + 1). apply walk_cons with (v := 0); [|apply star_out; auto]. apply star_accepted. eauto.
Qed.
Lemma star_next n order u v ns : u <> v -> walk (accepted (star_calls n)) u v ns 1 -> is_dist (accepted (star_calls n)) u v 1 /\
  only_earlier_between (accepted (star_calls n)) order u v.
Proof.
  intros Huv HW. split.
  - split; [eauto|]. intros ns' W' HW'. apply (star_weight _ _ _ _ _ HW' Huv).
  - intros y Hu Hv Hon. destruct (Hon _ _ HW) as (n1 & A & n2 & B & H1 & H2 & Hle).
    apply star_weight in H1 as [H1 _]; [|congruence]. apply star_weight in H2 as [H2 _]; [|congruence]. lia.
Qed.

Lemma star_perm_first n : permutation_of_nodes n (hub_first n).
Proof. split; [apply rangeN_NoDup|]. intros x. unfold hub_first. rewrite rangeN_In. lia. Qed.
Lemma star_perm_last n : 2 <= n -> permutation_of_nodes n (hub_last n).
Proof.
  intros Hn. unfold hub_last. split.
  - apply NoDup_app_intro; [apply rangeN_NoDup|repeat constructor; auto|]. intros x Hx [<-|[]]. apply rangeN_In in Hx. lia.
  - intros x. rewrite in_app_iff, rangeN_In. cbn. split; [intros [H|[H|[]]]; lia|]. intros Hx. destruct (N.eq_dec x 0); [auto|left; lia].
Qed.

Lemma pairs_lt k i j : In (i, j) (pairs k) -> i < j /\ j < N.of_nat k.
Proof.
  induction k as [|k IH]; [intros []|]. cbn [pairs]. rewrite in_app_iff, in_map_iff. intros [Hi|(x & [= -> <-] & Hx)].
  - apply IH in Hi. lia.
  - apply rangeN_In in Hx. lia.
Qed.
Lemma pairs_NoDup k : NoDup (pairs k).
Proof.
  induction k as [|k IH]; [constructor|]. cbn [pairs]. apply NoDup_app_intro; auto.
  - apply FinFun.Injective_map_NoDup; [|apply rangeN_NoDup]. intros x y [= ->]. auto.
  - intros [i j] H1 H2. apply pairs_lt in H1. apply in_map_iff in H2 as (x & [= -> <-] & _). lia.
Qed.

Section Star.
  Variables (c : cfg) (n k : N) (ig : InputGraph) (fg : FastGraph) (order : list N).
  Hypothesis Hd : debug_build c = true.
  Hypothesis Hn : 2 <= n.
  Hypothesis Hf : frozen_graph c (star_calls n) ig.
  Hypothesis Hnum : ig_num_nodes ig = n.
  Hypothesis Hperm : permutation_of_nodes n order.
  Hypothesis Hpo : prepared_by_order c ig order (mkParamsWithOrder k) fg.
  Lemma star_prepared : prepared c ig fg.
  Proof. right. exists order, (mkParamsWithOrder k). rewrite Hnum. auto. Qed.
  Let Hp := star_prepared.
  Let Hok : fg_ok c (ig_edges ig) (ig_num_nodes ig) fg := prepared_ok c _ ig fg Hd Hf Hp.
  Lemma star_umax : 3 <= umax c.
  Proof. pose proof (ok_cap _ _ _ _ Hok) as G. rewrite Hnum in G. pose proof (N.mul_div_le (umax c) 2). lia. Qed.
  Lemma star_order : get_node_ordering fg = Ok order.
  Proof. pose proof star_umax. apply (C10_given_proof c (star_calls n) ig order (mkParamsWithOrder k)); auto; [lia|rewrite Hnum; auto]. Qed.
  Lemma star_rank i v : getN order i = Some v <-> v < n /\ i = rk fg v.
  Proof.
    destruct (node_ordering_ok _ _ _ _ _ (ok_shape _ _ _ _ Hok) star_order) as [_ HG]. rewrite HG, Hnum. intuition.
  Qed.
  Lemma star_stored d x y w : stored_edge fg (fsrc d x y) (fdst d x y) w -> rk fg x < rk fg y ->
    exists e, In e (fg_edges fg d) /\ fe_base e = x /\ fe_adj e = y.
  Proof.
    intros Hs Hr. apply stored_edge_get in Hs as (d' & id & e & He & H1 & H2 & _).
    destruct (ok_edge _ _ _ _ Hok d' id e He) as (_ & _ & _ & Hlt).
    exists e. destruct d, d'; cbn in *; subst; try lia; (split; [eapply getN_In; eauto|auto]).
  Qed.
  Lemma star_must d x y w : x <> y -> is_dist (accepted (star_calls n)) (fsrc d x y) (fdst d x y) w -> w <= 2 ->
    only_earlier_between (accepted (star_calls n)) order (fsrc d x y) (fdst d x y) -> rk fg x < rk fg y ->
    exists e, In e (fg_edges fg d) /\ fe_base e = x /\ fe_adj e = y.
  Proof.
    intros Hxy HD Hw Hlow Hr. pose proof star_umax. apply (star_stored d x y w); auto.
    apply (C81_must_proof c (star_calls n) ig fg order); auto; [exact star_order|destruct d; cbn; auto|lia].
  Qed.
End Star.

Lemma C81_first_proof : forall c n k ig fg, debug_build c = true -> 2 <= n -> frozen_graph c (star_calls n) ig -> ig_num_nodes ig = n ->
  prepared_by_order c ig (hub_first n) (mkParamsWithOrder k) fg ->
  2 * fg_get_num_out_edges fg = n * (n - 1) /\ 2 * fg_get_num_in_edges fg = n * (n - 1).
Proof.
  intros c n k ig fg Hd Hn Hf Hnum Hpo. pose proof (star_perm_first n) as Hperm.
  pose proof (star_prepared c n k ig fg _ Hnum Hperm Hpo) as Hp.
  pose proof (star_umax c n k ig fg _ Hd Hn Hf Hnum Hperm Hpo) as Hu.
  assert (forall v, v < n -> rk fg v = v) as Hrk.
  { intros v Hv. symmetry. apply (proj1 (star_rank c n k ig fg _ Hd Hn Hf Hnum Hperm Hpo _ _)). unfold hub_first. rewrite getN_rangeN by lia. reflexivity. }
  assert (forall d, n * (n - 1) <= 2 * lenN (fg_edges fg d)) as Hge.
  { intros d. pose proof (pairs_len (N.to_nat n)) as HL. rewrite N2Nat.id in HL. rewrite <- HL.
    enough (lenN (pairs (N.to_nat n)) <= lenN (map (fun e => (fe_base e, fe_adj e)) (fg_edges fg d))) as G by (rewrite lenN_map in G; lia).
    enough (length (pairs (N.to_nat n)) <= length (map (fun e => (fe_base e, fe_adj e)) (fg_edges fg d)))%nat as G by (unfold lenN; lia).
    apply NoDup_incl_length; [apply pairs_NoDup|]. intros [x y] Hxy. apply pairs_lt in Hxy as [Hxy Hy]. rewrite N2Nat.id in Hy.
    assert (exists e, In e (fg_edges fg d) /\ fe_base e = x /\ fe_adj e = y) as (e & He & <- & <-); [|apply in_map_iff; eauto].
    destruct (N.eq_dec x 0) as [->|Hx].
    - assert (exists ns, walk (accepted (star_calls n)) (fsrc d 0 y) (fdst d 0 y) ns 1) as (ns & HW)
        by (destruct d; cbn [fsrc fdst]; eexists; [apply star_out|apply star_in]; lia).
      assert (fsrc d 0 y <> fdst d 0 y) as Hne by (destruct d; cbn; lia).
      destruct (star_next n (hub_first n) _ _ _ Hne HW) as [G1 G2].
      apply (star_must c n k ig fg _ Hd Hn Hf Hnum Hperm Hpo d 0 y 1); auto; try lia. rewrite !Hrk by lia. lia.
    - set (u := fsrc d x y) in *. set (v := fdst d x y) in *. assert (1 <= u < n /\ 1 <= v < n /\ u <> v) as (Bu & Bv & Huv) by (destruct d; cbn in *; subst u v; cbn; lia).
      pose proof (star_over n u v Bu Bv) as HW.
      apply (star_must c n k ig fg _ Hd Hn Hf Hnum Hperm Hpo d x y 2); auto; try lia.
      + split; [eauto|]. intros ns' W' H'. apply star_weight in H' as [_ G]; auto. apply G; lia.
      + intros z Hu1 Hv1 Hon. destruct (Hon _ _ HW) as (n1 & A & n2 & B & H1 & H2 & Hle).
        apply star_weight in H1 as [L1 M1]; [|congruence]. apply star_weight in H2 as [L2 M2]; [|congruence].
        assert (z = 0) as -> by (destruct (N.eq_dec z 0); auto; specialize (M1 ltac:(lia) n0); lia).
        split; [exists 0, u|exists 0, v]; (split; [lia|]); unfold hub_first; rewrite !getN_rangeN by lia; (split; f_equal; lia).
      + rewrite !Hrk by lia. lia. }
  destruct (C55_proof c (star_calls n) ig fg ltac:(lia) Hf Hp) as [U1 U2]. rewrite Hnum in U1, U2.
  pose proof (Hge Fwd) as G1. pose proof (Hge Bwd) as G2. unfold fg_get_num_out_edges, fg_get_num_in_edges in *. cbn [fg_edges] in *. lia.
Qed.

Lemma C81_last_proof : forall c n k ig fg, debug_build c = true -> 2 <= n -> frozen_graph c (star_calls n) ig -> ig_num_nodes ig = n ->
  prepared_by_order c ig (hub_last n) (mkParamsWithOrder k) fg ->
  fg_get_num_out_edges fg = n - 1 /\ fg_get_num_in_edges fg = n - 1.
Proof.
  intros c n k ig fg Hd Hn Hf Hnum Hpo. pose proof (star_perm_last n Hn) as Hperm.
  pose proof (star_prepared c n k ig fg _ Hnum Hperm Hpo) as Hp.
  pose proof (prepared_ok c _ ig fg Hd Hf Hp) as Hok.
  pose proof (star_order c n k ig fg _ Hd Hn Hf Hnum Hperm Hpo) as Hord.
  assert (forall v, v < n -> rk fg v = if v =? 0 then n - 1 else v - 1) as Hrk.
  { intros v Hv. symmetry. apply (proj1 (star_rank c n k ig fg _ Hd Hn Hf Hnum Hperm Hpo _ _)). unfold hub_last. destruct (N.eqb_spec v 0) as [->|H0].
    - rewrite getN_app2 by (rewrite lenN_rangeN; lia). rewrite lenN_rangeN, N.sub_diag. reflexivity.
    - rewrite getN_app1 by (rewrite lenN_rangeN; lia). rewrite getN_rangeN by lia. f_equal. lia. }
  assert (forall d e, In e (fg_edges fg d) -> 1 <= fe_base e < n /\ fe_adj e = 0) as Hadj.
  { intros d e He. apply In_getN in He as (id & _ & He). destruct (ok_edge _ _ _ _ Hok d id e He) as (Hb & Ha & _ & Hr).
    rewrite Hnum in *. rewrite !Hrk in Hr by auto.
    assert (stored_edge fg (fsrc d (fe_base e) (fe_adj e)) (fdst d (fe_base e) (fe_adj e)) (fe_weight e)) as Hs
      by (apply stored_edge_get; exists d, id, e; auto).
    apply (C63_low_proof c (star_calls n) ig k fg (hub_last n)) in Hs; auto.
    2:{ right. exists (hub_last n), (mkParamsWithOrder k). rewrite Hnum. auto. }
    assert (fsrc d (fe_base e) (fe_adj e) = 0 \/ fdst d (fe_base e) (fe_adj e) = 0) as Hz.
    { destruct (N.eq_dec (fsrc d (fe_base e) (fe_adj e)) 0) as [->|Hs0]; auto. right.
      unfold low_connection in Hs. inversion Hs as [u v w Hin Eu Ev Ew|u y v w W Hin [Hy _] Hrest Eu Ev Ew].
      - apply star_accepted in Hin as (i & Hi & [[= G1 G2 G3]|[= G1 G2 G3]]); congruence.
      - apply star_accepted in Hin as (i & Hi & [[= G1 G2 G3]|[= G1 G2 G3]]); [congruence|]. rewrite G2 in Hy. exfalso.
        destruct Hy as (a & b & Hab & E1 & E2). apply (star_rank c n k ig fg _ Hd Hn Hf Hnum Hperm Hpo) in E1 as [_ ->].
        apply (star_rank c n k ig fg _ Hd Hn Hf Hnum Hperm Hpo) in E2 as [Hb2 ->]. rewrite !Hrk in Hab by lia. cbn in Hab.
        destruct (N.eqb_spec (fsrc d (fe_base e) (fe_adj e)) 0); lia. }
    destruct (N.eqb_spec (fe_base e) 0) as [E0|E0]; [destruct (N.eqb_spec (fe_adj e) 0); lia|].
    split; [lia|]. destruct d; cbn in Hz; lia. }
  assert (forall d, lenN (fg_edges fg d) = n - 1) as Hlen.
  { intros d. rewrite <- (lenN_map fe_base). enough (lenN (rangeN 1 n) = lenN (map fe_base (fg_edges fg d))) as G by (rewrite lenN_rangeN in G; lia).
    assert (NoDup (map fe_base (fg_edges fg d))) as HN.
    { apply NoDup_getN. intros i j x. rewrite !getN_map.
      destruct (getN (fg_edges fg d) i) as [e1|] eqn:E1; [|discriminate].
      destruct (getN (fg_edges fg d) j) as [e2|] eqn:E2; [|discriminate]. cbn [option_map]. intros [= H1] [= H2].
      apply (ok_uniq _ _ _ _ Hok d _ _ _ _ E1 E2); [congruence|].
      rewrite (proj2 (Hadj d e1 (getN_In _ _ _ E1))), (proj2 (Hadj d e2 (getN_In _ _ _ E2))). auto. }
    unfold lenN. f_equal. apply Nat.le_antisymm; apply NoDup_incl_length; auto.
    - apply rangeN_NoDup.
    - intros x Hx. apply rangeN_In in Hx.
      assert (exists ns, walk (accepted (star_calls n)) (fsrc d x 0) (fdst d x 0) ns 1) as (ns & HW)
        by (destruct d; cbn [fsrc fdst]; eexists; [apply star_in|apply star_out]; lia).
      assert (fsrc d x 0 <> fdst d x 0) as Hne by (destruct d; cbn; lia).
      destruct (star_next n (hub_last n) _ _ _ Hne HW) as [G1 G2].
      destruct (star_must c n k ig fg _ Hd Hn Hf Hnum Hperm Hpo d x 0 1) as (e & He & <- & _); auto; try lia.
      + rewrite !Hrk by lia. cbn. destruct (N.eqb_spec x 0); lia.
      + apply in_map_iff. eauto.
    - intros x Hx. apply in_map_iff in Hx as (e & <- & He). apply rangeN_In. apply (Hadj d e He). }
  split; [exact (Hlen Fwd)|exact (Hlen Bwd)].
Qed.

Lemma C81_star_proof : forall c H hinv n k, debug_build c = true -> heap_laws H hinv -> 2 <= n -> n <= k ->
  n * n <= umax c / 2 -> 4 * n <= umax c ->
  exists ig fg1 fg2, frozen_graph c (star_calls n) ig /\ ig_num_nodes ig = n /\
    permutation_of_nodes n (hub_first n) /\ permutation_of_nodes n (hub_last n) /\
    prepare_with_order_with_params c H ig (hub_first n) (mkParamsWithOrder k) = Ok (inl fg1) /\
    prepare_with_order_with_params c H ig (hub_last n) (mkParamsWithOrder k) = Ok (inl fg2) /\
    2 * fg_get_num_out_edges fg1 = n * (n - 1) /\ 2 * fg_get_num_in_edges fg1 = n * (n - 1) /\
    fg_get_num_out_edges fg2 = n - 1 /\ fg_get_num_in_edges fg2 = n - 1.
Proof.
  intros c H hinv n k Hd HL Hn Hk B1 B2. pose proof (N.mul_div_le (umax c) 2) as Hh.
  assert (2 * n <= n * n) as Hsq by (apply N.mul_le_mono_r; auto).
  destruct (star_frozen c n Hn) as (ig & Hf & Hnum); [lia|].
  assert (forall e, In e (accepted (star_calls n)) -> e_weight e <= 1) as Hw1.
  { intros e He. apply star_accepted in He as (i & _ & [-> | ->]); cbn; lia. }
  assert (prep_bound_unlimited c (ig_num_nodes ig) 1) as HB by (rewrite Hnum; split; [lia|]; split; lia).
  destruct (C60_order_proof c (star_calls n) ig 1 H hinv (hub_first n) (mkParamsWithOrder k)) as (fg1 & E1); auto.
  { rewrite Hnum. apply star_perm_first. }
  { rewrite Hnum. exact Hk. }
  destruct (C60_order_proof c (star_calls n) ig 1 H hinv (hub_last n) (mkParamsWithOrder k)) as (fg2 & E2); auto.
  { rewrite Hnum. apply star_perm_last; auto. }
  { rewrite Hnum. exact Hk. }
  exists ig, fg1, fg2. split; auto. split; auto. split; [apply star_perm_first|]. split; [apply star_perm_last; auto|]. split; auto. split; auto.
  destruct (C81_first_proof c n k ig fg1) as [F1 F2]; auto; [exists H, hinv; auto|].
  destruct (C81_last_proof c n k ig fg2) as [L1 L2]; auto. exists H, hinv; auto.
Qed.
