(** * RandomProps: the randomized tests cannot fail *)
From Verif Require Export Shape.
From Verif Require Export OracleProps ShortcutProps ReaderFacts SpecRandom.
From Coq Require Import Lia Arith.PeanoNat.
Open Scope N_scope.

Lemma candidates_snoc n r k : candidates n r (S k) = candidates n r k ++
  filter (fun e => negb (e_from e =? e_to e)) [candidate n r k].
Proof. unfold candidates. rewrite seq_S, map_app, filter_app. reflexivity. Qed.

Lemma candidate_ok n r i : 1 <= n -> e_from (candidate n r i) < n /\ e_to (candidate n r i) < n /\
  1 <= e_weight (candidate n r i) <= 99.
Proof.
  intros Hn. unfold candidate. cbv [e_from e_to e_weight].
  pose proof (N.mod_lt (r (3 * i + 1)%nat) n ltac:(lia)). pose proof (N.mod_lt (r (3 * i)%nat) n ltac:(lia)).
  pose proof (N.mod_lt (r (3 * i + 2)%nat) 99 ltac:(lia)).
  set (a := r (3 * i + 2)%nat mod 99) in *. clearbody a. lia.
Qed.

Lemma candidates_ok n r k e : 1 <= n -> In e (candidates n r k) ->
  e_from e < n /\ e_to e < n /\ e_from e <> e_to e /\ 1 <= e_weight e <= 99.
Proof.
  intros Hn He. unfold candidates in He. apply filter_In in He as (He & Hl).
  apply in_map_iff in He as (i & <- & _). destruct (candidate_ok n r i Hn) as (A & B & C).
  apply negb_true_iff, N.eqb_neq in Hl. auto.
Qed.

(** the graph that the first [k] rounds have built *)
Definition unfrozen (es : list Edge) (g : InputGraph) : Prop :=
  ig_edges g = es /\ ig_frozen g = false.

Section Loop.
  Variables (c : cfg) (n m : N) (r : rng).
  Hypothesis Hn : 1 <= n.
  Hypothesis Hnu : n <= umax c.
  Hypothesis Hm : m <= umax c / 2.

  Lemma half_le : umax c / 2 <= umax c.
  Proof. apply N.div_le_upper_bound; lia. Qed.

  Lemma random_loop fuel : forall k g r1,
    (forall i, r1 i = r (3 * k + i)%nat) ->
    lenN (candidates n r k) < m ->
    ig_run c ig_new (add_ops (map (candidate n r) (seq 0 k))) = Ok g -> unfrozen (candidates n r k) g ->
    (random_edges fuel c r1 n m g (lenN (candidates n r k)) = Diverge /\ lenN (candidates n r (k + fuel)) < m) \/
    exists k' g' r', (k' <= k + fuel)%nat /\
      random_edges fuel c r1 n m g (lenN (candidates n r k)) = Ok (g', r') /\
      (forall i, r' i = r (3 * k' + i)%nat) /\
      lenN (candidates n r k') = m /\
      ig_run c ig_new (add_ops (map (candidate n r) (seq 0 k'))) = Ok g' /\ unfrozen (candidates n r k') g'.
  Proof.
    induction fuel as [|fuel IH]; intros k g r1 Hr1 Hk Hrun (He & Hz).
    - left. split; [reflexivity|]. rewrite Nat.add_0_r. exact Hk.
    - remember (random_edges (S fuel) c r1 n m g (lenN (candidates n r k))) as X eqn:EX.
      cbn [random_edges] in EX. unfold gen_range at 1 in EX.
      destruct (N.ltb_spec 0 n) as [H0|]; [|lia]. cbn [bind] in EX. unfold gen_range at 1 in EX.
      rewrite (proj2 (N.ltb_lt 0 n) H0) in EX. cbn [bind] in EX. unfold gen_range at 1 in EX.
      change (1 <? 100) with true in EX. cbn iota in EX. cbn [bind] in EX. rewrite !N.sub_0_r, !N.add_0_l in EX.
      change (100 - 1) with 99 in EX.
      remember (candidate n r k) as e eqn:Ee.
      assert (r1 1%nat mod n = e_from e) as Hx by (rewrite Hr1; subst e; reflexivity). rewrite Hx in EX. clear Hx.
      assert (r1 0%nat mod n = e_to e) as Hx by (rewrite Hr1; subst e; rewrite Nat.add_0_r; reflexivity). rewrite Hx in EX. clear Hx.
      assert (1 + r1 2%nat mod 99 = e_weight e) as Hx by (rewrite Hr1; subst e; reflexivity). rewrite Hx in EX. clear Hx.
      destruct (candidate_ok n r k Hn) as (A & B & C). rewrite <- Ee in A, B, C.
      pose proof half_le as Hh.
      assert (exists g', ig_add_edge c g (e_from e) (e_to e) (e_weight e) = Ok (g', if e_from e =? e_to e then 0 else 1) /\
        unfrozen (candidates n r (S k)) g') as (g' & Eg & Hg').
      { unfold ig_add_edge, ig_do_add_edge. rewrite Hz.
        assert (candidates n r (S k) = candidates n r k ++ if e_from e =? e_to e then [] else [e]) as ->.
        { rewrite candidates_snoc, <- Ee. simpl. destruct (e_from e =? e_to e); reflexivity. }
        destruct (N.eqb_spec (e_from e) (e_to e)) as [E|E].
        - exists g. split; [reflexivity|]. rewrite app_nil_r. split; auto.
        - destruct (N.ltb_spec (e_weight e) 1); [lia|]. unfold uadd.
          destruct (N.leb_spec (N.max (e_from e) (e_to e) + 1) (umax c)); [|lia]. cbn [bind].
          unfold vpush. rewrite He. destruct (N.ltb_spec (lenN (candidates n r k)) (umax c / 2)); [|lia].
          cbn [bind]. eexists. split; [reflexivity|]. split; simpl; auto. destruct e; reflexivity. }
      rewrite Eg in EX. cbn [bind] in EX.
      assert (lenN (candidates n r (S k)) = lenN (candidates n r k) + if e_from e =? e_to e then 0 else 1) as Hlen.
      { rewrite candidates_snoc, lenN_app, <- Ee. f_equal. simpl. destruct (e_from e =? e_to e); reflexivity. }
      unfold uadd in EX. rewrite <- Hlen in EX.
      destruct (N.leb_spec (lenN (candidates n r (S k))) (umax c)) as [_|Hbad];
        [|destruct (e_from e =? e_to e); lia].
      cbn [bind] in EX.
      assert (ig_run c ig_new (add_ops (map (candidate n r) (seq 0 (S k)))) = Ok g') as Hrun'.
      { rewrite seq_S, map_app. unfold add_ops in *. rewrite map_app, ig_run_app, Hrun. cbn [bind].
        change (0 + k)%nat with k. cbn [map ig_run ig_step]. rewrite <- Ee, Eg. reflexivity. }
      assert (forall i, r1 (S (S (S i))) = r (3 * S k + i)%nat) as Hr2.
      { intros i. rewrite Hr1. f_equal. lia. }
      destruct (N.eqb_spec (lenN (candidates n r (S k))) m) as [Em|Em].
      + right. exists (S k), g'. eexists. split; [lia|]. split; [exact EX|]. auto.
      + assert (lenN (candidates n r (S k)) < m) as Hk' by (destruct (e_from e =? e_to e); lia).
        replace (k + S fuel)%nat with (S k + fuel)%nat by lia.
        rewrite EX. apply IH; auto.
  Qed.
End Loop.

Lemma positive_filter : forall l, (forall e, In e l -> 1 <= e_weight e) ->
  filter acceptable l = filter (fun e => negb (e_from e =? e_to e)) l.
Proof.
  induction l as [|e l IH]; intros Hl; auto. simpl. rewrite IH by (intros; apply Hl; simpl; auto).
  unfold acceptable. destruct (N.leb_spec 1 (e_weight e)) as [_|Hx]; [rewrite andb_true_r; reflexivity|].
  specialize (Hl e (or_introl eq_refl)). lia.
Qed.

Lemma accepted_candidates n r k : 1 <= n ->
  accepted (add_ops (map (candidate n r) (seq 0 k)) ++ [OpFreeze]) = candidates n r k.
Proof.
  intros Hn. rewrite accepted_app. unfold accepted at 2. simpl. rewrite app_nil_r. unfold accepted, candidates.
  rewrite <- positive_filter.
  - f_equal. induction (map (candidate n r) (seq 0 k)) as [|e l IH]; [reflexivity|].
    unfold add_ops in *. cbn [map flat_map requested app]. rewrite IH. destruct e. reflexivity.
  - intros e He. apply in_map_iff in He as (i & <- & _). apply (candidate_ok n r i Hn).
Qed.

(** The generator ends within [fuel] rounds iff [fuel] candidates are enough; the graph has these edges. *)
Lemma C77_graph_proof : forall fuel c r n m,
  1 <= n -> n <= umax c -> 99 <= umax c -> 1 <= m -> m <= umax c / 2 ->
  (ig_random fuel c r n m = Diverge /\ lenN (candidates n r fuel) < m) \/
  exists k ops ig r', (k <= fuel)%nat /\ ig_random fuel c r n m = Ok (ig, r') /\
    (forall i, r' i = r (3 * k + i)%nat) /\ frozen_graph c ops ig /\ accepted ops = candidates n r k /\
    lenN (accepted ops) = m.
Proof.
  intros fuel c r n m Hn Hnu H99 Hm Hmu.
  assert (lenN (candidates n r 0) < m) as H0 by (unfold candidates, lenN; simpl; lia).
  unfold ig_random.
  destruct (random_loop c n m r Hn Hnu Hmu fuel 0%nat ig_new r) as [(E & Hl)|(k & g & r' & Hk & E & Hr' & Hlen & Hrun & He & Hz)];
    auto; try (split; reflexivity).
  - left. change (lenN (candidates n r 0)) with 0 in E. rewrite E. auto.
  - right. change (lenN (candidates n r 0)) with 0 in E. rewrite E. cbn [bind].
    unfold ig_freeze. rewrite Hz. cbn [bind].
    exists k, (add_ops (map (candidate n r) (seq 0 k)) ++ [OpFreeze]).
    rewrite (accepted_candidates n r k Hn). do 2 eexists. split; [exact Hk|]. split; [reflexivity|].
    split; [exact Hr'|]. split; [|auto]. split; [|split; [|reflexivity]].
    + intros o Ho. apply in_app_or in Ho as [Ho|[<-|[]]]; [|simpl; auto].
      apply in_map_iff in Ho as (e & <- & Ho). apply in_map_iff in Ho as (i & <- & _).
      destruct (candidate_ok n r i Hn) as (A & B & C). unfold op_repr. lia.
    + rewrite ig_run_app, Hrun. cbn [bind ig_run ig_step]. unfold ig_freeze. rewrite Hz. reflexivity.
Qed.

(** Every list of edges comes from some stream. *)
Lemma edges_of_stream n es : (forall e, In e es -> e_from e < n /\ e_to e < n /\ e_from e <> e_to e /\ 1 <= e_weight e <= 99) ->
  exists r, candidates n r (List.length es) = es.
Proof.
  intros Hes. set (d := mkEdge 0 0 1).
  set (r := fun j : nat => let e := nth (j / 3)%nat es d in
    match (j mod 3)%nat with O => e_to e | 1%nat => e_from e | _ => e_weight e - 1 end).
  exists r. unfold candidates.
  assert (map (candidate n r) (seq 0 (List.length es)) = es) as ->.
  { apply (nth_ext _ _ d d); [rewrite map_length, seq_length; reflexivity|].
    intros i Hi. rewrite map_length, seq_length in Hi.
    rewrite (nth_indep _ d (candidate n r 0%nat)) by (rewrite map_length, seq_length; exact Hi).
    rewrite map_nth, seq_nth by exact Hi. change (0 + i)%nat with i.
    assert (In (nth i es d) es) as He by (apply nth_In; exact Hi). apply Hes in He.
    unfold candidate, r.
    replace ((3 * i) / 3)%nat with i by (rewrite Nat.mul_comm, Nat.div_mul; lia).
    replace ((3 * i) mod 3)%nat with 0%nat by (rewrite Nat.mul_comm, Nat.mod_mul; lia).
    replace ((3 * i + 1) / 3)%nat with i by (rewrite Nat.mul_comm, Nat.div_add_l; simpl; lia).
    replace ((3 * i + 1) mod 3)%nat with 1%nat by (rewrite Nat.add_comm, Nat.mul_comm, Nat.mod_add; simpl; lia).
    replace ((3 * i + 2) / 3)%nat with i by (rewrite Nat.mul_comm, Nat.div_add_l; simpl; lia).
    replace ((3 * i + 2) mod 3)%nat with 2%nat by (rewrite Nat.add_comm, Nat.mul_comm, Nat.mod_add; simpl; lia).
    cbv zeta. cbv iota. destruct (nth i es d) as [u v w]. cbv [e_from e_to e_weight] in *.
    rewrite !N.mod_small by lia. f_equal. lia. }
  clear r d. induction es as [|e es IH]; [reflexivity|]. simpl.
  destruct (N.eqb_spec (e_from e) (e_to e)) as [E|E].
  - exfalso. destruct (Hes e); simpl; auto. tauto.
  - simpl. f_equal. apply IH. intros; apply Hes; simpl; auto.
Qed.

Lemma C77_every_graph_proof : forall c n es,
  1 <= n -> n <= umax c -> 99 <= umax c -> es <> [] -> lenN es <= umax c / 2 ->
  (forall e, In e es -> e_from e < n /\ e_to e < n /\ e_from e <> e_to e /\ 1 <= e_weight e <= 99) ->
  exists fuel r ig r' ops, ig_random fuel c r n (lenN es) = Ok (ig, r') /\ frozen_graph c ops ig /\ accepted ops = es.
Proof.
  intros c n es Hn Hnu H99 Hne Hl Hes. destruct (edges_of_stream n es Hes) as (r & Hr).
  assert (1 <= lenN es) as H1 by (destruct es; [congruence|]; rewrite lenN_cons; lia).
  destruct (C77_graph_proof (List.length es) c r n (lenN es) Hn Hnu H99 H1 Hl)
    as [(_ & Hx)|(k & ops & ig & r' & Hk & E & _ & Hf & Ha & Hlen)]; [rewrite Hr in Hx; lia|].
  exists (List.length es), r, ig, r', ops. split; [exact E|]. split; [exact Hf|].
  assert (forall j, (k <= j)%nat -> exists l, candidates n r j = candidates n r k ++ l) as Hmono.
  { induction 1 as [|j Hj (l & IH)]; [exists []; rewrite app_nil_r; reflexivity|].
    rewrite candidates_snoc, IH, <- app_assoc. eauto. }
  destruct (Hmono _ Hk) as (l & Hl'). rewrite Hr in Hl'. rewrite Ha in *.
  assert (l = []) as ->; [|rewrite app_nil_r in Hl'; auto].
  apply (f_equal lenN) in Hl'. rewrite lenN_app in Hl'. destruct l; auto. rewrite lenN_cons in Hl'. lia.
Qed.

(** ** The queries *)
Section Test.
  Variables (c : cfg) (H : heap_ops) (hinv : list HeapItem -> Prop) (ops : list ig_op) (ig : InputGraph) (fg : FastGraph)
    (dg : PrepGraph).
  Hypothesis Hd : debug_build c = true.
  Hypothesis HL : heap_laws H hinv.
  Hypothesis Hf : frozen_graph c ops ig.
  Hypothesis Hn : 1 <= ig_num_nodes ig <= 100.
  Hypothesis HM : forall e, In e (accepted ops) -> e_weight e <= 99.
  Hypothesis Hu : 2000000 <= umax c.
  Hypothesis Hp : prepared_unlimited c ig fg.
  Hypothesis Hdg : pg_from_input_graph c ig = Ok dg.

  Lemma gen_ok r low high : low < high -> exists v r', gen_range r low high = Ok (v, r') /\ low <= v < high.
  Proof.
    intros Hlt. unfold gen_range. destruct (N.ltb_spec low high); [|lia].
    do 2 eexists. split; [reflexivity|]. pose proof (N.mod_lt (r 0%nat) (high - low) ltac:(lia)).
    set (a := r 0%nat mod (high - low)) in *. clearbody a. lia.
  Qed.

  Lemma fast_returns pc ss ts : calculator c (ig_num_nodes ig) pc -> ss <> [] -> ts <> [] ->
    (forall v w, In (v, w) ss -> v < ig_num_nodes ig /\ (w = WEIGHT_MAX c \/ w <= 99)) ->
    (forall v w, In (v, w) ts -> v < ig_num_nodes ig /\ (w = WEIGHT_MAX c \/ w <= 99)) ->
    exists pc' r, pc_calc_path_multiple c H pc fg ss ts = Ok (pc', r) /\ calculator c (ig_num_nodes ig) pc' /\
      answer_multi c fg ss ts r.
  Proof.
    intros Hc Hss Hts H1 H2.
    destruct (C60_query_proof c ops ig fg 99 99 99 H hinv pc ss ts Hd Hf Hp HL Hc Hss Hts H1 H2 HM) as (pc' & r & E).
    - assert ((ig_num_nodes ig - 1) * ((ig_num_nodes ig - 1) * 99) <= 99 * (99 * 99))
        by (apply N.mul_le_mono; [lia|apply N.mul_le_mono_r; lia]). lia.
    - exists pc', r. split; [exact E|]. split; [eapply calculator_multi; eauto|].
      exists H, hinv. split; [exact HL|]. right. exists (ig_num_nodes ig), pc, pc'. auto.
  Qed.

  Lemma dijkstra_returns dj s t : dijkstra_object c (ig_num_nodes ig) dj -> s < ig_num_nodes ig -> t < ig_num_nodes ig ->
    exists dj' r, dj_calc_path c H dj dg s t = Ok (dj', r) /\ dijkstra_object c (ig_num_nodes ig) dj' /\
      dijkstra_answer c ig s t r.
  Proof.
    intros Hc Hs Ht.
    destruct (C37_dijkstra_total_proof c ops ig 99 H hinv dj s t Hd Hf) as (g & dj' & r & Eg & E); auto.
    - apply (accepted_frozen_weight c ops); auto.
    - lia.
    - rewrite Hdg in Eg. injection Eg as <-. exists dj', r. split; [exact E|].
      split; [eapply dijkstra_used; eauto|]. exists dg, (ig_num_nodes ig), dj, dj', H, hinv. auto.
  Qed.

  Definition unique_shortest : Prop := unique_shortest_paths (accepted ops).

  Lemma same_nodes_refl l : same_nodes l l = true.
  Proof. unfold same_nodes. destruct (list_eq_dec N.eq_dec l l); congruence. Qed.

  Lemma singles_ok fw k : forall r pc dj diff,
    (forall s t, s < ig_num_nodes ig -> t < ig_num_nodes ig -> exists w, fw_calc_weight c fw s t = Ok w /\
       floyd_warshall_answer c ig s t w) ->
    calculator c (ig_num_nodes ig) pc -> dijkstra_object c (ig_num_nodes ig) dj ->
    exists d, single_queries k c H r (ig_num_nodes ig) fg pc dg dj fw diff = Ok d /\ (unique_shortest -> d = diff).
  Proof.
    induction k as [|k IH]; intros r pc dj diff Hfw Hpc Hdj; [simpl; eauto|]. cbn [single_queries].
    destruct (gen_ok r 0 (ig_num_nodes ig)) as (s & r1 & -> & Hs); [lia|]. cbn [bind].
    destruct (gen_ok r1 0 (ig_num_nodes ig)) as (t & r2 & -> & Ht); [lia|]. cbn [bind].
    destruct (fast_returns pc [(s, 0)] [(t, 0)] Hpc) as (pc' & rf & Ef & Hpc' & Hrf); try discriminate.
    { intros v w [[= <- <-]|[]]. lia. }
    { intros v w [[= <- <-]|[]]. lia. }
    unfold pc_calc_path. rewrite Ef. cbn [bind].
    destruct (dijkstra_returns dj s t Hdj) as (dj' & rd & -> & Hdj' & Hrd); [lia|lia|]. cbn [bind].
    destruct (Hfw s t) as (w & -> & Hw); [lia|lia|]. cbn [bind].
    apply answer_as_multi in Hrf.
    destruct (C37_agree_proof c ops ig fg s t rf rd w Hd Hf (unlimited_prepared _ _ _ Hp) Hrf Hrd Hw) as (Hag & Hagw).
    pose proof (answer_single c ops ig fg s t rf Hd Hf (unlimited_prepared _ _ _ Hp) Hrf) as (_ & _ & HA).
    pose proof (C37_dijkstra_proof c ops ig s t rd Hd Hf Hrd) as HD.
    assert (w = sp_get_weight (unwrap_or rf (sp_none c s t))) as HW1.
    { rewrite Hagw. destruct rf; reflexivity. }
    rewrite <- HW1, N.eqb_refl. cbn [assert bind].
    assert (sp_eqb (unwrap_or rd (sp_none c s t)) (unwrap_or rf (sp_none c s t)) = true) as ->.
    { apply sp_eqb_spec. destruct rf as [pf|], rd as [pd|]; try discriminate Hag; simpl; auto.
      injection Hag as Hag. destruct HA as (A1 & A2 & _). destruct HD as (D1 & D2 & _).
      unfold sp_get_source, sp_get_target, sp_get_weight in *. repeat split; congruence. }
    cbn [assert bind].
    destruct (IH r2 pc' dj' (if same_nodes (sp_get_nodes (unwrap_or rd (sp_none c s t)))
      (sp_get_nodes (unwrap_or rf (sp_none c s t))) then diff else diff + 1) Hfw Hpc' Hdj') as (d & Ed & HU).
    exists d. split; [exact Ed|]. intros U. rewrite (HU U).
    replace (sp_get_nodes (unwrap_or rd (sp_none c s t))) with (sp_get_nodes (unwrap_or rf (sp_none c s t)));
      [rewrite same_nodes_refl; reflexivity|].
    destruct rf as [pf|], rd as [pd|]; try discriminate Hag; simpl; auto.
    injection Hag as Hag. destruct HA as (A1 & A2 & A3 & A4 & _). destruct HD as (D1 & D2 & D3 & D4 & D5).
    unfold sp_get_weight, sp_get_nodes in *. rewrite Hag in A4. apply (U s t _ _ (sp_weight pd)); auto.
    - apply (frozen_walk c ops ig); auto.
    - apply (frozen_walk c ops ig); auto.
  Qed.

  (** Multiple sources and targets *)
  Definition ends_ok (l : list (N * N)) : Prop :=
    forall v w, In (v, w) l -> v < ig_num_nodes ig /\ (w = WEIGHT_MAX c \/ w <= 99).

  Lemma ends_generated k : forall r, exists l r', gen_weighted_nodes k c r (ig_num_nodes ig) = Ok (l, r') /\
    List.length l = k /\ ends_ok l.
  Proof.
    induction k as [|k IH]; intros r; cbn [gen_weighted_nodes].
    - do 2 eexists. split; [reflexivity|]. split; [reflexivity|]. intros v w [].
    - destruct (gen_ok r 0 (ig_num_nodes ig)) as (v & r1 & -> & Hv); [lia|]. cbn [bind].
      destruct (gen_ok r1 0 100) as (dice & r2 & -> & _); [lia|]. cbn [bind].
      assert (exists w r3, (if dice <? 3 then Ok (WEIGHT_MAX c, r2) else gen_range r2 0 100) = Ok (w, r3) /\
        (w = WEIGHT_MAX c \/ w <= 99)) as (w & r3 & -> & Hw).
      { destruct (dice <? 3); [eauto|]. destruct (gen_ok r2 0 100) as (w & r3 & -> & Hw); [lia|].
        do 2 eexists. split; [reflexivity|]. right. lia. }
      cbn [bind]. destruct (IH r3) as (l & r4 & -> & Hl & Hok). cbn [bind].
      do 2 eexists. split; [reflexivity|]. split; [simpl; congruence|].
      intros v' w' [[= <- <-]|Hin]; [split; [lia|exact Hw]|auto].
  Qed.

  (** what one Dijkstra query contributes *)
  Definition dij_entry (p : (N * N) * (N * N)) (x : option ShortestPath * N * N) : Prop :=
    let '((s, sw), (t, tw)) := p in let '(o, a, b) := x in
    a = sw /\ b = tw /\ dijkstra_answer c ig s t o.

  Lemma dijkstras_ok l : forall dj acc,
    dijkstra_object c (ig_num_nodes ig) dj ->
    (forall s sw t tw, In ((s, sw), (t, tw)) l -> s < ig_num_nodes ig /\ t < ig_num_nodes ig) ->
    exists dj' l', foldM (fun '(dj, l) '((s, sw), (t, tw)) =>
           '(dj', p) <- dj_calc_path c H dj dg s t ;;
           Ok (dj', l ++ [(p, sw, tw)])) l (dj, acc) = Ok (dj', acc ++ l') /\
      dijkstra_object c (ig_num_nodes ig) dj' /\ Forall2 dij_entry l l'.
  Proof.
    induction l as [|[[s sw] [t tw]] l IH]; intros dj acc Hdj Hl; cbn [foldM].
    - exists dj, []. rewrite app_nil_r. auto.
    - destruct (Hl s sw t tw) as (Hs & Ht); [simpl; auto|].
      destruct (dijkstra_returns dj s t Hdj Hs Ht) as (dj1 & o & -> & Hdj1 & Ho). cbn [bind].
      destruct (IH dj1 (acc ++ [(o, sw, tw)]) Hdj1) as (dj' & l' & E & Hdj' & HF).
      { intros; eapply Hl; simpl; eauto. }
      exists dj', ((o, sw, tw) :: l'). rewrite <- app_assoc in E. split; [exact E|]. split; [exact Hdj'|].
      constructor; [simpl; auto|exact HF].
  Qed.

  (** the paths found are exactly the best ones between a source and a target of usable weight *)
  Definition found_ok (ss ts : list (N * N)) (x : ShortestPath * N * N) : Prop :=
    let '(p, sw, tw) := x in
    In (sp_source p, sw) ss /\ In (sp_target p, tw) ts /\ sw <= 99 /\ tw <= 99 /\
    walk (accepted ops) (sp_source p) (sp_target p) (sp_nodes p) (sp_weight p) /\
    is_dist (accepted ops) (sp_source p) (sp_target p) (sp_weight p).

  Lemma umax_big : 99 < WEIGHT_MAX c.
  Proof. unfold WEIGHT_MAX. lia. Qed.

  Lemma Forall2_in_l {A B} (R : A -> B -> Prop) l l' a : Forall2 R l l' -> In a l -> exists b, In b l' /\ R a b.
  Proof.
    induction 1 as [|x y l l' Hxy HF IH]; [intros []|]. intros [E|Hin]; [subst; simpl; eauto|].
    destruct (IH Hin) as (b & Hb & HR). simpl. eauto.
  Qed.
  Lemma Forall2_in_r {A B} (R : A -> B -> Prop) l l' b : Forall2 R l l' -> In b l' -> exists a, In a l /\ R a b.
  Proof.
    induction 1 as [|x y l l' Hxy HF IH]; [intros []|]. intros [E|Hin]; [subst; simpl; eauto|].
    destruct (IH Hin) as (a & Ha & HR). simpl. eauto.
  Qed.

  Lemma found_sound ss ts l' : ends_ok ss -> ends_ok ts -> Forall2 dij_entry (list_prod ss ts) l' ->
    forall x, In x (found_dijkstras c l') -> found_ok ss ts x.
  Proof.
    intros Hss Hts HF x Hx. unfold found_dijkstras in Hx. apply in_flat_map in Hx as ([[o a] b] & Hin & Hx).
    destruct o as [p|]; [|destruct Hx].
    destruct ((a <? WEIGHT_MAX c) && (b <? WEIGHT_MAX c)) eqn:Eab; [|destruct Hx].
    destruct Hx as [<-|[]]. apply andb_true_iff in Eab as (Ea & Eb). apply N.ltb_lt in Ea, Eb.
    destruct (Forall2_in_r _ _ _ _ HF Hin) as ([[s sw] [t tw]] & Hp2 & (-> & -> & Ho)).
    apply in_prod_iff in Hp2 as (H1 & H2).
    destruct (C37_dijkstra_proof c ops ig s t _ Hd Hf Ho) as (D1 & D2 & D3 & _ & D4).
    apply (frozen_walk c ops ig) in D4; auto.
    unfold sp_get_source, sp_get_target, sp_get_weight, sp_get_nodes in *. cbv [found_ok]. rewrite D1, D2.
    destruct (Hss _ _ H1) as (_ & [X|X]); [lia|]. destruct (Hts _ _ H2) as (_ & [Y|Y]); [lia|]. auto 8.
  Qed.

  Lemma found_complete ss ts l' s sw t tw ns W : Forall2 dij_entry (list_prod ss ts) l' ->
    In (s, sw) ss -> In (t, tw) ts -> sw < WEIGHT_MAX c -> tw < WEIGHT_MAX c ->
    walk (accepted ops) s t ns W -> W < WEIGHT_MAX c ->
    exists p, In (p, sw, tw) (found_dijkstras c l') /\ sp_source p = s /\ sp_target p = t /\ sp_weight p <= W.
  Proof.
    intros HF H1 H2 Hsw Htw HW HWm.
    destruct (Forall2_in_l _ _ _ ((s, sw), (t, tw)) HF) as ([[o a] b] & Hin & (-> & -> & Ho)).
    { apply in_prod; auto. }
    pose proof (C37_dijkstra_proof c ops ig s t _ Hd Hf Ho) as HD. destruct o as [p|].
    - destruct HD as (D1 & D2 & (_ & D3) & _). exists p. split; [|split; [exact D1|split; [exact D2|exact (D3 _ _ HW)]]].
      unfold found_dijkstras. apply in_flat_map. exists (Some p, sw, tw). split; [exact Hin|].
      rewrite (proj2 (N.ltb_lt _ _) Hsw), (proj2 (N.ltb_lt _ _) Htw). simpl. auto.
    - apply HD in HW. lia.
  Qed.

  Lemma dist_small s t W : s < ig_num_nodes ig -> is_dist (accepted ops) s t W -> W <= 9801.
  Proof.
    intros Hs ((ns & HW) & Hmin).
    assert (forall u v w, In (mkEdge u v w) (accepted ops) -> u < ig_num_nodes ig /\ v < ig_num_nodes ig /\ 1 <= w <= 99) as HE.
    { intros u v w Hin. destruct Hf as (_ & Hr & Hz).
      destruct (C20_nodes_proof c ops ig (or_introl Hd) Hr Hz) as (n & es & En & _ & _ & _ & HN & _).
      unfold ig_get_num_nodes, ig_check_frozen in En. rewrite Hz in En. cbn [bind] in En. injection En as <-.
      destruct (HN _ Hin) as (A & B). split; [exact A|]. split; [exact B|]. split; [|apply (HM _ Hin)].
      unfold accepted in Hin. apply filter_In in Hin as (_ & Hin). unfold acceptable in Hin.
      apply andb_true_iff in Hin as (_ & Hin). apply N.leb_le in Hin. exact Hin. }
    destruct (simple_walk (accepted ops)) with (k := S (N.to_nat W)) (u := s) (v := t) (ns := ns) (W := W)
      as (ns' & W' & HW' & HND & Hle); auto.
    { intros u v w Hin. apply HE in Hin. lia. }
    destruct (walk_weight 99 (accepted ops)) with (u := s) (v := t) (ns := ns') (W := W') as (Hl & HWl); auto.
    assert (lenN ns' <= ig_num_nodes ig) as Hln.
    { apply NoDup_bounded_len; auto.
      eapply walk_nodes with (F := accepted ops); eauto. intros u v w Hin. apply HE in Hin. lia. }
    apply Hmin in HW'. lia.
  Qed.

  Definition weight_of (x : ShortestPath * N * N) : N := let '(p, sw, tw) := x in sp_weight p + sw + tw.

  Lemma full_weight_ok ss ts x : ends_ok ss -> found_ok ss ts x -> full_weight c x = Ok (weight_of x) /\ weight_of x < WEIGHT_MAX c.
  Proof.
    intros Hss. destruct x as [[p sw] tw]. intros (H1 & H2 & Hsw & Htw & _ & Hdist).
    apply dist_small in Hdist; [|apply (Hss _ _ H1)].
    unfold full_weight, weight_of, uadd, sp_get_weight, WEIGHT_MAX.
    destruct (N.leb_spec (sp_weight p + sw) (umax c)); [|lia]. cbn [bind].
    destruct (N.leb_spec (sp_weight p + sw + tw) (umax c)); [|lia]. split; [reflexivity|lia].
  Qed.

  Lemma mapM_ok {A B} (f : A -> res B) g l : (forall x, In x l -> f x = Ok (g x)) -> mapM f l = Ok (map g l).
  Proof.
    induction l as [|a l IH]; intros Hl; simpl; [reflexivity|].
    rewrite Hl by (simpl; auto). cbn [bind]. rewrite IH by (intros; apply Hl; simpl; auto). reflexivity.
  Qed.

  Lemma list_min_spec l : match list_min l with
    | None => l = []
    | Some m => In m l /\ forall x, In x l -> m <= x end.
  Proof.
    destruct l as [|a l]; simpl; [reflexivity|]. revert a. induction l as [|b l IH]; intros a; simpl.
    - split; auto. intros x [<-|[]]. lia.
    - destruct (IH (N.min a b)) as (H1 & H2). split.
      + destruct H1 as [H1|H1]; [|auto]. rewrite <- H1. destruct (N.min_dec a b) as [-> | ->]; auto.
      + intros x Hx. destruct Hx as [<-|[<-|Hx]].
        * specialize (H2 _ (or_introl eq_refl)). lia.
        * specialize (H2 _ (or_introl eq_refl)). lia.
        * apply H2. auto.
  Qed.

  Lemma matching_ok f l : forall acc, (forall x, In x l -> full_weight c x = Ok (weight_of x)) ->
    exists m, foldM (fun acc x =>
           w <- full_weight c x ;;
           let '(p, _, _) := x in
           if (w =? sp_get_weight f) && (sp_get_source p =? sp_get_source f) && (sp_get_target p =? sp_get_target f)
           then Ok (acc ++ [x]) else Ok acc) l acc = Ok (acc ++ m) /\
      forall x, In x l -> weight_of x = sp_weight f -> sp_source (fst (fst x)) = sp_source f ->
        sp_target (fst (fst x)) = sp_target f -> In x m.
  Proof.
    induction l as [|[[p sw] tw] l IH]; intros acc Hl.
    - exists []. rewrite app_nil_r. split; [reflexivity|]. intros x [].
    - cbn [foldM]. rewrite Hl by (simpl; auto). cbn [bind].
      set (b := (weight_of (p, sw, tw) =? sp_get_weight f) && (sp_get_source p =? sp_get_source f) &&
                (sp_get_target p =? sp_get_target f)).
      destruct (IH (if b then acc ++ [(p, sw, tw)] else acc)) as (m & E & Hm).
      { intros; apply Hl; simpl; auto. }
      exists ((if b then [(p, sw, tw)] else []) ++ m). split.
      + replace (if b then Ok (acc ++ [(p, sw, tw)]) else Ok acc) with (Ok (if b then acc ++ [(p, sw, tw)] else acc))
          by (destruct b; reflexivity).
        cbn [bind]. rewrite E. destruct b; rewrite <- ?app_assoc; reflexivity.
      + intros x [<-|Hx] H1 H2 H3; [|apply in_or_app; right; auto].
        apply in_or_app. left. simpl in H2, H3.
        assert (b = true) as ->; [|simpl; auto].
        unfold b, sp_get_weight, sp_get_source, sp_get_target. rewrite H1, H2, H3, !N.eqb_refl. reflexivity.
  Qed.

  Lemma multis_ok ks kt k : (0 < ks)%nat -> (0 < kt)%nat -> forall r pc dj diff nf,
    calculator c (ig_num_nodes ig) pc -> dijkstra_object c (ig_num_nodes ig) dj ->
    exists d n, multi_queries k c H r (ig_num_nodes ig) ks kt fg pc dg dj diff nf = Ok (d, n) /\ (unique_shortest -> d = diff).
  Proof.
    intros Hks Hkt. induction k as [|k IH]; intros r pc dj diff nf Hpc Hdj; [simpl; eauto|]. cbn [multi_queries].
    destruct (ends_generated ks r) as (ss & r1 & -> & Hlss & Hss). cbn [bind].
    destruct (ends_generated kt r1) as (ts & r2 & -> & Hlts & Hts). cbn [bind].
    assert (ss <> []) as Nss by (destruct ss; simpl in *; [lia|discriminate]).
    assert (ts <> []) as Nts by (destruct ts; simpl in *; [lia|discriminate]).
    destruct (fast_returns pc ss ts Hpc Nss Nts Hss Hts) as (pc' & rf & -> & Hpc' & Hrf). cbn [bind].
    destruct (dijkstras_ok (list_prod ss ts) dj [] Hdj) as (dj' & l' & E & Hdj' & HF).
    { intros s sw t tw Hin. apply in_prod_iff in Hin as (H1 & H2). split; [apply (Hss _ _ H1)|apply (Hts _ _ H2)]. }
    unfold dijkstra_paths. rewrite E. cbn [bind]. rewrite app_nil_l. clear E.
    pose proof (found_sound ss ts l' Hss Hts HF) as Hsound.
    pose proof (fun s sw t tw ns W => found_complete ss ts l' s sw t tw ns W HF) as Hcomplete.
    remember (found_dijkstras c l') as found eqn:Ef. clear Ef HF.
    rewrite (mapM_ok (full_weight c) weight_of found) by (intros x Hx; apply (full_weight_ok ss ts); auto).
    cbn [bind]. pose proof (list_min_spec (map weight_of found)) as Hmin.
    pose proof (answer_multi_accepted c ops ig fg ss ts rf Hd Hf (unlimited_prepared _ _ _ Hp) Hrf) as HA.
    destruct (list_min (map weight_of found)) as [w|].
    - destruct Hmin as (Hw1 & Hw2). apply in_map_iff in Hw1 as (x & Hxw & Hx).
      pose proof (Hsound _ Hx) as Hxs. destruct (full_weight_ok ss ts x Hss Hxs) as (_ & Hlt).
      destruct x as [[p sw] tw]. simpl in Hxw. destruct Hxs as (X1 & X2 & X3 & X4 & _ & ((ns & X5) & X6)).
      assert (total (accepted ops) ss ts (sp_source p) (sp_target p) ns w) as HT.
      { exists sw, tw, (sp_weight p). split; [exact X1|]. split; [exact X2|]. split; [exact X5|]. lia. }
      simpl in Hlt. unfold WEIGHT_MAX in *.
      destruct rf as [f|]; simpl in HA; [|apply HA in HT; lia].
      destruct HA as ((sw' & tw' & W0 & Y1 & Y2 & Y3 & Y4) & Y5 & Y6). pose proof (Y6 _ _ _ _ HT) as Y7.
      destruct (Hcomplete (sp_source f) sw' (sp_target f) tw' (sp_nodes f) W0 Y1 Y2) as (p' & Hp' & Z1 & Z2 & Z3); try lia; auto.
      assert (w <= weight_of (p', sw', tw')) as HZ by (apply Hw2; apply in_map; auto). simpl in HZ.
      assert (w = sp_weight f) as -> by lia.
      unfold sp_get_weight at 1. rewrite N.eqb_refl. cbn [assert bind].
      destruct (matching_ok f found []) as (m & Em & Hm).
      { intros x0 Hx0. apply (full_weight_ok ss ts); auto. }
      unfold matching_dijkstras. rewrite Em. cbn [bind]. rewrite app_nil_l.
      assert (In (p', sw', tw') m) as Hin by (apply Hm; simpl; auto; lia).
      assert (0 < lenN m) as Hpos by (destruct m; [destruct Hin|rewrite lenN_cons; lia]).
      rewrite (proj2 (N.ltb_lt _ _) Hpos). cbn [assert bind].
      destruct (IH r2 pc' dj' (if existsb (fun '(p, _, _) => same_nodes (sp_get_nodes p) (sp_get_nodes f)) m then diff
        else diff + 1) nf Hpc' Hdj') as (d & n' & Ed & HU).
      exists d, n'. split; [exact Ed|]. intros U. rewrite (HU U).
      destruct (Hsound _ Hp') as (_ & _ & _ & _ & S1 & S2). rewrite Z1, Z2 in S1, S2.
      assert (sp_weight p' = W0) as <- by lia.
      assert (existsb (fun '(p, _, _) => same_nodes (sp_get_nodes p) (sp_get_nodes f)) m = true) as ->; [|reflexivity].
      apply existsb_exists. exists (p', sw', tw'). split; [exact Hin|].
      unfold sp_get_nodes. rewrite (U _ _ _ _ _ S2 S1 Y3). apply same_nodes_refl.
    - destruct found as [|x0 found]; [|discriminate].
      assert (rf = None) as ->.
      { destruct rf as [f|]; [|reflexivity]. exfalso. simpl in HA.
        destruct HA as ((sw' & tw' & W0 & Y1 & Y2 & Y3 & Y4) & Y5 & Y6).
        destruct (Hcomplete (sp_source f) sw' (sp_target f) tw' (sp_nodes f) W0 Y1 Y2) as (p' & [] & _);
          auto; unfold WEIGHT_MAX; lia. }
      cbn [assert bind]. apply IH; auto.
  Qed.
End Test.

(** ** The tests *)
Lemma random_nodes c ops ig n : debug_build c = true -> frozen_graph c ops ig -> accepted ops <> [] ->
  (forall e, In e (accepted ops) -> e_from e < n /\ e_to e < n) -> 1 <= ig_num_nodes ig <= n.
Proof.
  intros Hd (_ & Hr & Hz) Hne Hes.
  destruct (C20_nodes_proof c ops ig (or_introl Hd) Hr Hz) as (k & es & En & _ & _ & _ & _ & HN).
  unfold ig_get_num_nodes, ig_check_frozen in En. rewrite Hz in En. cbn [bind] in En. injection En as <-.
  destruct (HN Hne) as (e & He & ->). apply Hes in He. lia.
Qed.

Lemma prepare_unlimited c H hinv Q qinv ig fg : heap_laws H hinv -> pq_laws Q qinv -> ig_num_nodes ig <= 100 ->
  prepare c H Q ig = Ok fg -> prepared_unlimited c ig fg.
Proof. intros HL QL Hn HE. left. exists params_default. split; [simpl; lia|]. exists H, hinv, Q, qinv. auto. Qed.


(** everything that both tests do before the first query *)
Lemma test_setup fuel c H hinv Q qinv r n m :
  debug_build c = true -> heap_laws H hinv -> pq_laws Q qinv ->
  1 <= n <= 100 -> 1 <= m <= umax c / 2 -> 2000000 <= umax c ->
  ig_random fuel c r n m = Diverge \/
  exists ops ig r1 fg dg, ig_random fuel c r n m = Ok (ig, r1) /\ frozen_graph c ops ig /\
    1 <= ig_num_nodes ig <= 100 /\ (forall e, In e (accepted ops) -> e_weight e <= 99) /\
    prepare c H Q ig = Ok fg /\ prepared_unlimited c ig fg /\ calculator c (ig_num_nodes ig) (create_calculator c fg) /\
    pg_from_input_graph c ig = Ok dg /\ ig_get_num_nodes ig = Ok (ig_num_nodes ig).
Proof.
  intros Hd HL QL Hn Hm Hu.
  destruct (C77_graph_proof fuel c r n m) as [(E & _)|(k & ops & ig & r1 & _ & E & _ & Hf & Ha & Hlen)]; try lia; [auto|].
  right. assert (accepted ops <> []) as Hne by (intros X; rewrite X in Hlen; change (@lenN Edge []) with 0 in Hlen; lia).
  assert (forall e, In e (accepted ops) -> e_from e < n /\ e_to e < n /\ e_from e <> e_to e /\ 1 <= e_weight e <= 99) as Hes.
  { rewrite Ha. intros e. apply candidates_ok. lia. }
  assert (1 <= ig_num_nodes ig <= n) as Hin.
  { apply (random_nodes c ops ig n); auto. intros e He. apply Hes in He. tauto. }
  assert (forall e, In e (accepted ops) -> e_weight e <= 99) as HM by (intros e He; apply Hes in He; lia).
  assert (ig_num_nodes ig <= 100) as Hn100 by lia.
  destruct (C60_default_proof c ops ig 99 H hinv Q qinv Hd Hf HL QL Hn100 HM) as (fg & Hfg); [lia|lia|].
  pose proof (prepare_unlimited c H hinv Q qinv ig fg HL QL Hn100 Hfg) as Hp.
  destruct (C37_dijkstra_total_proof c ops ig 99 H hinv (dj_new c (ig_num_nodes ig)) 0 0) as (dg & _ & _ & Hdg & _); auto;
    try lia; [apply (accepted_frozen_weight c ops); auto|constructor|].
  exists ops, ig, r1, fg, dg. split; [exact E|]. split; [exact Hf|]. split; [lia|]. split; [exact HM|].
  split; [exact Hfg|]. split; [exact Hp|]. split.
  - constructor. apply (ok_n _ _ _ _ (prepared_ok c ops ig fg Hd Hf (unlimited_prepared _ _ _ Hp))).
  - split; [exact Hdg|]. destruct Hf as (_ & _ & Hz). unfold ig_get_num_nodes, ig_check_frozen. rewrite Hz. reflexivity.
Qed.

Lemma C77_single_proof : forall fuel c H hinv Q qinv r n m k,
  debug_build c = true -> heap_laws H hinv -> pq_laws Q qinv ->
  1 <= n <= 100 -> 1 <= m <= umax c / 2 -> 2000000 <= umax c ->
  ig_random fuel c r n m = Diverge \/
  run_test_on_random_graph fuel c H Q r n m k = Ok tt \/
  run_test_on_random_graph fuel c H Q r n m k = Panic (PExplicit "too many different paths") /\
    exists ops ig r', ig_random fuel c r n m = Ok (ig, r') /\ frozen_graph c ops ig /\ ~ unique_shortest_paths (accepted ops).
Proof.
  intros fuel c H hinv Q qinv r n m k Hd HL QL Hn Hm Hu.
  destruct (test_setup fuel c H hinv Q qinv r n m Hd HL QL Hn Hm Hu)
    as [E|(ops & ig & r1 & fg & dg & E & Hf & Hin & HM & Hfg & Hp & Hc & Hdg & Hnum)]; [auto|]. right.
  unfold run_test_on_random_graph. rewrite E. cbn [bind]. rewrite Hfg. cbn [bind]. rewrite Hdg. cbn [bind].
  rewrite Hnum. cbn [bind].
  assert (20000 / 2 <= umax c / 2) as Hh by (apply N.div_le_mono; lia). change (20000 / 2) with 10000 in Hh.
  assert (ig_num_nodes ig * ig_num_nodes ig <= 100 * 100) as Hnn by (apply N.mul_le_mono; lia).
  assert (forall s t, s < ig_num_nodes ig -> t < ig_num_nodes ig -> exists w, floyd_warshall_answer c ig s t w) as HF.
  { intros s t Hs Ht. apply (C37_fw_total_proof c ops ig 99 s t); auto; try lia.
    apply (accepted_frozen_weight c ops); auto. }
  assert (exists fw0 fw, fw_new c (ig_num_nodes ig) = Ok fw0 /\ fw_prepare c fw0 ig = Ok fw /\
    forall s t, s < ig_num_nodes ig -> t < ig_num_nodes ig -> exists w, fw_calc_weight c fw s t = Ok w /\
      floyd_warshall_answer c ig s t w) as (fw0 & fw & Efw0 & Efw & Hfw).
  { assert (forall k fw0, fw_new c k = Ok fw0 -> fw_num_nodes fw0 = k) as Hnew.
    { intros k0 f Ef. unfold fw_new in Ef. apply bind_Ok in Ef as (x & _ & Ef).
      destruct (x <=? umax c / 2) eqn:?; [|discriminate]. injection Ef as <-. reflexivity. }
    assert (forall k fw0 fw, fw_new c k = Ok fw0 -> fw_prepare c fw0 ig = Ok fw -> k = ig_num_nodes ig) as Hk.
    { intros k0 f0 f E0 E1. unfold fw_prepare in E1. rewrite Hnum in E1. cbn [bind] in E1.
      apply bind_Ok in E1 as (x & E1 & _). unfold assert in E1. rewrite (Hnew _ _ E0) in E1.
      destruct (N.eqb_spec (ig_num_nodes ig) k0); [auto|discriminate]. }
    destruct (HF 0 0) as (w & k0 & fw0 & fw & E0 & E1 & _); [lia|lia|]. pose proof (Hk _ _ _ E0 E1); subst k0.
    exists fw0, fw. split; [exact E0|]. split; [exact E1|]. intros s t Hs Ht.
    destruct (HF s t Hs Ht) as (w' & HW). exists w'. split; [|exact HW].
    destruct HW as (k1 & fw0' & fw' & E0' & E1' & E2'). pose proof (Hk _ _ _ E0' E1'); subst k1. congruence. }
  rewrite Efw0. cbn [bind]. rewrite Efw. cbn [bind].
  destruct (singles_ok c H hinv ops ig fg dg Hd HL Hf Hin HM Hu Hp Hdg fw k r1 (create_calculator c fg)
    (dj_new c (ig_num_nodes ig)) 0 Hfw Hc) as (d & -> & HU); [constructor|].
  cbn [bind]. destruct (N.ltb_spec (N.of_nat k) (10 * d)) as [Hlt|]; auto.
  right. split; [reflexivity|]. exists ops, ig, r1. split; [auto|]. split; [exact Hf|].
  intros U. rewrite (HU U) in Hlt. lia.
Qed.

Lemma C77_multi_proof : forall fuel c H hinv Q qinv r n m k ks kt,
  debug_build c = true -> heap_laws H hinv -> pq_laws Q qinv ->
  1 <= n <= 100 -> 1 <= m <= umax c / 2 -> 2000000 <= umax c -> (0 < ks)%nat -> (0 < kt)%nat ->
  ig_random fuel c r n m = Diverge \/
  run_multi_test_on_random_graph fuel c H Q r n m k ks kt = Ok tt \/
  run_multi_test_on_random_graph fuel c H Q r n m k ks kt = Panic (PExplicit "too many paths not found") \/
  run_multi_test_on_random_graph fuel c H Q r n m k ks kt = Panic (PExplicit "too many different paths") /\
    exists ops ig r', ig_random fuel c r n m = Ok (ig, r') /\ frozen_graph c ops ig /\ ~ unique_shortest_paths (accepted ops).
Proof.
  intros fuel c H hinv Q qinv r n m k ks kt Hd HL QL Hn Hm Hu Hks Hkt.
  destruct (test_setup fuel c H hinv Q qinv r n m Hd HL QL Hn Hm Hu)
    as [E|(ops & ig & r1 & fg & dg & E & Hf & Hin & HM & Hfg & Hp & Hc & Hdg & Hnum)]; [auto|]. right.
  unfold run_multi_test_on_random_graph. rewrite E. cbn [bind]. rewrite Hfg. cbn [bind]. rewrite Hdg. cbn [bind].
  rewrite Hnum. cbn [bind].
  destruct (multis_ok c H hinv ops ig fg dg Hd HL Hf Hin HM Hu Hp Hdg ks kt k Hks Hkt r1 (create_calculator c fg)
    (dj_new c (ig_num_nodes ig)) 0 0 Hc) as (d & nf & -> & HU); [constructor|].
  cbn [bind]. destruct (N.of_nat k <? 2 * nf); auto. destruct (N.ltb_spec (N.of_nat k) (10 * d)) as [Hlt|]; auto.
  right. right. split; [reflexivity|]. exists ops, ig, r1. split; [auto|]. split; [exact Hf|].
  intros U. rewrite (HU U) in Hlt. lia.
Qed.
