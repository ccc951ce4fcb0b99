(** * OracleRel: the reference implementations in builds without overflow checks *)
From Verif Require Export OracleProps ModeMono.
From Coq Require Import ZArith Lia.
Open Scope N_scope.

Lemma le_dj_relax c H curr d a : le_res (dj_relax c H curr d a) (dj_relax (release c) H curr d a).
Proof. unfold dj_relax. mono. Qed.
Local Hint Resolve le_dj_relax : core.
Lemma le_dj_loop c H g t : forall fuel d,
  le_res (dj_loop fuel c H d g t) (dj_loop fuel (release c) H d g t).
Proof. induction fuel as [|rest IH]; [|specialize (IH tt)]; intros d; cbn [dj_loop]; mono. Qed.
Local Hint Resolve le_dj_loop : core.
Lemma le_dj_parents c d : forall fuel path x,
  le_res (dj_parents fuel c d path x) (dj_parents fuel (release c) d path x).
Proof. induction fuel as [|rest IH]; intros path x; cbn [dj_parents]; mono. Qed.
Local Hint Resolve le_dj_parents : core.
Lemma le_dj_calc_path c H d g s t : le_res (dj_calc_path c H d g s t) (dj_calc_path (release c) H d g s t).
Proof. unfold dj_calc_path, dj_do_calc_path, dj_build_path. mono. Qed.

Lemma le_umul c a b : le_res (umul c a b) (umul (release c) a b).
Proof.
  unfold umul; simpl. destruct (a * b <=? umax c); [apply ModeMono.le_refl|].
  destruct (debug_build c); [discriminate|apply ModeMono.le_refl].
Qed.
Local Hint Resolve le_umul : core.
Lemma le_fw_index c n i j : le_res (fw_index c n i j) (fw_index (release c) n i j).
Proof. unfold fw_index. mono. Qed.
Local Hint Resolve le_fw_index : core.
Lemma le_fw_step c n k i m j : le_res (fw_step c n k i m j) (fw_step (release c) n k i m j).
Proof. unfold fw_step. mono. Qed.
Local Hint Resolve le_fw_step : core.
Lemma le_fw_new c n : le_res (fw_new c n) (fw_new (release c) n).
Proof. unfold fw_new. mono. Qed.
Lemma le_fw_prepare c fw ig : le_res (fw_prepare c fw ig) (fw_prepare (release c) fw ig).
Proof. unfold fw_prepare. mono. Qed.
Lemma le_fw_calc c fw s t : le_res (fw_calc_weight c fw s t) (fw_calc_weight (release c) fw s t).
Proof. unfold fw_calc_weight. mono. Qed.

Lemma dijkstra_both c ops ig M H hinv g d s t : debug_build c = true -> frozen_graph c ops ig ->
  (forall e, In e (ig_edges ig) -> e_weight e <= M) -> ig_num_nodes ig * M <= umax c ->
  heap_laws H hinv -> pg_from_input_graph c ig = Ok g ->
  dj_base (ig_num_nodes ig) d -> s < ig_num_nodes ig -> t < ig_num_nodes ig ->
  exists d' r, dj_calc_path c H d g s t = Ok (d', r) /\ dj_calc_path (unchecked c) H d g s t = Ok (d', r) /\
    dj_post c (ig_edges ig) s t r.
Proof.
  intros Hd Hf HM Hb HL Hg Hobj Hs Ht.
  assert (umax c < ig_num_nodes ig * M -> False) as Hov by lia.
  pose proof (dijkstra_spec c ops ig M False Hd Hf HM Hov H hinv g d s t HL Hg Hobj Hs Ht) as HW.
  destruct (dj_calc_path c H d g s t) as [(d' & r)|p|] eqn:HE; simpl in HW.
  - exists d', r. split; auto. split; auto. exact (le_dj_calc_path _ _ _ _ _ _ _ HE).
  - destruct p; destruct HW.
  - destruct HW.
Qed.

Lemma graph_both c ops ig : debug_build c = true -> frozen_graph c ops ig ->
  exists g, pg_from_input_graph c ig = Ok g /\ pg_from_input_graph (unchecked c) ig = Ok g /\ pg_num_nodes g = ig_num_nodes ig.
Proof.
  intros Hd Hf. assert (ig_ok c ig) as Hok by (apply (frozen_graph_ok c ops); auto; left; auto).
  destruct (from_input_ok c ig Hok) as (g & Eg & Hwf & _). exists g. split; auto. split; [exact Eg|].
  exact (wf_n _ _ Hwf).
Qed.

Lemma C37_dijkstra_release_proof : forall c ops ig M s t r,
  debug_build c = true -> frozen_graph c ops ig ->
  (forall e, In e (ig_edges ig) -> e_weight e <= M) -> ig_num_nodes ig * M <= umax c ->
  dijkstra_answer (unchecked c) ig s t r ->
  match r with
  | Some p => sp_get_source p = s /\ sp_get_target p = t /\
              is_dist (accepted ops) s t (sp_get_weight p) /\ sp_get_weight p < WEIGHT_MAX c /\
              walk (ig_edges ig) s t (sp_get_nodes p) (sp_get_weight p)
  | None => forall ns W, walk (accepted ops) s t ns W -> WEIGHT_MAX c <= W
  end.
Proof.
  intros c ops ig M s t r Hd Hf HM Hb (g & n & d & d' & H & hinv & HL & Hg & Hobj & HE).
  destruct (graph_both c ops ig Hd Hf) as (g0 & Eg & Eg' & Hgn). rewrite Hg in Eg'. injection Eg' as <-.
  pose proof (dijkstra_object_base _ _ _ Hobj) as Hbase.
  destruct (calc_keeps _ H n d g s t d' r Hbase HE) as (_ & Hs & Ht & Hn).
  rewrite Hgn in Hn. subst n.
  destruct (dijkstra_both c ops ig M H hinv g d s t Hd Hf HM Hb HL Eg Hbase Hs Ht) as (d2 & r2 & _ & HE2 & HW).
  rewrite HE in HE2. injection HE2 as <- <-. destruct r as [p|]; simpl in HW.
  - destruct HW as (H1 & H2 & H3 & H4 & H5). split; auto. split; auto. split; [|split; auto].
    eapply dist_transfer; eauto. split; eauto.
  - eapply none_transfer; eauto.
Qed.

Lemma C37_dijkstra_release_total_proof : forall c ops ig M H hinv d s t,
  debug_build c = true -> frozen_graph c ops ig ->
  (forall e, In e (ig_edges ig) -> e_weight e <= M) -> ig_num_nodes ig * M <= umax c ->
  heap_laws H hinv -> dijkstra_object (unchecked c) (ig_num_nodes ig) d ->
  s < ig_num_nodes ig -> t < ig_num_nodes ig ->
  exists g d' r, pg_from_input_graph (unchecked c) ig = Ok g /\ dj_calc_path (unchecked c) H d g s t = Ok (d', r).
Proof.
  intros c ops ig M H hinv d s t Hd Hf HM Hb HL Hobj Hs Ht.
  destruct (graph_both c ops ig Hd Hf) as (g & Eg & Eg' & Hgn).
  destruct (dijkstra_both c ops ig M H hinv g d s t Hd Hf HM Hb HL Eg (dijkstra_object_base _ _ _ Hobj) Hs Ht)
    as (d2 & r2 & _ & HE2 & _). eauto 6.
Qed.

Lemma fw_both c ops ig M s t w : debug_build c = true -> frozen_graph c ops ig ->
  (forall e, In e (ig_edges ig) -> e_weight e <= M) ->
  2 * ig_num_nodes ig * M <= umax c -> ig_num_nodes ig * ig_num_nodes ig <= umax c / 2 ->
  s < ig_num_nodes ig -> t < ig_num_nodes ig ->
  floyd_warshall_answer (unchecked c) ig s t w <-> floyd_warshall_answer c ig s t w.
Proof.
  intros Hd Hf HM Hb Hcap Hs Ht.
  assert (forall n fw0 fw w', fw_new c n = Ok fw0 -> fw_prepare c fw0 ig = Ok fw -> fw_calc_weight c fw s t = Ok w' ->
    fw_new (unchecked c) n = Ok fw0 /\ fw_prepare (unchecked c) fw0 ig = Ok fw /\ fw_calc_weight (unchecked c) fw s t = Ok w') as Hto.
  { intros n fw0 fw w' E1 E2 E3. split; [exact (le_fw_new _ _ _ E1)|]. split; [exact (le_fw_prepare _ _ _ _ E2)|].
    exact (le_fw_calc _ _ _ _ _ E3). }
  assert (forall c' n fw0 fw, fw_new c' n = Ok fw0 -> fw_prepare c' fw0 ig = Ok fw -> n = ig_num_nodes ig) as Hn.
  { intros c' n fw0 fw E1 E2. unfold fw_new in E1. apply bind_Ok in E1 as (m & _ & E1).
    destruct (_ <=? _); [|discriminate]. injection E1 as <-. unfold fw_prepare, ig_get_num_nodes in E2.
    apply bind_Ok in E2 as (u & Hu & E2). apply bind_Ok in Hu as (x & _ & Hu). injection Hu as <-.
    apply bind_Ok in E2 as (y & Ha & _). apply assert_Ok, N.eqb_eq in Ha. auto. }
  split.
  - intros (n & fw0 & fw & E1 & E2 & E3).
    destruct (C37_fw_total_proof c ops ig M s t Hd Hf HM Hb Hcap Hs Ht) as (w' & n' & fw0' & fw' & F1 & F2 & F3).
    assert (n' = n) as -> by (rewrite (Hn _ _ _ _ E1 E2); eauto).
    destruct (Hto _ _ _ _ F1 F2 F3) as (G1 & G2 & G3).
    assert (fw0' = fw0) as -> by congruence. assert (fw' = fw) as -> by congruence.
    assert (w' = w) as -> by congruence. exists n, fw0, fw. auto.
  - intros (n & fw0 & fw & E1 & E2 & E3). exists n, fw0, fw. apply Hto; auto.
Qed.

Lemma C37_fw_release_proof : forall c ops ig M s t,
  debug_build c = true -> frozen_graph c ops ig ->
  (forall e, In e (ig_edges ig) -> e_weight e <= M) ->
  2 * ig_num_nodes ig * M <= umax c -> ig_num_nodes ig * ig_num_nodes ig <= umax c / 2 ->
  s < ig_num_nodes ig -> t < ig_num_nodes ig ->
  (exists w, floyd_warshall_answer (unchecked c) ig s t w) /\
  forall w, floyd_warshall_answer (unchecked c) ig s t w ->
    (w < WEIGHT_MAX c -> is_dist (accepted ops) s t w) /\
    (WEIGHT_MAX c <= w -> w = WEIGHT_MAX c /\ forall ns W, walk (accepted ops) s t ns W -> WEIGHT_MAX c <= W).
Proof.
  intros c ops ig M s t Hd Hf HM Hb Hcap Hs Ht. split.
  - destruct (C37_fw_total_proof c ops ig M s t Hd Hf HM Hb Hcap Hs Ht) as (w & Hw). exists w. eapply fw_both; eauto.
  - intros w Hw. apply C37_fw_proof with (ig := ig); auto. apply (fw_both c ops ig M); auto.
Qed.
