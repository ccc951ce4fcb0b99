(** * OracleProps: the reference implementations answer correctly *)
From Verif Require Export DijkstraFacts FloydFacts SpecOracle.
From Coq Require Import Lia.
Open Scope N_scope.

(** ** Objects that have been used before *)

Lemma foldM_Ok_inv {S A} (f : S -> A -> res S) (I : S -> Prop) l :
  (forall s a s', I s -> f s a = Ok s' -> I s') -> forall s s', I s -> foldM f l s = Ok s' -> I s'.
Proof.
  intros Hs. induction l as [|a l IH]; intros s s' Hi HE; simpl in HE; [congruence|].
  apply bind_Ok in HE as (s1 & H1 & H2). eauto.
Qed.

Lemma vf_set_valid_lt n f v f' : vf_inv n f -> vf_set_valid f v = Ok f' -> v < n.
Proof.
  intros (Hl & _) HE. unfold vf_set_valid in HE. apply bind_Ok in HE as (l & HE & _).
  apply upd_Ok in HE as (Hlt & _). lia.
Qed.
Lemma vf_is_valid_lt n f v b : vf_inv n f -> vf_is_valid f v = Ok b -> v < n.
Proof.
  intros (Hl & _) HE. unfold vf_is_valid in HE. apply bind_Ok in HE as (l & HE & _).
  apply idx_Ok, getN_Some_lt in HE. lia.
Qed.
Lemma update_keeps n d v w p d' : dj_base n d -> dj_update_node d v w p = Ok d' -> dj_base n d' /\ v < n.
Proof.
  intros Hb HE. pose proof HE as HE'. unfold dj_update_node in HE. apply bind_Ok in HE as (f & HE & _).
  pose proof (vf_set_valid_lt n _ _ _ (db_f _ _ Hb) HE) as Hv.
  destruct (dj_update_node_ok n d v w p Hb Hv) as (d2 & HE2 & Hb2 & _). split; congruence.
Qed.
Lemma relax_keeps c H n curr d a d' : dj_base n d -> dj_relax c H curr d a = Ok d' -> dj_base n d'.
Proof.
  intros Hb HE. unfold dj_relax in HE. apply bind_Ok in HE as (w & _ & HE). apply bind_Ok in HE as (w' & _ & HE).
  destruct (w <? w'); [|congruence]. apply bind_Ok in HE as (d1 & HE & HX). injection HX as <-.
  apply dj_base_set_heap. eapply update_keeps; eauto.
Qed.
Lemma settle_keeps n d v d' : dj_base n d -> dj_settle d v = Ok d' -> dj_base n d'.
Proof.
  intros [H1 H2 H3] HE. unfold dj_settle in HE. apply bind_Ok in HE as (x & _ & HE).
  apply bind_Ok in HE as (l & HE & HX). injection HX as <-. apply upd_Ok in HE as (_ & ->).
  constructor; simpl; auto. rewrite lenN_setN; auto.
Qed.
Lemma loop_keeps c H n g end_ fuel : forall d d', dj_base n d -> dj_loop fuel c H d g end_ = Ok d' -> dj_base n d'.
Proof.
  induction fuel as [|rest IH]; [|specialize (IH tt)]; intros d d' Hb HE; [discriminate|]. cbn [dj_loop] in HE.
  destruct (hp_pop H (dj_heap d)) as [[curr h']|]; [|congruence].
  apply bind_Ok in HE as (s & _ & HE). destruct s.
  - eapply IH; [|exact HE]. apply dj_base_set_heap; auto.
  - apply bind_Ok in HE as (arcs & _ & HE). apply bind_Ok in HE as (d2 & HE2 & HE).
    apply bind_Ok in HE as (d3 & HE3 & HE).
    assert (dj_base n d2) as Hb2.
    { eapply (foldM_Ok_inv _ (dj_base n)); [|apply dj_base_set_heap; exact Hb|exact HE2].
      intros; eapply relax_keeps; eauto. }
    pose proof (settle_keeps _ _ _ _ Hb2 HE3). destruct (hi_node curr =? end_); [congruence|eauto].
Qed.
Lemma init_keeps c H n d s d' : dj_base n d -> dj_init c H d s = Ok d' -> dj_base n d' /\ s < n.
Proof.
  intros [H1 H2 H3] HE. unfold dj_init in HE. apply bind_Ok in HE as (d2 & HE & HX). injection HX as <-.
  eapply update_keeps in HE; [|constructor; simpl; eauto; apply vf_invalidate_ok; auto].
  split; [apply dj_base_set_heap; tauto|tauto].
Qed.
Lemma calc_keeps c H n d g s t d' r : dj_base n d -> dj_calc_path c H d g s t = Ok (d', r) ->
  dj_base n d' /\ s < n /\ t < n /\ pg_num_nodes g = n.
Proof.
  intros Hb HE. unfold dj_calc_path in HE. apply bind_Ok in HE as (d1 & HE1 & HE).
  apply bind_Ok in HE as (d2 & HE2 & HE). apply bind_Ok in HE as (r2 & HE3 & HE). injection HE as -> ->.
  destruct (init_keeps _ _ _ _ _ _ Hb HE1) as (Hb1 & Hs).
  unfold dj_do_calc_path in HE2. apply bind_Ok in HE2 as (u & Hass & HE2). apply assert_Ok, N.eqb_eq in Hass.
  assert (pg_num_nodes g = n) as Hg by (rewrite Hass; apply (db_n _ _ Hb1)).
  destruct (N.eqb_spec s t) as [->|Hst]; [injection HE2 as ->; auto|].
  apply bind_Ok in HE2 as (b & HE4 & HE2). assert (t < n) as Ht.
  { unfold dj_is_settled in HE4. apply bind_Ok in HE4 as (v & HE4 & _).
    eapply vf_is_valid_lt; eauto. apply (db_f _ _ Hb1). }
  destruct b; [injection HE2 as ->; auto|]. split; auto. eapply loop_keeps; eauto.
Qed.
Lemma dijkstra_object_base c n d : dijkstra_object c n d -> dj_base n d.
Proof.
  induction 1 as [|H hinv d g s t d' r Hd IH HL HE]; [apply dj_new_base|].
  eapply calc_keeps; eauto.
Qed.

(** ** The node count of an input graph is a usize *)
Lemma uadd_le c a b r : uadd c a b = Ok r -> r <= umax c.
Proof.
  unfold uadd. destruct (N.leb_spec (a + b) (umax c)); [intros [= <-]; auto|].
  destruct (debug_build c); [discriminate|]. intros [= <-].
  assert (umax c + 1 <> 0) as Hne by lia. pose proof (N.mod_lt (a + b) (umax c + 1) Hne). lia.
Qed.
Lemma run_num_nodes c ops : forall g g', ig_num_nodes g <= umax c -> ig_run c g ops = Ok g' ->
  ig_num_nodes g' <= umax c.
Proof.
  induction ops as [|o ops IH]; intros g g' Hg HE; simpl in HE; [congruence|].
  apply bind_Ok in HE as ((g1 & x) & HE & HR). apply (IH g1); auto. clear HR IH.
  assert (forall f t w b g2 k, ig_do_add_edge c g f t w b = Ok (g2, k) -> ig_num_nodes g2 <= umax c) as HA.
  { intros f t w b g2 k HA. unfold ig_do_add_edge in HA. destruct (ig_frozen g); [discriminate|].
    destruct (f =? t); [congruence|]. destruct (w <? 1); [congruence|].
    apply bind_Ok in HA as (m & Hm & HA). apply uadd_le in Hm.
    apply bind_Ok in HA as (es & _ & HA). apply bind_Ok in HA as (es' & _ & HA).
    injection HA as <- _. simpl. lia. }
  destruct o; cbn [ig_step] in HE.
  - apply bind_Ok in HE as ((g2 & k) & HE & HX). injection HX as <- _. eapply HA; eauto.
  - apply bind_Ok in HE as ((g2 & k) & HE & HX). injection HX as <- _. eapply HA; eauto.
  - apply bind_Ok in HE as (g2 & HE & HX). injection HX as <- _. unfold ig_freeze in HE.
    destruct (ig_frozen g); [discriminate|]. injection HE as <-. auto.
  - injection HE as <- _. auto.
  - apply bind_Ok in HE as (l & HE & HX). congruence.
  - apply bind_Ok in HE as (l & HE & HX). congruence.
  - apply bind_Ok in HE as (l & HE & HX). congruence.
Qed.
Lemma frozen_num_nodes c ops ig : frozen_graph c ops ig -> ig_num_nodes ig <= umax c.
Proof. intros (_ & HR & _). eapply run_num_nodes; [|exact HR]. simpl. lia. Qed.

(** ** Dijkstra *)
Lemma dijkstra_spec c ops ig M (allow : Prop) : debug_build c = true -> frozen_graph c ops ig ->
  (forall e, In e (ig_edges ig) -> e_weight e <= M) ->
  (umax c < ig_num_nodes ig * M -> allow) ->
  forall H hinv g d s t, heap_laws H hinv -> pg_from_input_graph c ig = Ok g ->
  dj_base (ig_num_nodes ig) d -> s < ig_num_nodes ig -> t < ig_num_nodes ig ->
  wp (lim allow) (dj_calc_path c H d g s t) (fun '(d', r) => dj_post c (ig_edges ig) s t r).
Proof.
  intros Hd Hf HM Hov H hinv g d s t HL Hg Hobj Hs Ht.
  assert (ig_ok c ig) as Hok by (apply (frozen_graph_ok c ops); auto; left; auto).
  destruct (from_input_ok c ig Hok) as (g0 & Eg & Hwf & Harc).
  rewrite Hg in Eg. injection Eg as <-.
  eapply wp_mono.
  - apply dj_calc_path_spec with (n := ig_num_nodes ig) (M := M) (E := ig_edges ig) (hinv := hinv); auto.
    + eapply frozen_num_nodes; eauto.
    + intros u v w k Hin. apply Harc in Hin as (_ & Hin). apply HM in Hin. auto.
    + intros u v w. split.
      * intros (k & Hk). apply Harc in Hk. tauto.
      * intros Hin. exists (umax c). apply Harc. auto.
  - intros (d' & r) (_ & Hp). exact Hp.
Qed.

(** Accepted edges and stored edges have the same light walks. *)
Lemma dist_transfer c ops ig s t W : frozen_graph c ops ig ->
  is_dist (ig_edges ig) s t W -> is_dist (accepted ops) s t W.
Proof.
  intros Hf ((ns & HW) & Hmin). split.
  - exists ns. eapply frozen_walk; eauto.
  - intros ns' W' HW'. destruct (accepted_walk c ops ig s t ns' W' Hf HW') as (W2 & HW2 & Hle).
    apply Hmin in HW2. lia.
Qed.
Lemma none_transfer c ops ig s t B : frozen_graph c ops ig ->
  (forall ns W, walk (ig_edges ig) s t ns W -> B <= W) ->
  forall ns W, walk (accepted ops) s t ns W -> B <= W.
Proof.
  intros Hf Hmin ns' W' HW'. destruct (accepted_walk c ops ig s t ns' W' Hf HW') as (W2 & HW2 & Hle).
  apply Hmin in HW2. lia.
Qed.

Lemma C37_dijkstra_proof : forall c ops ig s t r,
  debug_build c = true -> frozen_graph c ops ig -> dijkstra_answer c ig s t r ->
  match r with
  | Some p => sp_get_source p = s /\ sp_get_target p = t /\
              is_dist (accepted ops) s t (sp_get_weight p) /\ sp_get_weight p < WEIGHT_MAX c /\
              walk (ig_edges ig) s t (sp_get_nodes p) (sp_get_weight p)
  | None => forall ns W, walk (accepted ops) s t ns W -> WEIGHT_MAX c <= W
  end.
Proof.
  intros c ops ig s t r Hd Hf (g & n & d & d' & H & hinv & HL & Hg & Hobj & HE).
  assert (ig_ok c ig) as Hok by (apply (frozen_graph_ok c ops); auto; left; auto).
  destruct (calc_keeps c H n d g s t d' r (dijkstra_object_base _ _ _ Hobj) HE) as (_ & Hs & Ht & Hn).
  destruct (from_input_ok c ig Hok) as (g0 & Eg & Hwf & _). rewrite Hg in Eg. injection Eg as <-.
  rewrite (wf_n _ _ Hwf) in Hn. subst n.
  pose proof (dijkstra_spec c ops ig (max_weight (ig_edges ig)) True Hd Hf (max_weight_ge _)
    (fun _ => I) H hinv g d s t HL Hg (dijkstra_object_base _ _ _ Hobj) Hs Ht) as HW.
  rewrite HE in HW. simpl in HW. destruct r as [p|]; simpl in HW.
  - destruct HW as (H1 & H2 & H3 & H4 & H5). split; auto. split; auto. split; [|split; auto].
    eapply dist_transfer; eauto. split; eauto.
  - eapply none_transfer; eauto.
Qed.

Lemma C37_dijkstra_total_proof : forall c ops ig M H hinv d s t,
  debug_build c = true -> frozen_graph c ops ig ->
  (forall e, In e (ig_edges ig) -> e_weight e <= M) -> ig_num_nodes ig * M <= umax c ->
  heap_laws H hinv -> dijkstra_object c (ig_num_nodes ig) d ->
  s < ig_num_nodes ig -> t < ig_num_nodes ig ->
  exists g d' r, pg_from_input_graph c ig = Ok g /\ dj_calc_path c H d g s t = Ok (d', r).
Proof.
  intros c ops ig M H hinv d s t Hd Hf HM Hb HL Hobj Hs Ht.
  assert (ig_ok c ig) as Hok by (apply (frozen_graph_ok c ops); auto; left; auto).
  destruct (from_input_ok c ig Hok) as (g & Eg & _).
  assert (umax c < ig_num_nodes ig * M -> False) as Hov by lia.
  pose proof (dijkstra_spec c ops ig M False Hd Hf HM Hov H hinv g d s t HL Eg (dijkstra_object_base _ _ _ Hobj) Hs Ht) as HW.
  exists g. destruct (dj_calc_path c H d g s t) as [(d' & r)|p|]; simpl in HW.
  - exists d', r. auto.
  - destruct p; destruct HW.
  - destruct HW.
Qed.

(** ** Floyd-Warshall *)
Lemma ig_edges_unique c ig u v w w' : ig_ok c ig -> In (mkEdge u v w) (ig_edges ig) ->
  In (mkEdge u v w') (ig_edges ig) -> w = w'.
Proof.
  intros Hok H1 H2. pose proof (ig_ok_nodup _ _ Hok) as ND. revert H1 H2 ND.
  induction (ig_edges ig) as [|e l IH]; [intros []|]. intros H1 H2 ND. simpl in ND.
  inversion ND as [|? ? Hx Hl]; subst. destruct H1 as [->|H1], H2 as [H2|H2].
  - congruence.
  - exfalso. apply Hx. apply (in_map (fun e => (e_from e, e_to e))) in H2. exact H2.
  - subst e. exfalso. apply Hx. apply (in_map (fun e => (e_from e, e_to e))) in H1. exact H1.
  - auto.
Qed.

Lemma fw_new_facts c n fw0 : debug_build c = true -> fw_new c n = Ok fw0 ->
  n * n <= umax c /\ fw_num_nodes fw0 = n /\ fw_matrix fw0 = vec_repeat (WEIGHT_MAX c) (n * n).
Proof.
  intros Hd HE. unfold fw_new, umul in HE. destruct (N.leb_spec (n * n) (umax c)).
  - cbn [bind] in HE. destruct (n * n <=? umax c / 2); [|discriminate]. injection HE as <-. auto.
  - rewrite Hd in HE. discriminate.
Qed.

Lemma fw_prepare_spec c ops ig M (allow : Prop) fw0 : debug_build c = true -> frozen_graph c ops ig ->
  (forall e, In e (ig_edges ig) -> e_weight e <= M) ->
  (umax c < 2 * ig_num_nodes ig * M -> allow) -> 1 <= ig_num_nodes ig ->
  fw_new c (ig_num_nodes ig) = Ok fw0 ->
  wp (lim allow) (fw_prepare c fw0 ig) (fun fw => fw_num_nodes fw = ig_num_nodes ig /\
    fw_inv c (ig_num_nodes ig) (ig_edges ig) (N.to_nat (ig_num_nodes ig)) (fw_matrix fw)).
Proof.
  intros Hd Hf HM Hov Hn1 Hnew.
  assert (ig_ok c ig) as Hok by (apply (frozen_graph_ok c ops); auto; left; auto).
  destruct (fw_new_facts _ _ _ Hd Hnew) as (Hnn & Hn0 & Hm0).
  assert (1 <= umax c) as Hu0.
  { assert (1 * 1 <= ig_num_nodes ig * ig_num_nodes ig) by (apply N.mul_le_mono; auto). lia. }
  assert (forall u v w, In (mkEdge u v w) (ig_edges ig) -> u < ig_num_nodes ig /\ v < ig_num_nodes ig /\ u <> v /\ 1 <= w <= M) as HE.
  { intros u v w Hin. pose proof (HM _ Hin). apply (ig_ok_edge _ _ Hok) in Hin. simpl in *. lia. }
  unfold fw_prepare, ig_get_num_nodes, ig_get_edges, ig_check_frozen.
  rewrite (ig_ok_frozen _ _ Hok). cbn [bind]. rewrite Hn0, N.eqb_refl. cbn [assert bind].
  eapply wp_bind_mono.
  { apply (fw_edges c (ig_num_nodes ig) (ig_edges ig) M allow); auto.
    - intros u v w w' H1 H2. eapply ig_edges_unique; eauto.
    - intros u v w Hin. apply (ig_ok_edge _ _ Hok) in Hin. simpl in Hin. lia.
    - rewrite Hm0. apply lenN_repeat.
    - intros i j Hi Hj. unfold val. rewrite Hm0, getN_repeat; auto. apply index_lt; auto. }
  intros m0 I0. eapply wp_bind_mono.
  { apply (fw_stages c (ig_num_nodes ig) (ig_edges ig) M allow); eauto. }
  intros m Hm. simpl. auto.
Qed.

Lemma fw_calc_ok c n fw s t : debug_build c = true -> n * n <= umax c -> fw_num_nodes fw = n ->
  lenN (fw_matrix fw) = n * n -> s < n -> t < n ->
  fw_calc_weight c fw s t = Ok (val c n (fw_matrix fw) s t).
Proof.
  intros Hd Hnn Hn Hl Hs Ht. unfold fw_calc_weight. rewrite Hn.
  rewrite fw_index_ok by auto. cbn [bind]. apply idx_val; auto.
Qed.

Lemma C37_fw_proof : forall c ops ig s t w,
  debug_build c = true -> frozen_graph c ops ig -> floyd_warshall_answer c ig s t w ->
  s < ig_num_nodes ig -> t < ig_num_nodes ig ->
  (w < WEIGHT_MAX c -> is_dist (accepted ops) s t w) /\
  (WEIGHT_MAX c <= w -> w = WEIGHT_MAX c /\ forall ns W, walk (accepted ops) s t ns W -> WEIGHT_MAX c <= W).
Proof.
  intros c ops ig s t w Hd Hf (n & fw0 & fw & Hnew & Hprep & Hcalc) Hs Ht.
  assert (ig_ok c ig) as Hok by (apply (frozen_graph_ok c ops); auto; left; auto).
  destruct (fw_new_facts _ _ _ Hd Hnew) as (Hnn & Hn0 & _).
  assert (n = ig_num_nodes ig) as ->.
  { unfold fw_prepare, ig_get_num_nodes, ig_check_frozen in Hprep.
    rewrite (ig_ok_frozen _ _ Hok) in Hprep. cbn [bind] in Hprep.
    apply bind_Ok in Hprep as (u & Ha & _). apply assert_Ok, N.eqb_eq in Ha. congruence. }
  assert (1 <= ig_num_nodes ig) as Hn1 by lia.
  pose proof (fw_prepare_spec c ops ig (max_weight (ig_edges ig)) True fw0 Hd Hf (max_weight_ge _)
    (fun _ => I) Hn1 Hnew) as HW.
  rewrite Hprep in HW. simpl in HW. destruct HW as (Hnum & Hinv).
  rewrite (fw_calc_ok c (ig_num_nodes ig)) in Hcalc; auto.
  2:{ apply (fi_len _ _ _ _ _ Hinv). }
  injection Hcalc as <-.
  destruct (fw_final c (ig_num_nodes ig) (ig_edges ig) (max_weight (ig_edges ig)) True Hd Hnn) with (m := fw_matrix fw) (s := s) (t := t)
    as (H1 & H2 & H3); auto.
  { assert (1 * 1 <= ig_num_nodes ig * ig_num_nodes ig) by (apply N.mul_le_mono; auto). lia. }
  { intros u v w Hin. pose proof (max_weight_ge _ _ Hin). apply (ig_ok_edge _ _ Hok) in Hin. simpl in *. lia. }
  unfold WEIGHT_MAX. split.
  - intros Hlt. eapply dist_transfer; eauto.
  - intros Hge. assert (val c (ig_num_nodes ig) (fw_matrix fw) s t = umax c) as Eq by lia.
    split; auto. eapply none_transfer; eauto.
Qed.

Lemma C37_fw_total_proof : forall c ops ig M s t,
  debug_build c = true -> frozen_graph c ops ig ->
  (forall e, In e (ig_edges ig) -> e_weight e <= M) ->
  2 * ig_num_nodes ig * M <= umax c -> ig_num_nodes ig * ig_num_nodes ig <= umax c / 2 ->
  s < ig_num_nodes ig -> t < ig_num_nodes ig ->
  exists w, floyd_warshall_answer c ig s t w.
Proof.
  intros c ops ig M s t Hd Hf HM Hb Hcap Hs Ht.
  assert (ig_num_nodes ig * ig_num_nodes ig <= umax c) as Hnn.
  { pose proof (N.div_le_upper_bound (umax c) 2 (umax c)). lia. }
  assert (fw_new c (ig_num_nodes ig) = Ok (mkFW (ig_num_nodes ig)
    (vec_repeat (WEIGHT_MAX c) (ig_num_nodes ig * ig_num_nodes ig)))) as Hnew.
  { unfold fw_new, umul. destruct (N.leb_spec (ig_num_nodes ig * ig_num_nodes ig) (umax c)); [|lia].
    cbn [bind]. destruct (N.leb_spec (ig_num_nodes ig * ig_num_nodes ig) (umax c / 2)); [auto|lia]. }
  assert (umax c < 2 * ig_num_nodes ig * M -> False) as Hov by lia.
  assert (1 <= ig_num_nodes ig) as Hn1 by lia.
  pose proof (fw_prepare_spec c ops ig M False _ Hd Hf HM Hov Hn1 Hnew) as HW.
  destruct (fw_prepare c _ ig) as [fw|p|] eqn:Hprep; simpl in HW.
  - destruct HW as (Hnum & Hinv). eexists. exists (ig_num_nodes ig). eexists. exists fw.
    split; [exact Hnew|]. split; [exact Hprep|].
    apply (fw_calc_ok c (ig_num_nodes ig)); auto. apply (fi_len _ _ _ _ _ Hinv).
  - destruct p; destruct HW.
  - destruct HW.
Qed.

(** ** Agreement *)
Lemma C37_agree_proof : forall c ops ig fg s t r r' w,
  debug_build c = true -> frozen_graph c ops ig -> prepared c ig fg ->
  answer c fg s t r -> dijkstra_answer c ig s t r' -> floyd_warshall_answer c ig s t w ->
  option_map sp_get_weight r = option_map sp_get_weight r' /\
  w = match r with Some p => sp_get_weight p | None => WEIGHT_MAX c end.
Proof.
  intros c ops ig fg s t r r' w Hd Hf Hp Ha Hdj Hfw.
  destruct (answer_single c ops ig fg s t r Hd Hf Hp Ha) as (Hs & Ht & HA).
  pose proof (C37_dijkstra_proof c ops ig s t r' Hd Hf Hdj) as HD.
  destruct (C37_fw_proof c ops ig s t w Hd Hf Hfw Hs Ht) as (HF1 & HF2).
  assert (forall W, is_dist (accepted ops) s t W -> W < umax c -> exists p, r = Some p /\ sp_weight p = W) as HX.
  { intros W HW HL. pose proof (answer_dist c ops ig fg s t r W Hd Hf Hp Ha HW) as HY.
    destruct (N.ltb_spec W (umax c)); [|lia]. destruct r as [p|]; [|discriminate]. injection HY as HY. eauto. }
  unfold WEIGHT_MAX, sp_get_weight in *. split.
  - destruct r' as [p'|].
    + destruct HD as (_ & _ & HD & HL & _). destruct (HX _ HD HL) as (p & -> & Hpw). simpl. f_equal. exact Hpw.
    + destruct r as [p|]; auto. destruct HA as (_ & _ & HL & HW & _).
      apply (frozen_walk c ops ig) in HW; auto. apply HD in HW. lia.
  - destruct (N.ltb_spec w (umax c)) as [Hlt|Hge].
    + destruct (HX w (HF1 Hlt) Hlt) as (p & -> & <-). auto.
    + destruct (HF2 Hge) as (-> & HN). destruct r as [p|]; auto. destruct HA as (_ & _ & HL & HW & _).
      apply (frozen_walk c ops ig) in HW; auto. apply HN in HW. lia.
Qed.

(** ** C43 *)
Lemma idx_panics {A} (l : list A) i : lenN l <= i -> idx l i = Panic PIndex.
Proof. intros Hl. unfold idx. rewrite getN_None; auto. Qed.
Lemma C43_dijkstra_proof : forall c H n d g s t,
  dijkstra_object c n d ->
  (n <= s -> dj_calc_path c H d g s t = Panic PIndex) /\
  (s < n -> pg_num_nodes g <> n ->
     dj_calc_path c H d g s t = Panic (PAssert "given graph has invalid node count")) /\
  (s < n -> pg_num_nodes g = n -> n <= t -> dj_calc_path c H d g s t = Panic PIndex).
Proof.
  intros c H n d g s t Ho. pose proof (dijkstra_object_base _ _ _ Ho) as Hb.
  assert (dj_base n (mkDijkstra (dj_num_nodes d) (dj_data d) (vf_invalidate_all (dj_flags d)) [])) as Hb0.
  { destruct Hb as [B1 B2 B3]. split; cbn; auto. apply vf_invalidate_ok; auto. }
  unfold dj_calc_path, dj_init. split; [|split].
  - intros Hs. unfold dj_update_node, vf_set_valid, upd. destruct (db_f _ _ Hb0) as [Hl _]. cbn in *.
    rewrite Hl. destruct (N.ltb_spec s n); [lia|]. reflexivity.
  - intros Hs Hg. destruct (dj_update_node_ok n _ s 0 (INVALID_NODE c) Hb0 Hs) as (d2 & -> & Hb2 & _).
    cbn [bind]. unfold dj_do_calc_path. cbn. rewrite (db_n _ _ Hb2).
    destruct (N.eqb_spec (pg_num_nodes g) n); [contradiction|]. reflexivity.
  - intros Hs Hg Ht. destruct (dj_update_node_ok n _ s 0 (INVALID_NODE c) Hb0 Hs) as (d2 & -> & Hb2 & _).
    cbn [bind]. unfold dj_do_calc_path. cbn. rewrite (db_n _ _ Hb2).
    destruct (N.eqb_spec (pg_num_nodes g) n); [|contradiction]. cbn [assert bind].
    destruct (N.eqb_spec s t); [lia|]. unfold dj_is_settled, vf_is_valid. cbn.
    destruct (db_f _ _ Hb2) as [Hl _]. rewrite idx_panics by lia. reflexivity.
Qed.
Lemma fw_prepare_len c fw ig fw' : fw_prepare c fw ig = Ok fw' ->
  fw_num_nodes fw' = fw_num_nodes fw /\ ig_num_nodes ig = fw_num_nodes fw /\ lenN (fw_matrix fw') = lenN (fw_matrix fw).
Proof.
  unfold fw_prepare. intros HE. apply bind_Ok in HE as (n & Hn & HE). apply bind_Ok in HE as (u & Ha & HE).
  apply assert_Ok, N.eqb_eq in Ha. apply bind_Ok in HE as (es & _ & HE).
  apply bind_Ok in HE as (m0 & H0 & HE). apply bind_Ok in HE as (m & H1 & HE). injection HE as <-. cbn.
  split; auto. split.
  { unfold ig_get_num_nodes in Hn. apply bind_Ok in Hn as (u' & _ & Hn). injection Hn as <-. auto. }
  assert (lenN m0 = lenN (fw_matrix fw)) as E0.
  { revert H0. apply foldM_Ok_inv with (I := fun m => lenN m = lenN (fw_matrix fw)); auto.
    intros m' e m2 Hm He. apply bind_Ok in He as (p & _ & He). apply upd_Ok in He as (_ & ->). rewrite lenN_setN. auto. }
  revert E0 H1. apply foldM_Ok_inv with (I := fun m => lenN m = lenN (fw_matrix fw)).
  intros ma k mb Hma. revert ma mb Hma. intros ma mb Hma. revert Hma. apply foldM_Ok_inv with (I := fun m => lenN m = lenN (fw_matrix fw)).
  intros mc i md Hmc. revert Hmc. apply foldM_Ok_inv with (I := fun m => lenN m = lenN (fw_matrix fw)).
  intros me j mf Hme Hs. unfold fw_step in Hs. apply bind_Ok in Hs as (m1 & Hm1 & Hs).
  assert (lenN m1 = lenN me) as Hl.
  { destruct (i =? j); [|injection Hm1 as <-; auto]. apply bind_Ok in Hm1 as (p & _ & Hm1).
    apply upd_Ok in Hm1 as (_ & ->). apply lenN_setN. }
  repeat (apply bind_Ok in Hs as (? & _ & Hs)). destruct (_ || _).
  - injection Hs as <-. congruence.
  - repeat (apply bind_Ok in Hs as (? & _ & Hs)). apply upd_Ok in Hs as (_ & ->). rewrite lenN_setN. congruence.
Qed.
Lemma C43_fw_proof : forall c ig s t w,
  debug_build c = true -> floyd_warshall_answer c ig s t w ->
  0 < ig_num_nodes ig /\ s + t / ig_num_nodes ig < ig_num_nodes ig /\
  floyd_warshall_answer c ig (s + t / ig_num_nodes ig) (t mod ig_num_nodes ig) w.
Proof.
  intros c ig s t w Hd (n & fw0 & fw & Hnew & Hprep & Hcalc).
  destruct (fw_new_facts _ _ _ Hd Hnew) as (Hnn & Hn0 & Hm0).
  destruct (fw_prepare_len _ _ _ _ Hprep) as (Hn & Hi & Hl).
  rewrite Hm0, lenN_repeat in Hl. rewrite Hn0 in Hn, Hi. rewrite Hi.
  unfold fw_calc_weight in Hcalc. rewrite Hn in Hcalc. apply bind_Ok in Hcalc as (p & Hp & Hw).
  assert (p = s * n + t) as ->.
  { unfold fw_index, umul, uadd in Hp. rewrite Hd in Hp. destruct (_ <=? _); [|discriminate]. cbn [bind] in Hp.
    destruct (_ <=? _); [|discriminate]. congruence. }
  assert (s * n + t < n * n) as Hlt.
  { unfold idx in Hw. destruct (getN _ _) eqn:E; [|discriminate]. apply getN_Some_lt in E. lia. }
  assert (0 < n) as Hpos by (destruct (N.eq_dec n 0) as [->|]; [|]; lia).
  assert (n <> 0) as Hne by lia.
  pose proof (N.div_mod t n Hne) as HD. pose proof (N.mod_lt t n Hne) as HM.
  set (q := t / n) in *. set (r := t mod n) in *. clearbody q r.
  assert (s + q < n) as Hrow.
  { destruct (N.lt_ge_cases (s + q) n) as [|Hge]; auto.
    assert (n * n <= (s + q) * n) as Hm by (apply N.mul_le_mono_r; auto).
    rewrite N.mul_add_distr_r, (N.mul_comm q n) in Hm. lia. }
  split; auto. split; auto. exists n, fw0, fw. split; auto. split; auto.
  unfold fw_calc_weight. rewrite Hn. rewrite fw_index_ok by auto. cbn [bind].
  rewrite <- Hw. f_equal. rewrite N.mul_add_distr_r, (N.mul_comm q n). lia.
Qed.

Definition c43_cfg : cfg := mkCfg 18446744073709551615 true.
Definition c43_ops1 : list ig_op := [OpAddEdge 0 1 1; OpAddEdge 1 2 1; OpAddEdge 2 0 3; OpFreeze].
Definition c43_ops2 : list ig_op := [OpAddEdge 0 1 7; OpAddEdge 1 2 9; OpFreeze].
Definition c43_ig (ops : list ig_op) : InputGraph :=
  match ig_run c43_cfg ig_new ops with Ok g => g | _ => ig_new end.
Lemma c43_frozen1 : frozen_graph c43_cfg c43_ops1 (c43_ig c43_ops1).
Proof.
  split; [|split; vm_compute; reflexivity]. intros o Ho.
  repeat (destruct Ho as [<-|Ho]; [cbn; repeat split; discriminate|]). destruct Ho.
Qed.
Lemma c43_frozen2 : frozen_graph c43_cfg c43_ops2 (c43_ig c43_ops2).
Proof.
  split; [|split; vm_compute; reflexivity]. intros o Ho.
  repeat (destruct Ho as [<-|Ho]; [cbn; repeat split; discriminate|]). destruct Ho.
Qed.
Lemma C43_target_proof : exists c ops ig s t w,
  frozen_graph c ops ig /\ ig_num_nodes ig <= t /\ floyd_warshall_answer c ig s t w /\ w < WEIGHT_MAX c.
Proof.
  exists c43_cfg, c43_ops1, (c43_ig c43_ops1), 0, 5, 1.
  split; [exact c43_frozen1|]. split; [vm_compute; discriminate|]. split; [|vm_compute; reflexivity].
  exists 3; eexists; eexists; (split; [vm_compute; reflexivity|]);
    (split; [vm_compute; reflexivity|]); vm_compute; reflexivity.
Qed.
Lemma C43_reuse_proof : exists c ops1 ig1 ops2 ig2 n fw0 fw1 fw2 s t w,
  frozen_graph c ops1 ig1 /\ frozen_graph c ops2 ig2 /\
  fw_new c n = Ok fw0 /\ fw_prepare c fw0 ig1 = Ok fw1 /\ fw_prepare c fw1 ig2 = Ok fw2 /\
  fw_calc_weight c fw2 s t = Ok w /\ w < WEIGHT_MAX c /\ ~ is_dist (accepted ops2) s t w.
Proof.
  exists c43_cfg, c43_ops1, (c43_ig c43_ops1), c43_ops2, (c43_ig c43_ops2), 3.
  do 3 eexists. exists 2, 0, 3.
  split; [exact c43_frozen1|]. split; [exact c43_frozen2|].
  split; [vm_compute; reflexivity|]. split; [vm_compute; reflexivity|].
  split; [vm_compute; reflexivity|]. split; [vm_compute; reflexivity|].
  split; [vm_compute; reflexivity|].
  intros ((ns & HW) & _). inversion HW as [|u v t w ns' W Hin HW' E1 E2 E3 E4]; subst.
  vm_compute in Hin. destruct Hin as [Hin|[Hin|[]]]; discriminate.
Qed.
