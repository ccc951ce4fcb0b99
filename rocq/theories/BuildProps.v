(** * BuildProps: proofs of the properties that compare the two kinds of build *)
From Verif Require Import RelFacts RelProps RelLinear OrderProps Shape.
From Verif Require Export SessionProps.
Open Scope N_scope.

(** ** Outcomes of a build without overflow checks *)
Lemma C76_params_proof : forall c ops ig H hinv Q qinv params,
  debug_build c = false -> 1 <= umax c -> (forall e, In e (accepted ops) -> e_from e < umax c /\ e_to e < umax c) ->
  frozen_graph c ops ig -> heap_laws H hinv -> pq_laws Q qinv ->
  (exists fg, prepare_with_params c H Q ig params = Ok fg) \/ prepare_with_params c H Q ig params = Panic PCapacity.
Proof.
  intros c ops ig H hinv Q qinv params Hd Hu Hids Hf HL QL. pose proof (frozen_graph_ok c ops ig (or_intror Hids) Hf) as Hok.
  pose proof (build_params_str c H hinv HL ig Hok (fun r => r = PCapacity) (or_introl Hd) (fun _ => eq_refl) Hu Q qinv QL params) as W.
  unfold prepare_with_params. destruct (build_with_params c H Q ig params) as [fg|r|]; simpl in W; [eauto|subst; auto|contradiction].
Qed.

Lemma order_inr c H ig order params m : ig_frozen ig = true -> lenN order = ig_num_nodes ig ->
  build_with_order_with_params c H ig order params <> Ok (inr m).
Proof.
  intros Hfr Hl Eb. unfold build_with_order_with_params, ig_get_num_nodes, ig_check_frozen in Eb. rewrite Hfr in Eb. cbn [bind] in Eb.
  rewrite Hl, N.eqb_refl in Eb. cbn [negb] in Eb.
  destruct (fg_new _ _); cbn [bind] in Eb; try discriminate. destruct (run_contraction_with_order _ _ _ _ _ _ _); cbn [bind] in Eb; discriminate.
Qed.

Lemma C76_order_proof : forall c ops ig H hinv order params,
  debug_build c = false -> 1 <= umax c -> (forall e, In e (accepted ops) -> e_from e < umax c /\ e_to e < umax c) ->
  frozen_graph c ops ig -> heap_laws H hinv -> permutation_of_nodes (ig_num_nodes ig) order ->
  (exists fg, prepare_with_order_with_params c H ig order params = Ok (inl fg)) \/
  prepare_with_order_with_params c H ig order params = Panic PCapacity.
Proof.
  intros c ops ig H hinv order params Hd Hu Hids Hf HL Hperm. pose proof (frozen_graph_ok c ops ig (or_intror Hids) Hf) as Hok.
  pose proof (build_order_str c H hinv HL ig Hok (fun r => r = PCapacity) (or_introl Hd) (fun _ => eq_refl) Hu order params
    (or_introl (perm_order _ _ Hperm))) as W.
  unfold prepare_with_order_with_params.
  destruct (build_with_order_with_params c H ig order params) as [[fg|m]|r|] eqn:Eb; simpl in W; [eauto| |subst; auto|contradiction].
  exfalso. apply (order_inr c H ig order params m); auto. - apply Hf. - apply perm_len; auto.
Qed.

Lemma C76_invalid_proof : forall c ops ig H hinv order params,
  debug_build c = false -> 1 <= umax c -> (forall e, In e (accepted ops) -> e_from e < umax c /\ e_to e < umax c) ->
  frozen_graph c ops ig -> heap_laws H hinv -> lenN order = ig_num_nodes ig ->
  (exists x, In x order /\ ig_num_nodes ig <= x) ->
  prepare_with_order_with_params c H ig order params = Panic (PExplicit "Order contains invalid node id") \/
  prepare_with_order_with_params c H ig order params = Panic PCapacity.
Proof.
  intros c ops ig H hinv order params Hd Hu Hids Hf HL Hl Hex. pose proof (frozen_graph_ok c ops ig (or_intror Hids) Hf) as Hok.
  destruct (first_invalid _ _ Hex) as (pre & x & post & -> & Hx & Hpre).
  unfold prepare_with_order_with_params, build_with_order_with_params.
  rewrite (frozen_num _ _ _ Hf). cbn [bind]. rewrite Hl, N.eqb_refl. cbn [negb].
  set (P := fun r => r = PCapacity).
  pose proof (r_fg_new c ig P (or_introl Hd) (fun _ => eq_refl) Hu) as HN.
  destruct (fg_new c (ig_num_nodes ig)) as [fg0|r|]; cbn [bind wp] in *; [|unfold P in HN; subst; auto|contradiction].
  destruct HN as [Hr0 Hcap].
  unfold run_contraction_with_order.
  destruct (rstate_init c ig Hok fg0 Hr0) as (g0 & -> & Hb0). cbn [bind].
  rewrite lenN_app, lenN_cons in Hl.
  assert (ig_num_nodes ig <= umax c) as Hn.
  { assert (umax c / 2 <= umax c) as Hh by (apply N.div_le_upper_bound; lia). lia. }
  pose proof (r_contract_order c H hinv HL ig P (or_introl Hd) (fun _ => eq_refl) Hu fg0 g0 pre params Hn Hb0 (or_introl Hpre) ltac:(lia)) as HC.
  rewrite foldM_app.
  destruct (foldM _ pre _) as [[[[fg g] ws] rank]|r|]; cbn [bind wp foldM] in *; [|unfold P in HC; subst; auto|contradiction].
  rewrite (proj2 (N.leb_le _ _) Hx). auto.
Qed.

Lemma C76_reuse_proof : forall c ops ig fg l ops' ig' H hinv params,
  debug_build c = false -> 1 <= umax c -> frozen_graph c ops ig -> prepared c ig fg -> get_node_ordering fg = Ok l ->
  (forall e, In e (accepted ops') -> e_from e < umax c /\ e_to e < umax c) ->
  frozen_graph c ops' ig' -> ig_num_nodes ig' = ig_num_nodes ig -> heap_laws H hinv ->
  (exists fg', prepare_with_order_with_params c H ig' l params = Ok (inl fg') /\ get_node_ordering fg' = Ok l) \/
  prepare_with_order_with_params c H ig' l params = Panic PCapacity.
Proof.
  intros c ops ig fg l ops' ig' H hinv params Hd Hu Hf Hp HE Hids Hf' Hn HL.
  destruct (C10_proof c ops ig fg Hu Hf Hp) as (l' & HE' & Hperm). rewrite HE in HE'. injection HE' as <-.
  rewrite <- Hn in Hperm.
  destruct (C76_order_proof c ops' ig' H hinv l params Hd Hu Hids Hf' HL Hperm) as [(fg' & HB)|HP]; [|auto].
  left. exists fg'. split; auto. apply (C10_given_proof c ops' ig' l params); auto. exists H, hinv. auto.
Qed.

Lemma C76_ids_proof : forall c ops ig H hinv e, 1 <= umax c -> frozen_graph c ops ig -> heap_laws H hinv ->
  In e (accepted ops) -> ig_num_nodes ig <= e_from e \/ ig_num_nodes ig <= e_to e ->
  (forall Q qinv params, pq_laws Q qinv -> exists r, prepare_with_params c H Q ig params = Panic r) /\
  (forall order params, permutation_of_nodes (ig_num_nodes ig) order -> exists r, prepare_with_order_with_params c H ig order params = Panic r).
Proof.
  intros c ops ig H hinv e Hu Hf HL He Hge.
  assert (forall fg, ~ prepared c ig fg) as HN.
  { intros fg Hp. pose proof (prepared_nodes c ops ig fg Hf Hp e He). lia. }
  destruct (C69_ends_proof c ops ig H hinv Hu Hf HL) as (_ & D1 & _ & D2). split.
  - intros Q qinv params QL. specialize (D1 Q qinv params QL).
    destruct (prepare_with_params c H Q ig params) as [fg|r|] eqn:E; [|eauto|congruence].
    destruct (HN fg). left. exists params, H, hinv, Q, qinv. auto.
  - intros order params Hperm. specialize (D2 order params).
    destruct (prepare_with_order_with_params c H ig order params) as [[fg|m]|r|] eqn:E; [| |eauto|congruence].
    + destruct (HN fg). right. exists order, params. split; auto. exists H, hinv. auto.
    + exfalso. apply (order_inr c H ig order params m); auto. * apply Hf. * apply perm_len; auto.
Qed.

(** ** Equal results within bounds *)
Lemma C76_graphs_proof : forall c ops ig, (forall e, In e (accepted ops) -> e_from e < umax c /\ e_to e < umax c) ->
  frozen_graph (unchecked c) ops ig <-> frozen_graph c ops ig.
Proof.
  intros c ops ig Hids. split; [apply frozen_release; auto|]. intros (H1 & H2 & H3). split; [exact H1|]. split; auto.
  exact (le_run c ops _ _ H2).
Qed.

Lemma C76_same_params_proof : forall c ops ig M H hinv Q qinv params,
  frozen_graph c ops ig -> heap_laws H hinv -> pq_laws Q qinv ->
  debug_build c = true -> (forall e, In e (accepted ops) -> e_weight e <= M) ->
  prep_bound c (ig_num_nodes ig) M \/
    ig_num_nodes ig <= p_max_settled_nodes_contraction params /\ prep_bound_unlimited c (ig_num_nodes ig) M ->
  ig_num_nodes ig * ig_num_nodes ig <= 2147483647 ->
  prepare_with_params (unchecked c) H Q ig params = prepare_with_params c H Q ig params.
Proof.
  intros c ops ig M H hinv Q qinv params Hf HL QL Hd HM HB HB2.
  assert (exists fg, prepare_with_params c H Q ig params = Ok fg) as (fg & E).
  { destruct HB as [HB|[Hl HB]]; [eapply C14_params_proof; eauto|eapply C60_params_proof; eauto]. }
  rewrite E. apply C15_params_proof. exact E.
Qed.

Lemma C76_same_order_proof : forall c ops ig M H hinv order params,
  frozen_graph c ops ig -> heap_laws H hinv -> permutation_of_nodes (ig_num_nodes ig) order ->
  debug_build c = true -> (forall e, In e (accepted ops) -> e_weight e <= M) ->
  prep_bound c (ig_num_nodes ig) M \/
    ig_num_nodes ig <= po_max_settled_nodes_contraction_with_order params /\ prep_bound_unlimited c (ig_num_nodes ig) M ->
  prepare_with_order_with_params (unchecked c) H ig order params = prepare_with_order_with_params c H ig order params.
Proof.
  intros c ops ig M H hinv order params Hf HL Hperm Hd HM HB.
  assert (exists fg, prepare_with_order_with_params c H ig order params = Ok (inl fg)) as (fg & E).
  { destruct HB as [HB|[Hl HB]]; [eapply C14_order_proof; eauto|eapply C60_order_proof; eauto]. }
  rewrite E. apply C15_order_proof. exact E.
Qed.

(** the checks at the start of a query do not depend on the build *)
Lemma C76_same_query_proof : forall c ops ig fg X K1 K2 H hinv pc ss ts,
  frozen_graph c ops ig -> prepared c ig fg -> heap_laws H hinv -> calculator c (ig_num_nodes ig) pc ->
  debug_build c = true ->
  (forall v w, In (v, w) ss -> w = WEIGHT_MAX c \/ w <= K1) ->
  (forall v w, In (v, w) ts -> w = WEIGHT_MAX c \/ w <= K2) ->
  (forall e, In e (accepted ops) -> e_weight e <= X) /\ K1 + K2 + X * 2 ^ ig_num_nodes ig <= umax c \/
  (forall e, In e (fg_edges_fwd fg) \/ In e (fg_edges_bwd fg) -> fe_weight e <= X) /\
    K1 + K2 + 2 * (ig_num_nodes ig - 1) * X <= umax c ->
  pc_calc_path_multiple (unchecked c) H pc fg ss ts = pc_calc_path_multiple c H pc fg ss ts.
Proof.
  intros c ops ig fg X K1 K2 H hinv pc ss ts Hf Hp HL Hc Hd HK1 HK2 HB.
  assert (fg_num_nodes fg = ig_num_nodes ig) as Hn by exact (ok_n _ _ _ _ (prepared_ok c ops ig fg Hd Hf Hp)).
  destruct (C12_reject_proof c _ pc fg H ss ts Hc) as [_ HR]. destruct (HR Hn) as (R1 & R2 & R3 & R4).
  pose proof (calculator_ok _ _ _ Hc) as (Hpn & _).
  destruct (is_nil ss) eqn:Es.
  { destruct ss; [|discriminate]. rewrite R1 by reflexivity. unfold pc_calc_path_multiple. rewrite Hn, Hpn, N.eqb_refl. reflexivity. }
  destruct (is_nil ts) eqn:Et.
  { destruct ts; [|discriminate]. rewrite R2; [|destruct ss; discriminate|reflexivity].
    unfold pc_calc_path_multiple. rewrite Hn, Hpn, N.eqb_refl, Es. reflexivity. }
  destruct (forallb (fun '(m, _) => m <? ig_num_nodes ig) ss) eqn:Fs; unfold pc_calc_path_multiple at 1;
    rewrite Hn, Hpn, N.eqb_refl, Es, Et, Fs; unfold assert; cbn [negb bind].
  2:{ unfold pc_calc_path_multiple, assert. rewrite Hn, Hpn, N.eqb_refl, Es, Et, Fs. reflexivity. }
  destruct (forallb (fun '(m, _) => m <? ig_num_nodes ig) ts) eqn:Ft.
  2:{ unfold pc_calc_path_multiple, assert. rewrite Hn, Hpn, N.eqb_refl, Es, Et, Fs, Ft. reflexivity. }
  rewrite forallb_ids in Fs, Ft.
  assert (exists pc' r, pc_calc_path_multiple c H pc fg ss ts = Ok (pc', r)) as (pc' & r & E).
  { assert (ss <> []) by (destruct ss; discriminate). assert (ts <> []) by (destruct ts; discriminate).
    destruct HB as [[HX HB]|[HX HB]];
      [eapply (C14_query_proof c ops ig fg X K1 K2)|eapply (C14_query_linear_proof c ops ig fg X K1 K2)]; eauto;
      intros v w HI; split; eauto. }
  pose proof (C15_query_proof c H pc fg ss ts _ E) as E'. rewrite E, <- E'.
    unfold pc_calc_path_multiple. rewrite Hn, Hpn, N.eqb_refl, Es, Et. unfold assert.
    rewrite (proj2 (forallb_ids _ ss) Fs), (proj2 (forallb_ids _ ts) Ft). reflexivity.
Qed.

Lemma C76_same_result_proof : forall c ops ig fg X K1 K2 H hinv pc pc2 ss ts,
  frozen_graph c ops ig -> prepared c ig fg -> heap_laws H hinv ->
  calculator c (ig_num_nodes ig) pc -> calculator (unchecked c) (ig_num_nodes ig) pc2 ->
  debug_build c = true ->
  (forall v w, In (v, w) ss -> w = WEIGHT_MAX c \/ w <= K1) ->
  (forall v w, In (v, w) ts -> w = WEIGHT_MAX c \/ w <= K2) ->
  (forall e, In e (accepted ops) -> e_weight e <= X) /\ K1 + K2 + X * 2 ^ ig_num_nodes ig <= umax c \/
  (forall e, In e (fg_edges_fwd fg) \/ In e (fg_edges_bwd fg) -> fe_weight e <= X) /\
    K1 + K2 + 2 * (ig_num_nodes ig - 1) * X <= umax c ->
  result_of (pc_calc_path_multiple (unchecked c) H pc2 fg ss ts) = result_of (pc_calc_path_multiple c H pc fg ss ts) /\
  calc_path_multiple (unchecked c) H fg ss ts = calc_path_multiple c H fg ss ts.
Proof.
  intros c ops ig fg X K1 K2 H hinv pc pc2 ss ts Hf Hp HL Hc Hc2 Hd HK1 HK2 HB.
  assert (fg_get_num_nodes fg = ig_num_nodes ig) as Hn by exact (ok_n _ _ _ _ (prepared_ok c ops ig fg Hd Hf Hp)).
  pose proof (C76_same_query_proof c ops ig fg X K1 K2 H hinv _ ss ts Hf Hp HL (prepared_calc c ops ig fg Hd Hf Hp) Hd HK1 HK2 HB) as E.
  rewrite (C11_proof (unchecked c) H hinv _ pc2 fg fg ss ts HL Hc2 Hn), (C11_proof c H hinv _ pc fg fg ss ts HL Hc Hn).
  unfold calc_path_multiple. change (create_calculator (unchecked c) fg) with (create_calculator c fg).
  rewrite E. auto.
Qed.

(** ** Sessions of a build without overflow checks *)
Lemma C76_session_proof : forall c w ops fg pc H hinv sources targets,
  platform c -> debug_build c = false -> 1 <= umax c -> session c w -> In (ops, fg) (w_prepared w) -> In pc (w_calculators w) ->
  heap_laws H hinv -> pc_num_nodes pc = fg_get_num_nodes fg ->
  sources <> [] -> targets <> [] -> (forall v w, In (v, w) (sources ++ targets) -> v < fg_get_num_nodes fg) ->
  exists pc' r, pc_calc_path_multiple c H pc fg sources targets = Ok (pc', r) /\
    forall p, r = Some p -> (exists w, In (sp_get_source p, w) sources) /\ (exists w, In (sp_get_target p, w) targets) /\
      exists W, walk (accepted ops) (sp_get_source p) (sp_get_target p) (sp_get_nodes p) W.
Proof.
  intros c w ops fg pc H hinv ss ts Hc Hd Hu HS Hin Hpc HL Hn Hss Hts Hv.
  destruct (session_inv c w Hc (or_intror Hu) HS) as (_ & HP & HC & _). rewrite Forall_forall in HP, HC.
  destruct (HP _ Hin) as (ig & Hf & Hp). destruct (HC _ Hpc) as (n & Hcalc). cbn [fst snd] in *.
  pose proof (sh_n _ _ _ _ (prepared_shape c ops ig fg Hu Hf Hp)) as Hfn.
  unfold fg_get_num_nodes in *. rewrite Hfn in *.
  pose proof (calculator_ok _ _ _ Hcalc) as (Hk & _). rewrite Hn in Hk. subst n.
  destruct (C69_query_proof c ops ig fg H hinv pc ss ts Hd Hu Hf Hp HL Hcalc Hss Hts Hv) as (pc' & r & E & _ & G).
  exists pc', r. auto.
Qed.

Lemma C76_files_proof : forall c fg bytes,
  load_from_disk (unchecked c) bytes = load_from_disk c bytes /\
  save_to_disk32 (unchecked c) fg = save_to_disk32 c fg /\
  (forall r, load_from_disk32 c bytes = Ok r -> load_from_disk32 (unchecked c) bytes = Ok r).
Proof.
  intros c fg bytes. split; [reflexivity|]. split; [reflexivity|]. intros r.
  unfold load_from_disk32, deserialize_32. change (dec_fast_graph32 (unchecked c) bytes) with (dec_fast_graph32 c bytes).
  destruct (dec_fast_graph32 c bytes) as [g rest|e]; [|auto].
  unfold from_fast_graph32, fg32_convert_to_usize. intros E.
  destruct (fg_new c (fg32_num_nodes g)) as [fg0| |] eqn:E0; cbn [bind] in E; try discriminate.
  change (unchecked c) with (release c). rewrite (le_fg_new c _ _ E0). exact E.
Qed.
