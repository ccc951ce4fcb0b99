(** * ReleaseProps: reuse of calculators, builds without overflow checks *)
From Verif Require Export GraphProps.
Open Scope N_scope.

(** *** C11 *)
Lemma C11_proof : forall c H hinv n pc fg0 fg ss ts,
  heap_laws H hinv -> calculator c n pc -> fg_get_num_nodes fg0 = n ->
  result_of (pc_calc_path_multiple c H pc fg ss ts) =
  result_of (pc_calc_path_multiple c H (create_calculator c fg0) fg ss ts).
Proof.
  intros c H hinv n pc fg0 fg ss ts HL Hc <-.
  pose proof (calc_history c H hinv HL _ fg pc (create_calculator c fg0) ss ts (calculator_ok _ _ _ Hc) (pc_new_ok c _)) as HH.
  unfold create_calculator in *. unfold rel_res in HH.
  destruct (pc_calc_path_multiple c H pc fg ss ts) as [[a b]| |];
  destruct (pc_calc_path_multiple c H (pc_new c (fg_get_num_nodes fg0)) fg ss ts) as [[a' b']| |]; simpl in *;
    try tauto; try (destruct HH as (-> & _); reflexivity); try (rewrite HH; reflexivity).
Qed.

(** *** C15 *)
Lemma C15_calc_proof : forall c H fg s t r,
  calc_path c H fg s t = Ok r -> calc_path (unchecked c) H fg s t = Ok r.
Proof.
  intros c H fg s t r. unfold calc_path, pc_calc_path. intros HE.
  apply bind_Ok in HE. destruct HE as ([pc' r'] & HE & HX).
  pose proof (le_calc_multiple c H _ _ _ _ _ HE) as HE'. unfold create_calculator in *.
  change (unchecked c) with (release c). change (pc_new (release c)) with (pc_new c).
  rewrite HE'. exact HX.
Qed.

(** *** C16 *)
Lemma run_release c ops : (forall e, In e (accepted ops) -> e_from e < umax c /\ e_to e < umax c) ->
  forall g g', ig_run (unchecked c) g ops = Ok g' -> ig_run c g ops = Ok g'.
Proof.
  induction ops as [|o ops IH]; intros Hids g g' HE; simpl in *; auto.
  apply bind_Ok in HE. destruct HE as ([g1 x] & HE & HR).
  assert (ig_step c g o = Ok (g1, x)) as ->.
  { assert (forall f t w b g1 k, ig_do_add_edge (unchecked c) g f t w b = Ok (g1, k) ->
       (f <> t -> 1 <= w -> f < umax c /\ t < umax c) -> ig_do_add_edge c g f t w b = Ok (g1, k)) as HA.
    { intros f t w b g2 k. unfold ig_do_add_edge. destruct (ig_frozen g); [auto|].
      destruct (N.eqb_spec f t); [auto|]. destruct (N.ltb_spec w 1); [auto|].
      intros HE' HB. destruct (HB ltac:(auto) ltac:(lia)) as [B1 B2].
      unfold uadd in *. simpl in *. destruct (N.leb_spec (N.max f t + 1) (umax c)); [exact HE'|lia]. }
    destruct o as [f t w|f t w| | | | |]; auto; simpl in HE |- *; unfold ig_add_edge, ig_add_edge_bidir in *.
    - apply bind_Ok in HE. destruct HE as ([g2 k] & HE & HX). erewrite HA; eauto.
      intros Hne Hw. apply (Hids (mkEdge f t w)). change (OpAddEdge f t w :: ops) with ([OpAddEdge f t w] ++ ops).
      rewrite accepted_app. apply in_or_app. left.
      rewrite (proj2 (req_accept f t w false _ (or_introl (conj eq_refl eq_refl)))); auto. simpl; auto.
    - apply bind_Ok in HE. destruct HE as ([g2 k] & HE & HX). erewrite HA; eauto.
      intros Hne Hw. apply (Hids (mkEdge f t w)). change (OpAddEdgeBidir f t w :: ops) with ([OpAddEdgeBidir f t w] ++ ops).
      rewrite accepted_app. apply in_or_app. left.
      rewrite (proj2 (req_accept f t w true _ (or_intror (conj eq_refl eq_refl)))); auto. simpl; auto. }
  simpl. apply IH; auto. intros e He. apply Hids. change (o :: ops) with ([o] ++ ops). rewrite accepted_app.
  apply in_or_app; auto.
Qed.

Lemma frozen_release c ops ig : (forall e, In e (accepted ops) -> e_from e < umax c /\ e_to e < umax c) ->
  frozen_graph (unchecked c) ops ig -> frozen_graph c ops ig.
Proof. intros Hids (H1 & H2 & H3). split; [exact H1|]. split; auto. apply run_release; auto. Qed.

Lemma prepared_release c ops ig fg M : debug_build c = true -> frozen_graph c ops ig ->
  (forall e, In e (accepted ops) -> e_weight e <= M) -> prep_bound c (ig_num_nodes ig) M ->
  ig_num_nodes ig * ig_num_nodes ig <= 2147483647 ->
  prepared (unchecked c) ig fg -> prepared c ig fg.
Proof.
  intros Hd Hf HM HB HB2 [(ps & H & hinv & Q & qinv & HL & QL & HE)|(order & ps & Hperm & H & hinv & HL & HE)].
  - left. exists ps, H, hinv, Q, qinv. split; auto. split; auto.
    destruct (C14_params_proof c ops ig M H hinv Q qinv ps Hd Hf HL QL HM HB HB2) as (fg' & HE').
    pose proof (le_build_with_params c H Q ig ps _ HE') as HX. change (release c) with (unchecked c) in HX.
    unfold prepare_with_params in *. rewrite HE in HX. injection HX as ->. exact HE'.
  - right. exists order, ps. split; auto. exists H, hinv. split; auto.
    destruct (C14_order_proof c ops ig M H hinv order ps Hd Hf HL Hperm HM HB) as (fg' & HE').
    pose proof (le_build_with_order c H ig order ps _ HE') as HX. change (release c) with (unchecked c) in HX.
    unfold prepare_with_order_with_params in *. rewrite HE in HX. injection HX as ->. exact HE'.
Qed.

(** every answer of an unchecked build within the bounds is an answer of the checked build *)
Lemma answer_release c ops ig fg M K1 K2 ss ts r : debug_build c = true -> frozen_graph c ops ig -> prepared c ig fg ->
  (forall e, In e (accepted ops) -> e_weight e <= M) ->
  (forall v w, In (v, w) ss -> w = WEIGHT_MAX c \/ w <= K1) ->
  (forall v w, In (v, w) ts -> w = WEIGHT_MAX c \/ w <= K2) ->
  K1 + K2 + M * 2 ^ ig_num_nodes ig <= umax c ->
  answer_multi (unchecked c) fg ss ts r -> answer_multi c fg ss ts r.
Proof.
  intros Hd Hf Hp HM HK1 HK2 HB Ha.
  pose proof (prepared_ok c ops ig fg Hd Hf Hp) as Hok.
  destruct (answer_multi_pc _ _ _ _ _ Ha) as (H & hinv & n & pc & pc' & HL & Hc & HE).
  pose proof (query_checks _ _ _ _ _ _ _ HE) as Hq.
  pose proof (calculator_ok _ _ _ Hc) as Hpc.
  assert (n = ig_num_nodes ig) as Hn.
  { destruct Hq as [Hq _]. rewrite (ok_n _ _ _ _ Hok) in Hq. destruct Hpc as [Hpc _]. congruence. }
  subst n. pose proof (proj1 Hpc) as Hpn. destruct Hq as (Q0 & Q1 & Q2 & Q3 & Q4). rewrite Hpn in *.
  destruct (C14_query_proof c ops ig fg M K1 K2 H hinv (create_calculator c fg) ss ts Hd Hf Hp HL) as (pc2 & r2 & HE2); auto.
  - constructor. exact Q0.
  - intros v w HI. split; eauto.
  - intros v w HI. split; eauto.
  - pose proof (le_calc_multiple c H _ _ _ _ _ HE2) as HE3. change (release c) with (unchecked c) in HE3.
    pose proof (C11_proof (unchecked c) H hinv _ pc fg fg ss ts HL Hc Q0) as HR.
    change (create_calculator (unchecked c) fg) with (create_calculator c fg) in HR.
    rewrite HE, HE3 in HR. simpl in HR. injection HR as <-.
    exists H, hinv. split; auto. left. unfold calc_path_multiple. rewrite HE2. reflexivity.
Qed.

Lemma C15_params_proof : forall c H Q ig params fg,
  prepare_with_params c H Q ig params = Ok fg ->
  prepare_with_params (unchecked c) H Q ig params = Ok fg.
Proof. intros c H Q ig params fg. exact (le_build_with_params c H Q ig params fg). Qed.
Lemma C15_order_proof : forall c H ig order params r,
  prepare_with_order_with_params c H ig order params = Ok r ->
  prepare_with_order_with_params (unchecked c) H ig order params = Ok r.
Proof. intros c H ig order params r. exact (le_build_with_order c H ig order params r). Qed.
Lemma C15_query_proof : forall c H pc fg sources targets a,
  pc_calc_path_multiple c H pc fg sources targets = Ok a ->
  pc_calc_path_multiple (unchecked c) H pc fg sources targets = Ok a.
Proof. intros c H pc fg ss ts a. exact (le_calc_multiple c H pc fg ss ts a). Qed.
Lemma C15_graph_proof : forall c ops g g',
  ig_run c g ops = Ok g' -> ig_run (unchecked c) g ops = Ok g'.
Proof. intros c ops g g'. exact (le_run c ops g g'). Qed.

Lemma C16_proof : forall c ops ig fg M K1 K2 sources targets r,
  debug_build c = true ->
  (forall e, In e (accepted ops) -> e_from e < umax c /\ e_to e < umax c /\ e_weight e <= M) ->
  prep_bound c (ig_num_nodes ig) M -> ig_num_nodes ig * ig_num_nodes ig <= 2147483647 ->
  (forall v w, In (v, w) sources -> w = WEIGHT_MAX c \/ w <= K1) ->
  (forall v w, In (v, w) targets -> w = WEIGHT_MAX c \/ w <= K2) ->
  K1 + K2 + M * 2 ^ ig_num_nodes ig <= umax c ->
  frozen_graph (unchecked c) ops ig -> prepared (unchecked c) ig fg ->
  answer_multi (unchecked c) fg sources targets r ->
  match r with
  | Some p =>
      total (accepted ops) sources targets (sp_get_source p) (sp_get_target p) (sp_get_nodes p) (sp_get_weight p) /\
      (forall s t ns W, total (accepted ops) sources targets s t ns W -> sp_get_weight p <= W)
  | None => forall s t ns W, total (accepted ops) sources targets s t ns W -> WEIGHT_MAX c <= W
  end.
Proof.
  intros c ops ig fg M K1 K2 ss ts r Hd HE HB HB2 HK1 HK2 HK Hf Hp Ha.
  assert (frozen_graph c ops ig) as Hf' by (apply frozen_release; auto; intros e He; destruct (HE e He) as (? & ? & _); auto).
  assert (forall e, In e (accepted ops) -> e_weight e <= M) as HM by (intros e He; apply HE; auto).
  assert (prepared c ig fg) as Hp' by (eapply prepared_release; eauto).
  assert (answer_multi c fg ss ts r) as Ha' by (eapply answer_release; eauto).
  pose proof (answer_multi_accepted c ops ig fg ss ts r Hd Hf' Hp' Ha') as HA.
  destruct r as [p|]; [|exact HA]. destruct HA as (H1 & _ & H2). split; auto.
Qed.

(** *** C07, C08, C17 *)
Lemma agree_proof c ops ig fg fg' ss ts r r' : debug_build c = true -> frozen_graph c ops ig ->
  prepared c ig fg -> prepared c ig fg' ->
  answer_multi c fg ss ts r -> answer_multi c fg' ss ts r' ->
  option_map sp_get_weight r = option_map sp_get_weight r'.
Proof.
  intros Hd Hf Hp Hp' Ha Ha'.
  change (option_map sp_weight r = option_map sp_weight r').
  eapply (answers_agree c ops ig ops ig fg fg'); eauto. tauto.
Qed.

Lemma C07_proof : forall c ops ig order params fg params' fg' sources targets r r',
  debug_build c = true -> frozen_graph c ops ig ->
  permutation_of_nodes (ig_num_nodes ig) order ->
  prepared_by_order c ig order params fg -> prepared_by_params c ig params' fg' ->
  answer_multi c fg sources targets r -> answer_multi c fg' sources targets r' ->
  option_map sp_get_weight r = option_map sp_get_weight r'.
Proof. intros. eapply (agree_proof c ops ig fg fg'); eauto; [right|left]; eauto. Qed.

Lemma C07_orders_proof : forall c ops ig order1 params1 fg1 order2 params2 fg2 sources targets r1 r2,
  debug_build c = true -> frozen_graph c ops ig ->
  permutation_of_nodes (ig_num_nodes ig) order1 -> permutation_of_nodes (ig_num_nodes ig) order2 ->
  prepared_by_order c ig order1 params1 fg1 -> prepared_by_order c ig order2 params2 fg2 ->
  answer_multi c fg1 sources targets r1 -> answer_multi c fg2 sources targets r2 ->
  option_map sp_get_weight r1 = option_map sp_get_weight r2.
Proof. intros. eapply (agree_proof c ops ig fg1 fg2); eauto; right; eauto. Qed.

Lemma C08_proof : forall c ops ig params1 fg1 params2 fg2 sources targets r1 r2,
  debug_build c = true -> frozen_graph c ops ig ->
  prepared_by_params c ig params1 fg1 -> prepared_by_params c ig params2 fg2 ->
  answer_multi c fg1 sources targets r1 -> answer_multi c fg2 sources targets r2 ->
  option_map sp_get_weight r1 = option_map sp_get_weight r2.
Proof. intros. eapply (agree_proof c ops ig fg1 fg2); eauto; left; eauto. Qed.

Lemma C17_proof : forall c ops ig params fg1 fg2 sources targets r1 r2
    H1 I1 H2 I2 H3 I3 H4 I4 Q1 J1 Q2 J2,
  debug_build c = true -> frozen_graph c ops ig ->
  heap_laws H1 I1 -> heap_laws H2 I2 -> heap_laws H3 I3 -> heap_laws H4 I4 ->
  pq_laws Q1 J1 -> pq_laws Q2 J2 ->
  prepare_with_params c H1 Q1 ig params = Ok fg1 -> prepare_with_params c H2 Q2 ig params = Ok fg2 ->
  calc_path_multiple c H3 fg1 sources targets = Ok r1 ->
  calc_path_multiple c H4 fg2 sources targets = Ok r2 ->
  option_map sp_get_weight r1 = option_map sp_get_weight r2.
Proof.
  intros. apply (agree_proof c ops ig fg1 fg2 sources targets r1 r2); auto.
  - left. exists params, H1, I1, Q1, J1. auto.
  - left. exists params, H2, I2, Q2, J2. auto.
  - exists H3, I3. auto.
  - exists H4, I4. auto.
Qed.

(** *** single queries *)
Lemma C11_single_proof : forall c H hinv pc fg s t,
  heap_laws H hinv -> calculator c (fg_get_num_nodes fg) pc ->
  result_of (pc_calc_path c H pc fg s t) = calc_path c H fg s t.
Proof.
  intros c H hinv pc fg s t HL Hc. unfold pc_calc_path, calc_path.
  rewrite (C11_proof c H hinv _ pc fg fg _ _ HL Hc eq_refl). reflexivity.
Qed.

Lemma C12_calc_path_proof : forall c ops ig fg H hinv s t,
  1 <= umax c -> frozen_graph c ops ig -> prepared c ig fg -> heap_laws H hinv ->
  (s < ig_num_nodes ig -> t < ig_num_nodes ig ->
     (exists r, calc_path c H fg s t = Ok r) \/ debug_build c = true /\ calc_path c H fg s t = Panic POverflow) /\
  (ig_num_nodes ig <= s -> calc_path c H fg s t = Panic (PAssert "invalid start node")) /\
  (s < ig_num_nodes ig -> ig_num_nodes ig <= t ->
     calc_path c H fg s t = Panic (PAssert "invalid end node")).
Proof.
  intros c ops ig fg H hinv s t Hu Hf Hp HL.
  pose proof (prepared_shape c ops ig fg Hu Hf Hp) as Hok. pose proof (sh_n _ _ _ _ Hok) as Hn.
  assert (calculator c (ig_num_nodes ig) (create_calculator c fg)) as Hc by (constructor; auto).
  destruct (C12_reject_proof c _ _ fg H [(s, 0)] [(t, 0)] Hc) as [_ HR].
  destruct (HR Hn) as (_ & _ & R1 & R2). unfold calc_path, pc_calc_path. split; [|split].
  - intros Hs Ht. destruct (C12_accept_proof c ops ig fg H hinv (create_calculator c fg) [(s, 0)] [(t, 0)]) as [(pc' & r & ->)|[Hd ->]];
      auto; try discriminate.
    + intros v w [HI|[]]. congruence.
    + intros v w [HI|[]]. congruence.
    + left. exists r. reflexivity.
  - intros Hs. rewrite R1; try discriminate; [reflexivity|]. exists s, 0. simpl; auto.
  - intros Hs Ht. rewrite R2; try discriminate; [reflexivity| |].
    + intros v w [HI|[]]. congruence.
    + exists t, 0. simpl; auto.
Qed.

(** within the range of checked runs *)
Lemma C16_no_overflow_proof : forall c ops ig H hinv Q qinv params fg sources targets r,
  debug_build c = true -> frozen_graph c ops ig -> heap_laws H hinv -> pq_laws Q qinv ->
  prepare_with_params c H Q ig params = Ok fg -> calc_path_multiple c H fg sources targets = Ok r ->
  prepare_with_params (unchecked c) H Q ig params = Ok fg /\
  calc_path_multiple (unchecked c) H fg sources targets = Ok r /\
  match r with
  | Some p =>
      total (accepted ops) sources targets (sp_get_source p) (sp_get_target p) (sp_get_nodes p) (sp_get_weight p) /\
      (forall s t ns W, total (accepted ops) sources targets s t ns W -> sp_get_weight p <= W)
  | None => forall s t ns W, total (accepted ops) sources targets s t ns W -> WEIGHT_MAX c <= W
  end.
Proof.
  intros c ops ig H hinv Q qinv params fg ss ts r Hd Hf HL QL HE HA.
  split; [apply (le_build_with_params c H Q ig params _ HE)|]. split.
  { unfold calc_path_multiple in *. apply bind_Ok in HA. destruct HA as ([pc' r'] & HA & HX).
    pose proof (le_calc_multiple c H _ _ _ _ _ HA) as HA'. unfold create_calculator in *.
    change (unchecked c) with (release c). change (pc_new (release c)) with (pc_new c). rewrite HA'. exact HX. }
  assert (prepared c ig fg) as Hp by (left; exists params, H, hinv, Q, qinv; auto).
  assert (answer_multi c fg ss ts r) as Hm by (exists H, hinv; auto).
  pose proof (answer_multi_accepted c ops ig fg ss ts r Hd Hf Hp Hm) as HB.
  destruct r as [p|]; [|exact HB]. destruct HB as (H1 & H2 & H3). auto.
Qed.
