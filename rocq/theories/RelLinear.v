(** * RelLinear: builds without overflow checks are right within the linear bounds *)
From Verif Require Export ShortcutProps.
Open Scope N_scope.

(** whatever makes the queries of the checked build return makes the unchecked build agree with it *)
Lemma answer_release_gen c ops ig fg ss ts r : debug_build c = true -> frozen_graph c ops ig -> prepared c ig fg ->
  (forall H hinv, heap_laws H hinv -> ss <> [] -> ts <> [] ->
     (forall v w, In (v, w) ss -> v < ig_num_nodes ig) -> (forall v w, In (v, w) ts -> v < ig_num_nodes ig) ->
     exists pc' r', pc_calc_path_multiple c H (create_calculator c fg) fg ss ts = Ok (pc', r')) ->
  answer_multi (unchecked c) fg ss ts r -> answer_multi c fg ss ts r.
Proof.
  intros Hd Hf Hp HS Ha.
  pose proof (prepared_ok c ops ig fg Hd Hf Hp) as Hok.
  destruct (answer_multi_pc _ _ _ _ _ Ha) as (H & hinv & n & pc & pc' & HL & Hc & HE).
  pose proof (query_checks _ _ _ _ _ _ _ HE) as Hq.
  pose proof (calculator_ok _ _ _ Hc) as Hpc.
  assert (n = ig_num_nodes ig) as Hn.
  { destruct Hq as [Hq _]. rewrite (ok_n _ _ _ _ Hok) in Hq. destruct Hpc as [Hpc _]. congruence. }
  subst n. pose proof (proj1 Hpc) as Hpn. destruct Hq as (Q0 & Q1 & Q2 & Q3 & Q4). rewrite Hpn in *.
  destruct (HS H hinv HL) as (pc2 & r2 & HE2); auto.
  pose proof (le_calc_multiple c H _ _ _ _ _ HE2) as HE3. change (release c) with (unchecked c) in HE3.
  pose proof (C11_proof (unchecked c) H hinv _ pc fg fg ss ts HL Hc Q0) as HR.
  change (create_calculator (unchecked c) fg) with (create_calculator c fg) in HR.
  rewrite HE, HE3 in HR. simpl in HR. injection HR as <-.
  exists H, hinv. split; auto. left. unfold calc_path_multiple. rewrite HE2. reflexivity.
Qed.

Lemma prepared_calc c ops ig fg : debug_build c = true -> frozen_graph c ops ig -> prepared c ig fg ->
  calculator c (ig_num_nodes ig) (create_calculator c fg).
Proof. intros Hd Hf Hp. constructor. exact (ok_n _ _ _ _ (prepared_ok c ops ig fg Hd Hf Hp)). Qed.

Lemma C16_stored_proof : forall c ops ig fg X K1 K2 sources targets r,
  debug_build c = true -> frozen_graph c ops ig -> prepared c ig fg ->
  (forall e, In e (fg_edges_fwd fg) \/ In e (fg_edges_bwd fg) -> fe_weight e <= X) ->
  (forall v w, In (v, w) sources -> w = WEIGHT_MAX c \/ w <= K1) ->
  (forall v w, In (v, w) targets -> w = WEIGHT_MAX c \/ w <= K2) ->
  K1 + K2 + 2 * (ig_num_nodes ig - 1) * X <= umax c ->
  answer_multi (unchecked c) fg sources targets r ->
  match r with
  | Some p =>
      total (accepted ops) sources targets (sp_get_source p) (sp_get_target p) (sp_get_nodes p) (sp_get_weight p) /\
      (forall s t ns W, total (accepted ops) sources targets s t ns W -> sp_get_weight p <= W)
  | None => forall s t ns W, total (accepted ops) sources targets s t ns W -> WEIGHT_MAX c <= W
  end.
Proof.
  intros c ops ig fg X K1 K2 ss ts r Hd Hf Hp HX HK1 HK2 HB Ha.
  assert (answer_multi c fg ss ts r) as Ha'.
  { eapply answer_release_gen; eauto. intros H hinv HL Hs Ht Hsn Htn.
    eapply (C14_query_linear_proof c ops ig fg X K1 K2); eauto using prepared_calc. }
  pose proof (answer_multi_accepted c ops ig fg ss ts r Hd Hf Hp Ha') as HA.
  destruct r as [p|]; [|exact HA]. destruct HA as (H1 & _ & H2). split; auto.
Qed.

Lemma prepared_unlimited_release c ops ig fg M : debug_build c = true -> frozen_graph c ops ig ->
  (forall e, In e (accepted ops) -> e_weight e <= M) -> prep_bound_unlimited c (ig_num_nodes ig) M ->
  ig_num_nodes ig * ig_num_nodes ig <= 2147483647 ->
  prepared_unlimited (unchecked c) ig fg -> prepared_unlimited c ig fg.
Proof.
  intros Hd Hf HM HB HB2 [(ps & Hl & H & hinv & Q & qinv & HL & QL & HE)|(order & ps & Hperm & Hl & H & hinv & HL & HE)].
  - left. exists ps. split; auto. exists H, hinv, Q, qinv. split; auto. split; auto.
    destruct (C60_params_proof c ops ig M H hinv Q qinv ps Hd Hf HL QL Hl HM HB HB2) as (fg' & HE').
    pose proof (C15_params_proof c H Q ig ps _ HE') as HX. rewrite HE in HX. injection HX as ->. exact HE'.
  - right. exists order, ps. split; auto. split; auto. exists H, hinv. split; auto.
    destruct (C60_order_proof c ops ig M H hinv order ps Hd Hf HL Hperm Hl HM HB) as (fg' & HE').
    pose proof (C15_order_proof c H ig order ps _ HE') as HX. rewrite HE in HX. injection HX as ->. exact HE'.
Qed.

Lemma C60_release_proof : forall c ops ig fg M K1 K2 sources targets r,
  debug_build c = true ->
  (forall e, In e (accepted ops) -> e_from e < umax c /\ e_to e < umax c /\ e_weight e <= M) ->
  prep_bound_unlimited c (ig_num_nodes ig) M -> ig_num_nodes ig * ig_num_nodes ig <= 2147483647 ->
  (forall v w, In (v, w) sources -> w = WEIGHT_MAX c \/ w <= K1) ->
  (forall v w, In (v, w) targets -> w = WEIGHT_MAX c \/ w <= K2) ->
  K1 + K2 + 2 * (ig_num_nodes ig - 1) * ((ig_num_nodes ig - 1) * M) <= umax c ->
  frozen_graph (unchecked c) ops ig -> prepared_unlimited (unchecked c) ig fg ->
  answer_multi (unchecked c) fg sources targets r ->
  match r with
  | Some p =>
      total (accepted ops) sources targets (sp_get_source p) (sp_get_target p) (sp_get_nodes p) (sp_get_weight p) /\
      (forall s t ns W, total (accepted ops) sources targets s t ns W -> sp_get_weight p <= W)
  | None => forall s t ns W, total (accepted ops) sources targets s t ns W -> WEIGHT_MAX c <= W
  end.
Proof.
  intros c ops ig fg M K1 K2 ss ts r Hd HE HB HB2 HK1 HK2 HK Hf Hp Ha.
  assert (frozen_graph c ops ig) as Hf' by (apply frozen_release; auto; intros e He; destruct (HE e He) as (? & ? & _); auto).
  assert (forall e, In e (accepted ops) -> e_weight e <= M) as HM by (intros e He; apply HE; auto).
  assert (prepared_unlimited c ig fg) as Hp' by (eapply prepared_unlimited_release; eauto).
  eapply (C16_stored_proof c ops ig fg ((ig_num_nodes ig - 1) * M) K1 K2); eauto using unlimited_prepared.
  intros e He. assert (exists d id, getN (fg_edges fg d) id = Some e) as (d & id & HG).
  { destruct He as [He|He]; apply In_getN in He as (id & _ & He); [exists Fwd, id|exists Bwd, id]; auto. }
  eapply (C60_weight_proof c ops ig fg M); eauto. apply stored_edge_get. exists d, id, e. auto.
Qed.

(** C35 with the ordering of the nodes *)
Lemma stored_walk_climbs (l : list N) es s m ns W : walk (stored es) s m ns W ->
  (forall e, In e es -> exists i j, i < j /\ getN l i = Some (fe_base e) /\ getN l j = Some (fe_adj e)) ->
  forall k u v, getN ns k = Some u -> getN ns (k + 1) = Some v ->
    exists i j, i < j /\ getN l i = Some u /\ getN l j = Some v.
Proof.
  intros HW Hes. induction HW as [u|u v t w ns W Hin HW IH]; intros k x y Hx Hy.
  - apply getN_Some_lt in Hy. unfold lenN in Hy. cbn in Hy. lia.
  - unfold stored in Hin. apply in_map_iff in Hin as (e & He & Hin). injection He as Hb Ha _.
    cbn [getN] in Hx, Hy. destruct (N.eqb_spec (k + 1) 0); [lia|].
    destruct (N.eqb_spec k 0) as [->|Hk].
    + injection Hx as <-. assert (y = v) as ->.
      { change (N.pred (0 + 1)) with 0 in Hy. destruct HW; cbn in Hy; congruence. }
      subst. apply Hes. exact Hin.
    + apply (IH (N.pred k)); [exact Hx|]. rewrite <- Hy. f_equal. lia.
Qed.
Lemma C35_order_proof : forall c ops ig fg l s t W,
  debug_build c = true -> frozen_graph c ops ig -> prepared c ig fg -> get_node_ordering fg = Ok l ->
  is_dist (accepted ops) s t W -> W < WEIGHT_MAX c ->
  exists m ns1 ns2 W1 W2,
    walk (stored (fg_edges_fwd fg)) s m ns1 W1 /\ walk (stored (fg_edges_bwd fg)) t m ns2 W2 /\
    W1 + W2 = W /\
    forall ns k u v, ns = ns1 \/ ns = ns2 -> getN ns k = Some u -> getN ns (k + 1) = Some v ->
      exists i j, i < j /\ getN l i = Some u /\ getN l j = Some v.
Proof.
  intros c ops ig fg l s t W Hd Hf Hp Hl HD HL.
  destruct (C35_proof c ops ig fg s t W Hd Hf Hp HD HL) as (m & ns1 & ns2 & W1 & W2 & H1 & H2 & HS).
  destruct (C34_proof c ops ig fg l Hd Hf Hp Hl) as (_ & HF & HB).
  exists m, ns1, ns2, W1, W2. split; [exact H1|]. split; [exact H2|]. split; [exact HS|].
  intros ns k u v [-> | ->].
  - apply (stored_walk_climbs l _ _ _ _ _ H1). intros e He. apply HF, He.
  - apply (stored_walk_climbs l _ _ _ _ _ H2). intros e He. apply HB, He.
Qed.
