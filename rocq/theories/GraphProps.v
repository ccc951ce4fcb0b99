(** * GraphProps: proofs of the properties of input graphs and of relations between answers *)
From Verif Require Export PrepareProps.
Open Scope N_scope.

(** *** C18-C21 *)
Lemma C18_proof : forall c ops g,
  ig_run c ig_new ops = Ok g -> ig_frozen g = true ->
  exists es, ig_get_edges g = Ok es /\
    (forall i j a b, i < j -> getN es i = Some a -> getN es j = Some b -> edge_lt a b) /\
    (forall u v w, In (mkEdge u v w) es <->
       In (mkEdge u v w) (accepted ops) /\ forall w', In (mkEdge u v w') (accepted ops) -> w <= w').
Proof.
  intros c ops g Hr Hf. exists (ig_edges g). unfold ig_get_edges, ig_check_frozen. rewrite Hf.
  split; [reflexivity|]. split; [|apply run_edges with (c := c); auto].
  destruct (run_inv c ops g Hr) as [HI _]. pose proof (hg_sorted _ _ _ HI Hf) as HS. clear - HS.
  induction HS as [|x l HS IH HF]; intros i j a b Hij Hi Hj; [destruct i; discriminate|].
  simpl in Hi, Hj. destruct (N.eqb_spec j 0); [lia|]. destruct (N.eqb_spec i 0).
  - injection Hi as <-. rewrite Forall_forall in HF. apply HF. eapply getN_In; eauto.
  - eapply (IH (N.pred i) (N.pred j)); eauto. lia.
Qed.

Lemma C18_exists_proof : forall c ops g u v,
  ig_run c ig_new ops = Ok g -> ig_frozen g = true ->
  ((exists w, In (mkEdge u v w) (ig_edges g)) <-> exists w, In (mkEdge u v w) (accepted ops)).
Proof.
  intros c ops g u v Hr Hf. destruct (run_inv c ops g Hr) as [HI _]. split; intros [w Hw].
  - exists w. apply (hg_sub _ _ _ HI); auto.
  - destruct (hg_dom _ _ _ HI _ Hw) as ([a b w'] & H1 & H2 & H3 & _). simpl in *. subst. eauto.
Qed.

Lemma C19_proof : forall c ops g,
  ig_run c ig_new ops = Ok g ->
  (frozen_after ops = false ->
     ig_step c g OpGetEdges = Panic (PExplicit msg_not_frozen) /\
     ig_step c g OpGetNumNodes = Panic (PExplicit msg_not_frozen) /\
     ig_step c g OpGetNumEdges = Panic (PExplicit msg_not_frozen) /\
     (forall f t w, (exists g' k, ig_step c g (OpAddEdge f t w) = Ok (g', OutCount k)) \/
        ig_step c g (OpAddEdge f t w) = Panic POverflow \/ ig_step c g (OpAddEdge f t w) = Panic PCapacity) /\
     (forall f t w, (exists g' k, ig_step c g (OpAddEdgeBidir f t w) = Ok (g', OutCount k)) \/
        ig_step c g (OpAddEdgeBidir f t w) = Panic POverflow \/ ig_step c g (OpAddEdgeBidir f t w) = Panic PCapacity) /\
     (exists g', ig_step c g OpFreeze = Ok (g', OutUnit))) /\
  (frozen_after ops = true ->
     (exists l, ig_step c g OpGetEdges = Ok (g, OutEdges l)) /\
     (exists n, ig_step c g OpGetNumNodes = Ok (g, OutCount n)) /\
     (exists n, ig_step c g OpGetNumEdges = Ok (g, OutCount n)) /\
     (forall f t w, ig_step c g (OpAddEdge f t w) = Panic (PExplicit msg_frozen)) /\
     (forall f t w, ig_step c g (OpAddEdgeBidir f t w) = Panic (PExplicit msg_frozen)) /\
     ig_step c g OpFreeze = Panic (PExplicit msg_refreeze)) /\
  (exists g', ig_step c g OpThaw = Ok (g', OutUnit)).
Proof.
  intros c ops g Hr. destruct (run_inv c ops g Hr) as [HI _].
  pose proof (hg_frozen _ _ _ HI) as HF. split; [|split]; [| |simpl; eauto].
  - intros E. rewrite E in HF. unfold ig_step, ig_get_edges, ig_get_num_nodes, ig_get_num_edges, ig_check_frozen, ig_freeze, ig_add_edge, ig_add_edge_bidir.
    rewrite HF. cbn [bind]. repeat split; eauto; intros f t w;
    [destruct (do_add_cases c g f t w false _ eq_refl) as [[H1 H2]|[(H1 & H2 & H3)|(H1 & H2 & H3 & H4)]]
    |destruct (do_add_cases c g f t w true _ eq_refl) as [[H1 H2]|[(H1 & H2 & H3)|(H1 & H2 & H3 & H4)]]];
    try congruence; try (rewrite H3; left; cbn [bind]; eauto; fail).
    all: unfold ig_do_add_edge; rewrite HF;
      destruct (N.eqb_spec f t); [congruence|]; destruct (N.ltb_spec w 1); [lia|];
      unfold uadd, vpush;
      destruct (N.max f t + 1 <=? umax c); cbn [bind]; [|destruct (debug_build c); cbn [bind]; auto];
      repeat match goal with |- context [if ?b then _ else _] => destruct b; cbn [bind] end; eauto.
  - intros E. rewrite E in HF. unfold ig_step, ig_get_edges, ig_get_num_nodes, ig_get_num_edges, ig_check_frozen, ig_freeze, ig_add_edge, ig_add_edge_bidir, ig_do_add_edge.
    rewrite HF. cbn [bind]. repeat split; eauto.
Qed.

Lemma C20_count_proof : forall c g f t w g' k,
  (ig_add_edge c g f t w = Ok (g', k) ->
     (k = 0 <-> f = t \/ w = 0) /\ (k <> 0 -> k = 1) /\ (k = 0 -> g' = g)) /\
  (ig_add_edge_bidir c g f t w = Ok (g', k) ->
     (k = 0 <-> f = t \/ w = 0) /\ (k <> 0 -> k = 2) /\ (k = 0 -> g' = g)).
Proof.
  intros c g f t w g' k. unfold ig_add_edge, ig_add_edge_bidir, ig_do_add_edge. split; intros HE;
  (destruct (ig_frozen g); [discriminate|]; destruct (N.eqb_spec f t);
   [injection HE as <- <-; repeat split; auto; tauto|]; destruct (N.ltb_spec w 1);
   [injection HE as <- <-; assert (w = 0) by lia; repeat split; auto; tauto|]);
  apply bind_Ok in HE; destruct HE as (m & _ & HE); apply bind_Ok in HE; destruct HE as (es & _ & HE);
  apply bind_Ok in HE; destruct HE as (es' & _ & HE); injection HE as <- <-; repeat split; intros; try lia; congruence.
Qed.

Lemma C20_nodes_proof : forall c ops g,
  (debug_build c = true \/ forall e, In e (accepted ops) -> e_from e < umax c /\ e_to e < umax c) ->
  ig_run c ig_new ops = Ok g -> ig_frozen g = true ->
  exists n es, ig_get_num_nodes g = Ok n /\ ig_get_edges g = Ok es /\ ig_get_num_edges g = Ok (lenN es) /\
    (accepted ops = [] -> n = 0) /\
    (forall e, In e (accepted ops) -> e_from e < n /\ e_to e < n) /\
    (accepted ops <> [] -> exists e, In e (accepted ops) /\ n = N.max (e_from e) (e_to e) + 1).
Proof.
  intros c ops g Hids Hr Hf. destruct (run_inv c ops g Hr) as [HI HN]. destruct (HN Hids) as [N1 N2].
  exists (ig_num_nodes g), (ig_edges g).
  unfold ig_get_num_nodes, ig_get_edges, ig_get_num_edges, ig_check_frozen. rewrite Hf. cbn [bind].
  repeat split; auto; try (apply N1; auto).
  - intros E. destruct N2 as [N2|(e & He & _)]; auto. rewrite E in He. destruct He.
  - intros E. destruct N2 as [N2|N2]; auto. destruct (accepted ops) as [|e l]; [congruence|].
    destruct (N1 e); simpl; auto. lia.
Qed.

Lemma C21_proof : forall c ops1 ops2 g1 g2,
  (debug_build c = true \/ forall e, In e (accepted ops1) -> e_from e < umax c /\ e_to e < umax c) ->
  frozen_graph c ops1 g1 -> frozen_graph c ops2 g2 ->
  (forall e, In e (accepted ops1) <-> In e (accepted ops2)) -> g1 = g2.
Proof.
  intros c ops1 ops2 g1 g2 Hids (_ & R1 & F1) (_ & R2 & F2) HE.
  destruct (run_inv c ops1 g1 R1) as [I1 N1]. destruct (run_inv c ops2 g2 R2) as [I2 N2].
  assert (nodes_ok ops1 g1) as [A1 B1] by (apply N1; auto).
  assert (nodes_ok ops2 g2) as [A2 B2].
  { apply N2. destruct Hids as [Hd|Hi]; [left; auto|right]. intros e He. apply Hi. apply HE; auto. }
  assert (ig_edges g1 = ig_edges g2) as EE.
  { apply sorted_lt_ext; [apply (hg_sorted _ _ _ I1 F1)|apply (hg_sorted _ _ _ I2 F2)|].
    intros [u v w]. rewrite (run_edges c ops1 g1 R1 F1), (run_edges c ops2 g2 R2 F2), HE.
    split; intros [H1 H2]; (split; [auto|]); intros w' Hw'; apply H2; apply HE; auto. }
  assert (ig_num_nodes g1 = ig_num_nodes g2) as EN.
  { apply N.le_antisymm.
    - destruct B1 as [->|(e & He & ->)]; [lia|]. apply HE in He. apply A2 in He. lia.
    - destruct B2 as [->|(e & He & ->)]; [lia|]. apply HE in He. apply A1 in He. lia. }
  destruct g1, g2. simpl in *. congruence.
Qed.

(** *** C39: the multigraph with loops *)
Lemma accepted_positive ops e : In e (accepted ops) -> In e (positive_edges ops).
Proof.
  unfold accepted, positive_edges, acceptable. rewrite !filter_In, andb_true_iff. tauto.
Qed.

Lemma positive_walk ops u v ns W : walk (positive_edges ops) u v ns W ->
  exists ns' W', walk (accepted ops) u v ns' W' /\ W' <= W.
Proof.
  induction 1 as [u|u v t w ns W HI HW (ns' & W' & IH & HL)].
  - exists [u], 0. split; [constructor|lia].
  - unfold positive_edges in HI. apply filter_In in HI. destruct HI as [HI Hw]. simpl in Hw.
    destruct (N.eq_dec u v) as [->|Hne].
    + exists ns', W'. split; [auto|lia].
    + exists (u :: ns'), (w + W'). split; [|lia]. econstructor; eauto.
      apply filter_In. split; auto. unfold acceptable. simpl. rewrite Hw.
      destruct (N.eqb_spec u v); [congruence|reflexivity].
Qed.

Lemma C39_proof : forall c ops ig fg s t r,
  debug_build c = true -> frozen_graph c ops ig -> prepared c ig fg ->
  answer c fg s t r ->
  match r with
  | Some p => is_dist (positive_edges ops) s t (sp_get_weight p)
  | None => forall ns W, walk (positive_edges ops) s t ns W -> WEIGHT_MAX c <= W
  end.
Proof.
  intros c ops ig fg s t r Hd Hf Hp Ha.
  destruct (answer_single c ops ig fg s t r Hd Hf Hp Ha) as (_ & _ & HA).
  destruct r as [p|].
  - destruct HA as (_ & _ & _ & HW & HM). split.
    + exists (sp_nodes p). eapply walk_incl; [apply accepted_positive|]. eapply frozen_walk; eauto.
    + intros ns W HW'. destruct (positive_walk _ _ _ _ _ HW') as (ns' & W' & H1 & H2). apply HM in H1.
      unfold sp_get_weight. lia.
  - intros ns W HW'. destruct (positive_walk _ _ _ _ _ HW') as (ns' & W' & H1 & H2). apply HA in H1.
    unfold WEIGHT_MAX. lia.
Qed.

(** *** C31 *)
Lemma walk_rev E u v ns W : (forall a b w, In (mkEdge a b w) E -> In (mkEdge b a w) E) ->
  walk E u v ns W -> walk E v u (rev ns) W.
Proof.
  intros HS. induction 1 as [u|u v t w ns W HI HW IH]; [constructor|].
  simpl. replace (w + W) with (W + w) by lia.
  pose proof (AnswerFacts.walk_app E t v u (rev ns) [v; u] W w IH) as HA. simpl in HA.
  apply HA. apply walk_one. auto.
Qed.

Lemma C31_proof : forall c ops ig fg s t r r',
  debug_build c = true -> frozen_graph c ops ig -> prepared c ig fg ->
  (forall f t w, ~ In (OpAddEdge f t w) ops) ->
  answer c fg s t r -> answer c fg t s r' ->
  option_map sp_get_weight r = option_map sp_get_weight r'.
Proof.
  intros c ops ig fg s t r r' Hd Hf Hp HB Ha Ha'.
  assert (forall a b w, In (mkEdge a b w) (accepted ops) -> In (mkEdge b a w) (accepted ops)) as HS.
  { intros a b w. unfold accepted. rewrite !filter_In. intros [HI HA]. split.
    - apply in_flat_map in HI. destruct HI as (o & Ho & HI). apply in_flat_map. exists o. split; auto.
      destruct o as [f u x|f u x| | | | |]; simpl in *; try tauto.
      + exfalso. eapply HB; eauto.
      + destruct HI as [HI|[HI|[]]]; injection HI as <- <- <-; auto.
    - unfold acceptable in *. simpl in *. rewrite N.eqb_sym. auto. }
  destruct (answer_single c ops ig fg s t r Hd Hf Hp Ha) as (_ & _ & HA).
  destruct (answer_single c ops ig fg t s r' Hd Hf Hp Ha') as (_ & _ & HA').
  destruct r as [p|], r' as [p'|]; simpl; auto.
  - destruct HA as (_ & _ & _ & HW & HM), HA' as (_ & _ & _ & HW' & HM').
    apply (frozen_walk c ops ig) in HW, HW'; auto. apply walk_rev in HW, HW'; auto.
    apply HM' in HW. apply HM in HW'. unfold sp_get_weight. f_equal. lia.
  - destruct HA as (_ & _ & Hl & HW & HM). apply (frozen_walk c ops ig) in HW; auto.
    apply walk_rev in HW; auto. apply HA' in HW. lia.
  - destruct HA' as (_ & _ & Hl & HW & HM). apply (frozen_walk c ops ig) in HW; auto.
    apply walk_rev in HW; auto. apply HA in HW. lia.
Qed.

(** *** C32 *)
Lemma C32_triangle_proof : forall c ops ig fg s m t p1 p2 r,
  debug_build c = true -> frozen_graph c ops ig -> prepared c ig fg ->
  answer c fg s m (Some p1) -> answer c fg m t (Some p2) -> answer c fg s t r ->
  sp_get_weight p1 + sp_get_weight p2 < WEIGHT_MAX c ->
  exists p, r = Some p /\ sp_get_weight p <= sp_get_weight p1 + sp_get_weight p2.
Proof.
  intros c ops ig fg s m t p1 p2 r Hd Hf Hp A1 A2 A3 HL.
  destruct (answer_single c ops ig fg s m _ Hd Hf Hp A1) as (_ & _ & _ & _ & _ & W1 & _).
  destruct (answer_single c ops ig fg m t _ Hd Hf Hp A2) as (_ & _ & _ & _ & _ & W2 & _).
  destruct (answer_single c ops ig fg s t _ Hd Hf Hp A3) as (_ & _ & HA).
  pose proof (AnswerFacts.walk_app _ _ _ _ _ _ _ _ W1 W2) as HW. apply (frozen_walk c ops ig) in HW; auto.
  destruct r as [p|].
  - exists p. split; auto. destruct HA as (_ & _ & _ & _ & HM). apply HM in HW. exact HW.
  - apply HA in HW. unfold sp_get_weight, WEIGHT_MAX in *. lia.
Qed.

Lemma C32_simple_proof : forall c ops ig fg s t p,
  debug_build c = true -> frozen_graph c ops ig -> prepared c ig fg ->
  answer c fg s t (Some p) -> NoDup (sp_get_nodes p).
Proof.
  intros c ops ig fg s t p Hd Hf Hp Ha.
  destruct (answer_single c ops ig fg s t _ Hd Hf Hp Ha) as (_ & _ & _ & _ & _ & HW & HM).
  eapply (dist_simple (accepted ops) s t _ (sp_weight p)); eauto.
  - intros e He. apply accepted_pos in He. apply He.
  - eapply frozen_walk; eauto.
Qed.

Lemma C32_subpath_proof : forall c ops ig fg s t p i j u v r,
  debug_build c = true -> frozen_graph c ops ig -> prepared c ig fg ->
  answer c fg s t (Some p) -> i <= j ->
  getN (sp_get_nodes p) i = Some u -> getN (sp_get_nodes p) j = Some v ->
  answer c fg u v r ->
  exists q l ns l', r = Some q /\ sp_get_nodes p = l ++ ns ++ l' /\
    lenN l = i /\ lenN ns = j - i + 1 /\ walk (ig_edges ig) u v ns (sp_get_weight q).
Proof.
  intros c ops ig fg s t p i j u v r Hd Hf Hp Ha Hij Hi Hj Har.
  destruct (answer_single c ops ig fg s t _ Hd Hf Hp Ha) as (_ & _ & _ & _ & Hl & HW & HM).
  assert (forall ns' W', walk (ig_edges ig) s t ns' W' -> sp_weight p <= W') as HM'.
  { intros ns' W' HX. apply (frozen_walk c ops ig) in HX; auto. eapply HM; eauto. }
  destruct (sub_optimal _ _ _ _ _ i j u v HW HM' Hij Hi Hj) as (ns & W & HWs & HD & HLe & l & l' & E1 & E2 & E3).
  destruct (answer_single c ops ig fg u v _ Hd Hf Hp Har) as (_ & _ & HA).
  destruct r as [q|].
  - exists q, l, ns, l'. repeat split; auto. destruct HA as (_ & _ & _ & HWq & HMq).
    assert (sp_weight q = W) as <-.
    { apply N.le_antisymm.
      - apply (HMq ns). eapply frozen_walk; eauto.
      - destruct HD as [_ HD]. eapply HD; eauto. }
    exact HWs.
  - apply (frozen_walk c ops ig) in HWs; auto. apply HA in HWs. lia.
Qed.

(** *** C33 *)
Lemma sp_eqb_spec a b : sp_eqb a b = true <->
  sp_source a = sp_source b /\ sp_target a = sp_target b /\ sp_weight a = sp_weight b.
Proof. unfold sp_eqb. rewrite !andb_true_iff, !N.eqb_eq. tauto. Qed.

Lemma C33_found_proof : forall c ops ig fg ss ts p,
  debug_build c = true -> frozen_graph c ops ig -> prepared c ig fg ->
  answer_multi c fg ss ts (Some p) -> sp_is_found c p = true.
Proof.
  intros c ops ig fg ss ts p Hd Hf Hp Ha.
  destruct (answer_multi_ok c ops ig fg ss ts _ Hd Hf Hp Ha) as (_ & _ & _ & _ & HL & _).
  unfold sp_is_found, WEIGHT_MAX. destruct (N.eqb_spec (sp_weight p) (umax c)); [lia|reflexivity].
Qed.

(** *** C36 *)
Lemma C36_proof : forall c ops ig fg ops' ig' fg' ss ts p r,
  debug_build c = true ->
  frozen_graph c ops ig -> prepared c ig fg -> frozen_graph c ops' ig' -> prepared c ig' fg' ->
  (forall e, In e (ig_edges ig) -> exists w', In (mkEdge (e_from e) (e_to e) w') (accepted ops') /\ w' <= e_weight e) ->
  answer_multi c fg ss ts (Some p) -> answer_multi c fg' ss ts r ->
  exists q, r = Some q /\ sp_get_weight q <= sp_get_weight p.
Proof.
  intros c ops ig fg ops' ig' fg' ss ts p r Hd Hf Hp Hf' Hp' HE Ha Ha'.
  destruct (answer_multi_ok c ops ig fg ss ts _ Hd Hf Hp Ha) as (_ & _ & _ & (sw & tw & W & H1 & H2 & H3 & H4) & HL & _).
  pose proof (answer_multi_accepted c ops' ig' fg' ss ts r Hd Hf' Hp' Ha') as HB.
  assert (exists W', walk (accepted ops') (sp_source p) (sp_target p) (sp_nodes p) W' /\ W' <= W) as (W' & HW' & HLe).
  { apply (walk_dom (ig_edges ig)); auto.
    intros e He. destruct (HE e He) as (w' & HI & Hw). eexists. split; [exact HI|]. simpl. auto. }
  assert (total (accepted ops') ss ts (sp_source p) (sp_target p) (sp_nodes p) (sw + W' + tw)) as HT.
  { exists sw, tw, W'. auto. }
  destruct r as [q|]; simpl in HB.
  - exists q. split; auto. destruct HB as (_ & _ & HM). apply HM in HT. unfold sp_get_weight. lia.
  - apply HB in HT. lia.
Qed.

Lemma C19_frozen_proof : forall c ops g,
  ig_run c ig_new ops = Ok g -> ig_frozen g = frozen_after ops.
Proof. intros c ops g Hr. destruct (run_inv c ops g Hr) as [HI _]. apply (hg_frozen _ _ _ HI). Qed.

Lemma edges_len c ops : forall g0 g, ig_run c g0 ops = Ok g ->
  lenN (ig_edges g) <= lenN (ig_edges g0) + lenN (accepted ops).
Proof.
  assert (forall prev l, lenN (dedup_from prev l) <= lenN l) as HD.
  { intros prev l. revert prev. induction l as [|x t IH]; intros prev; simpl; [lia|].
    destruct (_ && _); rewrite ?lenN_cons; [specialize (IH prev)|specialize (IH x)]; lia. }
  induction ops as [|o ops IH]; intros g0 g HE; simpl in HE.
  - injection HE as <-. lia.
  - apply bind_Ok in HE. destruct HE as ([g1 x] & HE & HR). apply IH in HR.
    change (o :: ops) with ([o] ++ ops). rewrite accepted_app, lenN_app.
    assert (lenN (ig_edges g1) <= lenN (ig_edges g0) + lenN (accepted [o])); [|lia].
    assert (forall f t w b k g1, (b = false /\ o = OpAddEdge f t w) \/ (b = true /\ o = OpAddEdgeBidir f t w) ->
       ig_do_add_edge c g0 f t w b = Ok (g1, k) -> lenN (ig_edges g1) <= lenN (ig_edges g0) + lenN (accepted [o])) as HA.
    { intros f t w b k g2 Ho HX. destruct (req_accept f t w b o Ho) as [R1 R2].
      unfold ig_do_add_edge in HX. destruct (ig_frozen g0); [discriminate|].
      destruct (N.eqb_spec f t); [injection HX as <- <-; lia|]. destruct (N.ltb_spec w 1); [injection HX as <- <-; lia|].
      rewrite R2 by (auto; lia).
      apply bind_Ok in HX. destruct HX as (m & _ & HX). apply bind_Ok in HX. destruct HX as (es & Hes & HX).
      unfold vpush in Hes. destruct (_ <? _) in Hes; [|discriminate]. injection Hes as <-.
      apply bind_Ok in HX. destruct HX as (es' & Hes & HX). injection HX as <- _. simpl.
      destruct b.
      - unfold vpush in Hes. destruct (_ <? _) in Hes; [|discriminate]. injection Hes as <-.
        rewrite !lenN_app, !lenN_cons, !lenN_nil. lia.
      - injection Hes as <-. rewrite !lenN_app, !lenN_cons, !lenN_nil. lia. }
    destruct o as [f t w|f t w| | | | |]; simpl in HE.
    + unfold ig_add_edge in HE. apply bind_Ok in HE. destruct HE as ([g2 k] & HX & HE). injection HE as <- _.
      eapply HA; eauto.
    + unfold ig_add_edge_bidir in HE. apply bind_Ok in HE. destruct HE as ([g2 k] & HX & HE). injection HE as <- _.
      eapply HA; eauto.
    + unfold ig_freeze in HE. destruct (ig_frozen g0); [discriminate|]. cbn [bind] in HE. injection HE as <- _. simpl.
      pose proof (Permutation_length (sort_perm (ig_edges g0))) as HP. unfold dedup_edges.
      destruct (sort_edges (ig_edges g0)) as [|y l] eqn:E; [apply N.le_0_l|].
      specialize (HD y l). rewrite lenN_cons. simpl in HP. unfold lenN in *. lia.
    + injection HE as <- _. simpl. lia.
    + apply bind_Ok in HE. destruct HE as (l & _ & HE). injection HE as <- _. lia.
    + apply bind_Ok in HE. destruct HE as (l & _ & HE). injection HE as <- _. lia.
    + apply bind_Ok in HE. destruct HE as (l & _ & HE). injection HE as <- _. lia.
Qed.

Lemma C19_add_proof : forall c ops g f t w,
  ig_run c ig_new ops = Ok g -> frozen_after ops = false ->
  f < umax c -> t < umax c -> lenN (accepted ops) + 2 <= umax c / 2 ->
  (exists g' k, ig_add_edge c g f t w = Ok (g', k)) /\
  (exists g' k, ig_add_edge_bidir c g f t w = Ok (g', k)).
Proof.
  intros c ops g f t w Hr Hfr Hf Ht HL. pose proof (C19_frozen_proof c ops g Hr) as HF. rewrite Hfr in HF.
  pose proof (edges_len c ops ig_new g Hr) as HE. simpl in HE.
  unfold ig_add_edge, ig_add_edge_bidir, ig_do_add_edge, uadd, vpush. rewrite HF.
  destruct (f =? t); [split; do 2 eexists; reflexivity|]. destruct (w <? 1); [split; do 2 eexists; reflexivity|].
  destruct (N.leb_spec (N.max f t + 1) (umax c)); [|lia]. cbn [bind].
  split; repeat match goal with |- context [?a <? ?b] =>
    destruct (N.ltb_spec a b); [cbn [bind]|exfalso; rewrite ?lenN_app, ?lenN_cons, ?lenN_nil in *; lia] end; do 2 eexists; reflexivity.
Qed.

Lemma C33_eq_proof : forall a b d : ShortestPath,
  sp_eqb a a = true /\ sp_eqb a b = sp_eqb b a /\
  (sp_eqb a b = true -> sp_eqb b d = true -> sp_eqb a d = true) /\
  (sp_eqb a b = true <->
     sp_get_source a = sp_get_source b /\ sp_get_target a = sp_get_target b /\
     sp_get_weight a = sp_get_weight b).
Proof.
  intros a b d. unfold sp_get_source, sp_get_target, sp_get_weight. rewrite !sp_eqb_spec. repeat split; try tauto.
  - unfold sp_eqb. rewrite (N.eqb_sym (sp_source a)), (N.eqb_sym (sp_target a)), (N.eqb_sym (sp_weight a)). reflexivity.
  - destruct H as (? & ? & ?), H0 as (? & ? & ?). congruence.
  - destruct H as (? & ? & ?), H0 as (? & ? & ?). congruence.
  - destruct H as (? & ? & ?), H0 as (? & ? & ?). congruence.
Qed.

Lemma C33_is_found_proof : forall c p, sp_is_found c p = false <-> sp_get_weight p = WEIGHT_MAX c.
Proof. intros c p. unfold sp_is_found, sp_get_weight. rewrite negb_false_iff, N.eqb_eq. tauto. Qed.

Lemma C33_answers_proof : forall c ops ig fg fg' s t p p',
  debug_build c = true -> frozen_graph c ops ig -> prepared c ig fg -> prepared c ig fg' ->
  answer c fg s t (Some p) -> answer c fg' s t (Some p') -> sp_eqb p p' = true.
Proof.
  intros c ops ig fg fg' s t p p' Hd Hf Hp Hp' Ha Ha'. apply sp_eqb_spec.
  destruct (answer_single c ops ig fg s t _ Hd Hf Hp Ha) as (_ & _ & A1 & A2 & _ & A3 & A4).
  destruct (answer_single c ops ig fg' s t _ Hd Hf Hp' Ha') as (_ & _ & B1 & B2 & _ & B3 & B4).
  apply (frozen_walk c ops ig) in A3, B3; auto. apply A4 in B3. apply B4 in A3.
  repeat split; try congruence. lia.
Qed.

Lemma C19_prepare_proof : forall c ops g H Q,
  ig_run c ig_new ops = Ok g -> frozen_after ops = false ->
  prepare c H Q g = Panic (PExplicit msg_not_frozen) /\
  (forall params, prepare_with_params c H Q g params = Panic (PExplicit msg_not_frozen)) /\
  (forall order, prepare_with_order c H g order = Panic (PExplicit msg_not_frozen)) /\
  (forall order params, prepare_with_order_with_params c H g order params = Panic (PExplicit msg_not_frozen)).
Proof.
  intros c ops g H Q HR HF. destruct (run_inv _ _ _ HR) as [[H1 _ _ _ _] _]. rewrite HF in H1.
  unfold prepare, prepare_with_params, prepare_with_order, prepare_with_order_with_params, build_with_order, build_with_order_with_params,
    build, build_with_params, ig_get_num_nodes, ig_check_frozen. rewrite H1. cbn [bind]. auto.
Qed.
