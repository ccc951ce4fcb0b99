(** * ShortcutProps: preparation adds no needless shortcuts *)
From Verif Require Export ReleaseProps ExactFacts SpecShortcut.
Open Scope N_scope.

Lemma unlimited_prepared c ig fg : prepared_unlimited c ig fg -> prepared c ig fg.
Proof.
  intros [(ps & _ & Hp)|(o & ps & Hperm & _ & Hp)]; [left|right]; eauto.
Qed.

Lemma unlimited_min c ops ig fg : debug_build c = true -> frozen_graph c ops ig ->
  prepared_unlimited c ig fg -> fg_exact True c (ig_edges ig) fg.
Proof.
  intros Hd Hf Hp.
  assert (ig_ok c ig) as Hok by (apply (frozen_graph_ok c ops); auto; left; auto).
  destruct Hp as [(ps & Hlim & H & hinv & Q & qinv & HL & QL & HE)|(order & ps & Hperm & Hlim & H & hinv & HL & HE)].
  - assert (wp (lim True) (build_with_params c H Q ig ps)
      (fun fg => fg_ok c (ig_edges ig) (ig_num_nodes ig) fg /\ fg_exact True c (ig_edges ig) fg)) as HW.
    { eapply (build_with_params_full c H hinv HL Hd ig Hok (max_weight (ig_edges ig)) True ltac:(intros e He; apply max_weight_ge; auto) True true); eauto. }
    apply (wp_ok _ _ _ _ HW HE).
  - pose proof (perm_len _ _ Hperm) as Hlen. destruct Hperm as [HN HI].
    assert (wp (lim True) (build_with_order_with_params c H ig order ps)
      (fun r => exists fg, r = inl fg /\ (fg_ok c (ig_edges ig) (ig_num_nodes ig) fg /\ fg_exact True c (ig_edges ig) fg) /\
            (forall i v : N, getN order i = Some v -> rk fg v = i))) as HW.
    { eapply (build_with_order_full c H hinv HL Hd ig Hok (max_weight (ig_edges ig)) True ltac:(intros e He; apply max_weight_ge; auto) True true); eauto.
      intros x Hx. apply HI; auto. }
    destruct (wp_ok _ _ _ _ HW HE) as (fg' & Hfg & (_ & Hm) & _). injection Hfg as ->. exact Hm.
Qed.

Lemma stored_edge_get fg u v w : stored_edge fg u v w <->
  exists d id e, getN (fg_edges fg d) id = Some e /\ fsrc d (fe_base e) (fe_adj e) = u /\
    fdst d (fe_base e) (fe_adj e) = v /\ fe_weight e = w.
Proof.
  unfold stored_edge, stored. rewrite !in_map_iff. split.
  - intros [(e & [= H1 H2 H3] & HI)|(e & [= H1 H2 H3] & HI)]; apply In_getN in HI as (id & _ & HI).
    + exists Fwd, id, e. auto.
    + exists Bwd, id, e. auto.
  - intros ([] & id & e & HG & H1 & H2 & H3); apply getN_In in HG; simpl in *; subst; [left|right]; exists e; auto.
Qed.

Lemma C56_proof : forall c ops ig fg order u v w,
  debug_build c = true -> frozen_graph c ops ig -> prepared_unlimited c ig fg ->
  get_node_ordering fg = Ok order -> stored_edge fg u v w ->
  In (mkEdge u v w) (accepted ops) \/ exists m, needed_shortcut (accepted ops) fg order u v w m.
Proof.
  intros c ops ig fg order u v w Hd Hf Hp Hl Hs.
  destruct (unlimited_min c ops ig fg Hd Hf Hp) as [Hmin _].
  pose proof (prepared_ok c ops ig fg Hd Hf (unlimited_prepared _ _ _ Hp)) as Hok.
  destruct (node_ordering_ok _ _ _ _ _ (ok_shape _ _ _ _ Hok) Hl) as [_ HG].
  apply stored_edge_get in Hs as (d & id & e & He & <- & <- & <-).
  destruct (ok_edge _ _ _ _ Hok d id e He) as (Hb & Ha & _ & Hrk).
  destruct (ok_src _ _ _ _ Hok d id e He) as [(_ & _ & HI)|(ei & eo & Hni & _ & Gi & Go & Hbb & Hai & Hao & Hw & Hlt)].
  { left. destruct Hf as (_ & Hr & _). destruct (run_inv c ops ig Hr) as [HI' _]. apply (hg_sub _ _ _ HI'). auto. }
  right. exists (fe_base ei).
  destruct (ok_edge _ _ _ _ Hok _ _ _ Gi) as (Hm & _ & _ & Hri).
  destruct (ok_edge _ _ _ _ Hok _ _ _ Go) as (_ & _ & _ & Hro). rewrite <- Hbb in Hro.
  assert (forall y, y < ig_num_nodes ig -> rk fg (fe_base ei) < rk fg y -> earlier order (fe_base ei) y) as Hearly.
  { intros y Hy Hr. exists (rk fg (fe_base ei)), (rk fg y). rewrite !HG. auto. }
  assert (forall y, earlier order (fe_base ei) y -> rk fg (fe_base ei) < rk fg y) as Hearly'.
  { intros y (i & j & Hij & Hi & Hj). apply HG in Hi as [_ ->]. apply HG in Hj as [_ ->]. auto. }
  assert (fsrc d (fe_base e) (fe_adj e) < ig_num_nodes ig /\ fdst d (fe_base e) (fe_adj e) < ig_num_nodes ig) as [Hsn Htn]
    by (destruct d; auto).
  split; [|split; [|split]].
  - apply Hearly; auto. rewrite <- Hai. auto.
  - apply Hearly; auto. rewrite <- Hao. auto.
  - exists (fe_weight ei), (fe_weight eo). split; [|split; auto].
    + apply stored_edge_get. exists Bwd, (fe_replaced_in e), ei. auto.
    + apply stored_edge_get. exists Fwd, (fe_replaced_out e), eo. auto.
  - intros ns W HW Hns. destruct (accepted_walk _ _ _ _ _ _ _ Hf HW) as (W' & HW' & Hle).
    assert (fe_weight e < W') as G; [|lia].
    eapply (Hmin d id e ei); eauto.
Qed.

Lemma C57_order_proof : forall c ops ig order params1 params2 fg1 fg2,
  debug_build c = true -> frozen_graph c ops ig ->
  ig_num_nodes ig <= po_max_settled_nodes_contraction_with_order params1 ->
  ig_num_nodes ig <= po_max_settled_nodes_contraction_with_order params2 ->
  prepared_by_order c ig order params1 fg1 -> prepared_by_order c ig order params2 fg2 -> fg1 = fg2.
Proof.
  intros c ops ig order params1 params2 fg1 fg2 Hd Hf Hlim1 Hlim2 (H1 & I1 & L1 & E1) (H2 & I2 & L2 & E2).
  assert (ig_ok c ig) as Hok by (apply (frozen_graph_ok c ops); auto; left; auto).
  pose proof (build_order_det c H1 H2 I1 I2 L1 L2 Hd ig Hok order params1 params2 _ _ Hlim1 Hlim2 E1 E2) as E. injection E. auto.
Qed.

Lemma C57_params_proof : forall c ops ig params1 params2 H1 hinv1 H2 hinv2 Q fg1 fg2,
  debug_build c = true -> frozen_graph c ops ig -> heap_laws H1 hinv1 -> heap_laws H2 hinv2 ->
  p_hierarchy_depth_factor params1 = p_hierarchy_depth_factor params2 ->
  p_edge_quotient_factor params1 = p_edge_quotient_factor params2 ->
  ig_num_nodes ig <= p_max_settled_nodes_initial_relevance params1 ->
  ig_num_nodes ig <= p_max_settled_nodes_neighbor_relevance params1 ->
  ig_num_nodes ig <= p_max_settled_nodes_contraction params1 ->
  ig_num_nodes ig <= p_max_settled_nodes_initial_relevance params2 ->
  ig_num_nodes ig <= p_max_settled_nodes_neighbor_relevance params2 ->
  ig_num_nodes ig <= p_max_settled_nodes_contraction params2 ->
  prepare_with_params c H1 Q ig params1 = Ok fg1 -> prepare_with_params c H2 Q ig params2 = Ok fg2 -> fg1 = fg2.
Proof.
  intros c ops ig params1 params2 H1 I1 H2 I2 Q fg1 fg2 Hd Hf L1 L2 F1 F2 Hm0 Hm1 Hm2 Hm0' Hm1' Hm2' E1 E2.
  assert (ig_ok c ig) as Hok by (apply (frozen_graph_ok c ops); auto; left; auto).
  exact (build_params_det c H1 H2 I1 I2 L1 L2 Hd ig Hok Q params1 params2 _ _ (conj F1 F2) Hm0 Hm1 Hm2 Hm0' Hm1' Hm2' E1 E2).
Qed.

Lemma C57_default_proof : forall c ops ig H1 hinv1 H2 hinv2 Q fg1 fg2,
  debug_build c = true -> frozen_graph c ops ig -> heap_laws H1 hinv1 -> heap_laws H2 hinv2 ->
  ig_num_nodes ig <= 100 ->
  prepare c H1 Q ig = Ok fg1 -> prepare c H2 Q ig = Ok fg2 -> fg1 = fg2.
Proof.
  intros c ops ig H1 I1 H2 I2 Q fg1 fg2 Hd Hf L1 L2 Hm.
  apply (C57_params_proof c ops ig params_default params_default H1 I1 H2 I2 Q); auto; simpl; lia.
Qed.

Lemma nested_exists c E n fg : fg_shape c E n fg -> forall k d id e, getN (fg_edges fg d) id = Some e ->
  (N.to_nat (rk fg (fe_base e)) < k)%nat -> exists j, nested c fg d id j /\ j <= rk fg (fe_base e).
Proof.
  intros Hok. induction k as [|k IH]; intros d id e He Hk; [lia|].
  destruct (sh_mod _ _ _ _ Hok d id e He) as [(Hi & Ho & _)|(ei & eo & Hni & Hno & Gi & Go & Hbb & Hai & Hao & Hr & _)].
  - exists 0. split; [apply (nested_edge c fg d id e); auto|lia].
  - destruct (IH _ _ _ Gi) as (ji & Ji & Li); [lia|].
    destruct (IH _ _ _ Go) as (jo & Jo & Lo); [rewrite <- Hbb; lia|]. rewrite <- Hbb in Lo.
    exists (1 + N.max ji jo). split; [apply (nested_shortcut c fg d id e); auto|lia].
Qed.
Lemma nested_unique c fg d id k : nested c fg d id k -> forall k', nested c fg d id k' -> k = k'.
Proof.
  induction 1 as [d id e He Hi Ho|d id e ki ko He Hi Ho _ IHi _ IHo]; intros k' H'; inversion H'; subst; try congruence.
  assert (e0 = e) as -> by congruence.
  match goal with A : nested _ _ Bwd _ _, B : nested _ _ Fwd (fe_replaced_out e) _ |- _ => rewrite (IHi _ A), (IHo _ B) end. auto.
Qed.

Lemma C58_proof : forall c ops ig fg d id,
  1 <= umax c -> frozen_graph c ops ig -> prepared c ig fg -> id < lenN (fg_edges fg d) ->
  exists k, nested c fg d id k /\ k + 2 <= ig_num_nodes ig /\ forall k', nested c fg d id k' -> k' = k.
Proof.
  intros c ops ig fg d id Hu Hf Hp Hid. pose proof (prepared_shape c ops ig fg Hu Hf Hp) as Hok.
  destruct (getN_lt _ _ Hid) as (e & He).
  destruct (nested_exists _ _ _ _ Hok _ d id e He (le_n _)) as (k & Hk & Hle).
  destruct (sh_edge _ _ _ _ Hok _ _ _ He) as (_ & Ha & Hr). apply (sh_rank _ _ _ _ Hok) in Ha.
  exists k. split; auto. split; [lia|]. intros k' Hk'. symmetry. eapply nested_unique; eauto.
Qed.

(** *** C59 *)
Lemma expansion_unique c fg d id ns : expansion c fg d id ns -> forall ns', expansion c fg d id ns' -> ns' = ns.
Proof.
  induction 1 as [d id e He Hi Ho|d id e n1 n2 He Hi Ho _ IHi _ IHo]; intros ns' H'; inversion H'; subst; try congruence.
  assert (e0 = e) as -> by congruence.
  match goal with A : expansion _ _ Bwd _ _, B : expansion _ _ Fwd (fe_replaced_out e) _ |- _ => rewrite (IHi _ A), (IHo _ B) end. auto.
Qed.

Lemma between_walks E u y v : between E u y v -> on_lightest E u y v.
Proof.
  intros B ns W HW. apply walk_path in HW. destruct (B _ HW) as (W1 & W2 & P1 & P2 & Hle).
  apply path_walk in P1 as (l1 & P1). apply path_walk in P2 as (l2 & P2). exists l1, W1, l2, W2. auto.
Qed.

(** the interior of the walk a stored edge stands for *)
Lemma expansion_exists c E n fg : fg_ok c E n fg -> fg_lean True c E fg ->
  forall k d id e, getN (fg_edges fg d) id = Some e -> (N.to_nat (rk fg (fe_base e)) < k)%nat ->
  exists I, expansion c fg d id (edge_start d e :: I ++ [edge_end d e]) /\ NoDup I /\
    (forall y, In y I -> rk fg y < rk fg (fe_base e) /\ between E (edge_start d e) y (edge_end d e)) /\
    walk E (edge_start d e) (edge_end d e) (edge_start d e :: I ++ [edge_end d e]) (fe_weight e).
Proof.
  intros Hok Hlean. induction k as [|k IH]; intros d id e He Hk; [lia|].
  pose proof (Hlean d id e) as HL.
  destruct (ok_src _ _ _ _ Hok d id e He) as [(Hi & Ho & HE)|(ei & eo & Hni & Hno & Gi & Go & Hbb & Hai & Hao & Hw & Hlt)].
  - exists []. simpl. split; [apply (expansion_edge c fg d id e); auto|]. split; [constructor|].
    split; [intros y []|]. apply walk_one. destruct d; exact HE.
  - destruct (HL ei He Hni Gi Logic.I) as [Bm Bdis]. clear HL.
    destruct (IH Bwd _ _ Gi) as (I1 & X1 & N1 & J1 & L1); [lia|].
    destruct (IH Fwd _ _ Go) as (I2 & X2 & N2 & J2 & L2); [rewrite <- Hbb; lia|].
    simpl in X1, J1, L1, X2, J2, L2. rewrite <- Hbb in X2, J2, L2. rewrite Hai in X1, J1, L1. rewrite Hao in X2, J2, L2.
    assert (fsrc d (fe_base e) (fe_adj e) = edge_start d e) as Es by (destruct d; reflexivity).
    assert (fdst d (fe_base e) (fe_adj e) = edge_end d e) as Et by (destruct d; reflexivity).
    rewrite Es in *. rewrite Et in *. set (u := edge_start d e) in *. set (v := edge_end d e) in *. set (m := fe_base ei) in *.
    exists (I1 ++ m :: I2). split; [|split; [|split]].
    + replace (u :: (I1 ++ m :: I2) ++ [v]) with ((u :: I1 ++ [m]) ++ tl (m :: I2 ++ [v]))
        by (simpl; rewrite <- !app_assoc; reflexivity).
      apply (expansion_shortcut c fg d id e); auto.
    + apply NoDup_Add with (a := m) (l := I1 ++ I2); [apply Add_app|]. split.
      * clear X1 L1 X2 L2. induction I1 as [|y I1 IH1]; simpl; auto. inversion N1; subst. constructor.
        -- rewrite in_app_iff. intros [Hy|Hy]; [auto|]. destruct (J1 y (or_introl eq_refl)) as [Yr Yb].
           apply (Bdis y); auto; [|apply J2; auto]. intros ->. lia.
        -- apply IH1; auto. intros z Hz. apply J1. right; auto.
      * rewrite in_app_iff. intros [Hy|Hy]; [apply J1 in Hy|apply J2 in Hy]; lia.
    + intros y Hy. apply in_app_iff in Hy as [Hy|[<-|Hy]]; [| |].
      * destruct (J1 y Hy) as [Yr Yb]. split; [lia|]. intros W Hp.
        destruct (Bm _ Hp) as (a & b & Q1 & Q2 & Hle). destruct (Yb _ Q1) as (a1 & a2 & Q3 & Q4 & Hle2).
        exists a1, (a2 + b). split; auto. split; [eapply path_app; eauto|lia].
      * split; auto.
      * destruct (J2 y Hy) as [Yr Yb]. split; [lia|]. intros W Hp.
        destruct (Bm _ Hp) as (a & b & Q1 & Q2 & Hle). destruct (Yb _ Q2) as (a1 & a2 & Q3 & Q4 & Hle2).
        exists (a + a1), a2. split; [eapply path_app; eauto|]. split; [auto|lia].
    + rewrite Hw. rewrite <- app_assoc. simpl. change (u :: I1 ++ m :: I2 ++ [v]) with ((u :: I1) ++ (m :: I2 ++ [v])).
      eapply PathFacts.walk_app; eauto.
Qed.

Lemma C59_proof : forall c ops ig fg d id e,
  debug_build c = true -> frozen_graph c ops ig -> prepared_unlimited c ig fg ->
  getN (fg_edges fg d) id = Some e ->
  exists ns, expansion c fg d id ns /\ (forall ns', expansion c fg d id ns' -> ns' = ns) /\ NoDup ns /\
    walk (accepted ops) (edge_start d e) (edge_end d e) ns (fe_weight e) /\
    (forall y, In y ns -> on_lightest (accepted ops) (edge_start d e) y (edge_end d e)).
Proof.
  intros c ops ig fg d id e Hd Hf Hp He.
  destruct (unlimited_min c ops ig fg Hd Hf Hp) as [_ Hlean].
  pose proof (prepared_ok c ops ig fg Hd Hf (unlimited_prepared _ _ _ Hp)) as Hok.
  destruct (expansion_exists c _ _ fg Hok Hlean _ d id e He (le_n _)) as (I & X & HN & J & L).
  destruct (ok_edge _ _ _ _ Hok d id e He) as (Hb & Ha & _ & Hr).
  assert (incl (ig_edges ig) (accepted ops)) as Hincl.
  { destruct Hf as (_ & Hrun & _). destruct (run_inv c ops ig Hrun) as [HI _]. intros x. apply (hg_sub _ _ _ HI). }
  exists (edge_start d e :: I ++ [edge_end d e]). split; auto.
  split; [intros ns' H'; eapply expansion_unique; eauto|].
  assert (edge_start d e <> edge_end d e) as Hne.
  { intros Eq. assert (fe_base e = fe_adj e) as Eq2 by (destruct d; simpl in Eq; auto). rewrite Eq2 in Hr. lia. }
  assert (rk fg (fe_base e) <= rk fg (edge_start d e) /\ rk fg (fe_base e) <= rk fg (edge_end d e)) as [Rs Rt].
  { destruct d; simpl; lia. }
  split; [|split].
  - constructor.
    + rewrite in_app_iff. intros [Hy|[Hy|[]]]; [|congruence]. apply J in Hy as [Hy _]. lia.
    + apply NoDup_Add with (a := edge_end d e) (l := I); [rewrite <- (app_nil_r I) at 1; apply Add_app|]. split; auto.
      intros Hy. apply J in Hy as [Hy _]. lia.
  - eapply walk_incl; eauto.
  - assert (forall y, between (ig_edges ig) (edge_start d e) y (edge_end d e) ->
      on_lightest (accepted ops) (edge_start d e) y (edge_end d e)) as Hb2.
    { intros y By ns W HW. destruct (accepted_walk _ _ _ _ _ _ _ Hf HW) as (W' & HW' & Hle).
      destruct (between_walks _ _ _ _ By _ _ HW') as (l1 & W1 & l2 & W2 & K1 & K2 & K3).
      exists l1, W1, l2, W2. split; [eapply walk_incl; eauto|]. split; [eapply walk_incl; eauto|lia]. }
    intros y Hy. apply Hb2. destruct Hy as [<-|Hy]; [|apply in_app_iff in Hy as [Hy|[<-|[]]]].
    + intros W HW. exists 0, W. split; [constructor|]. split; [auto|lia].
    + apply J; auto.
    + intros W HW. exists W, 0. split; auto. split; [constructor|lia].
Qed.

(** *** C60 *)
Lemma C60_weight_proof : forall c ops ig fg M u v w,
  debug_build c = true -> frozen_graph c ops ig -> prepared_unlimited c ig fg ->
  (forall e, In e (accepted ops) -> e_weight e <= M) ->
  stored_edge fg u v w -> w <= (ig_num_nodes ig - 1) * M.
Proof.
  intros c ops ig fg M u v w Hd Hf Hp HM Hs.
  pose proof (prepared_ok c ops ig fg Hd Hf (unlimited_prepared _ _ _ Hp)) as Hok.
  apply stored_edge_get in Hs as (d & id & e & He & <- & <- & <-).
  destruct (C59_proof c ops ig fg d id e Hd Hf Hp He) as (ns & _ & _ & HN & HW & _).
  assert (lenN ns <= ig_num_nodes ig) as HL.
  { apply NoDup_bounded_len; auto. intros y Hy. destruct (accepted_walk _ _ _ _ _ _ _ Hf HW) as (W' & HW' & _).
    destruct (ok_edge _ _ _ _ Hok d id e He) as (Hb & Ha & _).
    assert (ig_ok c ig) as Hig by (apply (frozen_graph_ok c ops); auto; left; auto).
    assert (forall u v ns W, walk (ig_edges ig) u v ns W -> u < ig_num_nodes ig -> forall y, In y ns -> y < ig_num_nodes ig) as G.
    { clear - Hig. induction 1 as [u|u v t w ns W Hin Hw IH]; intros Hu y [<-|Hy]; auto; [destruct Hy|].
      apply IH; auto. apply (ig_ok_edge _ _ Hig) in Hin. simpl in Hin. tauto. }
    eapply G; [exact HW'| |exact Hy]. destruct d; simpl; auto. }
  pose proof (walk_len_bound _ _ HM _ _ _ _ HW) as HB. nia.
Qed.

Lemma C60_params_proof : forall c ops ig M H hinv Q qinv params,
  debug_build c = true -> frozen_graph c ops ig -> heap_laws H hinv -> pq_laws Q qinv ->
  ig_num_nodes ig <= p_max_settled_nodes_contraction params ->
  (forall e, In e (accepted ops) -> e_weight e <= M) ->
  prep_bound_unlimited c (ig_num_nodes ig) M -> ig_num_nodes ig * ig_num_nodes ig <= 2147483647 ->
  exists fg, prepare_with_params c H Q ig params = Ok fg.
Proof.
  intros c ops ig M H hinv Q qinv params Hd Hf HL QL Hlim HM (B1 & B2 & B3) B4.
  assert (ig_ok c ig) as Hok by (apply (frozen_graph_ok c ops); auto; left; auto).
  assert (wp (lim False) (build_with_params c H Q ig params)
    (fun fg => fg_ok c (ig_edges ig) (ig_num_nodes ig) fg /\ fg_exact True c (ig_edges ig) fg)) as HW.
  { eapply (build_with_params_full c H hinv HL Hd ig Hok M False (accepted_frozen_weight _ _ _ _ Hf HM) True true); eauto; lia. }
  destruct (wp_lim_false _ _ HW) as (fg & HE & _). eauto.
Qed.

Lemma C60_order_proof : forall c ops ig M H hinv order params,
  debug_build c = true -> frozen_graph c ops ig -> heap_laws H hinv ->
  permutation_of_nodes (ig_num_nodes ig) order ->
  ig_num_nodes ig <= po_max_settled_nodes_contraction_with_order params ->
  (forall e, In e (accepted ops) -> e_weight e <= M) -> prep_bound_unlimited c (ig_num_nodes ig) M ->
  exists fg, prepare_with_order_with_params c H ig order params = Ok (inl fg).
Proof.
  intros c ops ig M H hinv order params Hd Hf HL Hperm Hlim HM (B1 & B2 & B3).
  assert (ig_ok c ig) as Hok by (apply (frozen_graph_ok c ops); auto; left; auto).
  pose proof (perm_len _ _ Hperm) as Hlen. destruct Hperm as [HN HI].
  assert (wp (lim False) (build_with_order_with_params c H ig order params)
    (fun r => exists fg, r = inl fg /\ (fg_ok c (ig_edges ig) (ig_num_nodes ig) fg /\ fg_exact True c (ig_edges ig) fg) /\
            (forall i v : N, getN order i = Some v -> rk fg v = i))) as HW.
  { eapply (build_with_order_full c H hinv HL Hd ig Hok M False (accepted_frozen_weight _ _ _ _ Hf HM) True true); eauto; try lia.
    intros x Hx. apply HI; auto. }
  destruct (wp_lim_false _ _ HW) as (r & HE & fg & -> & _). eauto.
Qed.

Lemma C60_query_proof : forall c ops ig fg M K1 K2 H hinv pc ss ts,
  debug_build c = true -> frozen_graph c ops ig -> prepared_unlimited c ig fg -> heap_laws H hinv ->
  calculator c (ig_num_nodes ig) pc ->
  ss <> [] -> ts <> [] ->
  (forall v w, In (v, w) ss -> v < ig_num_nodes ig /\ (w = WEIGHT_MAX c \/ w <= K1)) ->
  (forall v w, In (v, w) ts -> v < ig_num_nodes ig /\ (w = WEIGHT_MAX c \/ w <= K2)) ->
  (forall e, In e (accepted ops) -> e_weight e <= M) ->
  K1 + K2 + 2 * (ig_num_nodes ig - 1) * ((ig_num_nodes ig - 1) * M) <= umax c ->
  exists pc' r, pc_calc_path_multiple c H pc fg ss ts = Ok (pc', r).
Proof.
  intros c ops ig fg M K1 K2 H hinv pc ss ts Hd Hf Hp HL Hc Hss Hts H1 H2 HM HB.
  eapply (C14_query_linear_proof c ops ig fg ((ig_num_nodes ig - 1) * M) K1 K2); eauto using unlimited_prepared.
  intros e He. assert (exists d id, getN (fg_edges fg d) id = Some e) as (d & id & HG).
  { destruct He as [He|He]; apply In_getN in He as (id & _ & He); [exists Fwd, id|exists Bwd, id]; auto. }
  eapply (C60_weight_proof c ops ig fg M); eauto. apply stored_edge_get. exists d, id, e. auto.
Qed.

Lemma C60_default_proof : forall c ops ig M H hinv Q qinv,
  debug_build c = true -> frozen_graph c ops ig -> heap_laws H hinv -> pq_laws Q qinv ->
  ig_num_nodes ig <= 100 -> (forall e, In e (accepted ops) -> e_weight e <= M) ->
  396 * M <= umax c -> 20000 <= umax c ->
  exists fg, prepare c H Q ig = Ok fg.
Proof.
  intros c ops ig M H hinv Q qinv Hd Hf HL QL Hn HM HB HB2.
  assert (10000 <= umax c / 2) as Hh by (apply (N.div_le_mono 20000 (umax c) 2); lia).
  assert (ig_num_nodes ig * ig_num_nodes ig <= 100 * 100) as Hnn by (apply N.mul_le_mono; auto).
  apply (C60_params_proof c ops ig M H hinv Q qinv params_default); auto; [simpl; lia| |lia].
  assert ((ig_num_nodes ig - 1) * M <= 99 * M) by (apply N.mul_le_mono_r; lia).
  unfold prep_bound_unlimited. lia.
Qed.
