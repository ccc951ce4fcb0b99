(** * RelProps: proofs of the properties of preparation without bounds on the weights *)
From Verif Require Import SpecRel RelFacts TermProps.
Open Scope N_scope.

(** ** Frozen graphs whose node count wrapped *)
Lemma from_input_checks c ig : ig_frozen ig = true ->
  wp (fun _ => True) (pg_from_input_graph c ig)
    (fun _ => forall e, In e (ig_edges ig) -> e_from e < ig_num_nodes ig /\ e_to e < ig_num_nodes ig).
Proof.
  intros Hf. unfold pg_from_input_graph, ig_get_num_nodes, ig_get_edges, ig_check_frozen. rewrite Hf. cbn [bind].
  set (n := ig_num_nodes ig). eapply wp_mono.
  - apply (wp_foldM _ _ (fun pre g => lenN (pg_out g) = n /\ lenN (pg_in g) = n /\
      forall e, In e pre -> e_from e < n /\ e_to e < n)).
    + simpl. split; [apply lenN_repeat|]. split; [apply lenN_repeat|]. intros e [].
    + intros pre e post g _ (L1 & L2 & Hpre). unfold pg_add_edge, pg_add_edge_or_shortcut, pg_assert_valid_node_id.
      destruct (pg_num_nodes g <=? e_to e); cbn [bind]; [exact Logic.I|].
      unfold idx. destruct (getN (pg_out g) (e_from e)) as [o|] eqn:G1; cbn [bind]; [|exact Logic.I].
      apply getN_Some_lt in G1. rewrite upd_eq by auto. cbn [bind].
      destruct (getN (pg_in g) (e_to e)) as [i|] eqn:G2; cbn [bind]; [|exact Logic.I].
      apply getN_Some_lt in G2. rewrite upd_eq by auto. cbn [bind]. apply wp_Ok. cbn [pg_out pg_in].
      rewrite !lenN_setN. split; auto. split; auto. intros e' He'. apply in_app_iff in He' as [He'|[<-|[]]]; auto. lia.
  - intros g (_ & _ & G). exact G.
Qed.

Lemma frozen_ok_if c ops ig : frozen_graph c ops ig ->
  (forall e, In e (ig_edges ig) -> e_from e < ig_num_nodes ig /\ e_to e < ig_num_nodes ig) -> ig_ok c ig.
Proof.
  intros (Hr & Hrun & Hf) Hn. destruct (run_inv _ _ _ Hrun) as [[H1 H2 H3 H4 H5] _].
  constructor; auto.
  - apply sorted_lt_NoDup; auto.
  - intros e He. specialize (Hn e He). apply H2 in He. pose proof (accepted_In _ _ He). pose proof (accepted_repr _ _ _ Hr He).
    repeat split; try tauto; lia.
Qed.

Lemma nd_of_wp {A} P (m : res A) Q : wp P m Q -> m <> Diverge.
Proof. destruct m; simpl; [discriminate|discriminate|contradiction]. Qed.

Lemma C69_ends_proof c ops ig H hinv : 1 <= umax c -> frozen_graph c ops ig -> heap_laws H hinv ->
  (forall Q qinv, pq_laws Q qinv -> prepare c H Q ig <> Diverge) /\
  (forall Q qinv params, pq_laws Q qinv -> prepare_with_params c H Q ig params <> Diverge) /\
  (forall order, prepare_with_order c H ig order <> Diverge) /\
  (forall order params, prepare_with_order_with_params c H ig order params <> Diverge).
Proof.
  intros Hu Hf HL.
  assert (forall Q qinv params, pq_laws Q qinv -> prepare_with_params c H Q ig params <> Diverge) as G1.
  { intros Q qinv params QL. pose proof Hf as (_ & _ & Hfr). pose proof (from_input_checks c ig Hfr) as HF.
    unfold prepare_with_params, build_with_params, ig_get_num_nodes, ig_check_frozen. rewrite Hfr. cbn [bind].
    destruct (pg_from_input_graph c ig) as [g0|r|] eqn:Eg; [| |destruct HF].
    - assert (ig_ok c ig) as Hok by (eapply frozen_ok_if; eauto).
      pose proof (build_params_str c H hinv HL ig Hok (fun _ => True) (or_intror Logic.I) (fun _ => Logic.I) Hu Q qinv QL params) as W.
      apply nd_of_wp in W. unfold build_with_params, ig_get_num_nodes, ig_check_frozen in W. rewrite Hfr in W. exact W.
    - unfold run_contraction. rewrite Eg. apply nd_bind; [|discriminate].
      unfold fg_new, uadd. repeat (destruct (_ <=? _); cbn [bind]; try discriminate).
      destruct (debug_build c); cbn [bind]; [discriminate|]. destruct (_ <=? _); discriminate. }
  assert (forall order params, prepare_with_order_with_params c H ig order params <> Diverge) as G2.
  { intros order params. pose proof Hf as (_ & _ & Hfr). pose proof (from_input_checks c ig Hfr) as HF.
    unfold prepare_with_order_with_params, build_with_order_with_params, ig_get_num_nodes, ig_check_frozen. rewrite Hfr. cbn [bind].
    destruct (pg_from_input_graph c ig) as [g0|r|] eqn:Eg; [| |destruct HF].
    - assert (ig_ok c ig) as Hok by (eapply frozen_ok_if; eauto).
      pose proof (build_order_str c H hinv HL ig Hok (fun _ => True) (or_intror Logic.I) (fun _ => Logic.I) Hu order params (or_intror (fun _ => Logic.I))) as W.
      apply nd_of_wp in W. unfold build_with_order_with_params, ig_get_num_nodes, ig_check_frozen in W. rewrite Hfr in W. exact W.
    - destruct (negb _); [discriminate|].
      unfold run_contraction_with_order. rewrite Eg. apply nd_bind; [|discriminate].
      unfold fg_new, uadd. repeat (destruct (_ <=? _); cbn [bind]; try discriminate).
      destruct (debug_build c); cbn [bind]; [discriminate|]. destruct (_ <=? _); discriminate. }
  split; [intros Q qinv QL; eapply G1; eauto|]. split; [exact G1|]. split; [intros order; apply G2|exact G2].
Qed.

Lemma perm_order n order : permutation_of_nodes n order ->
  NoDup order /\ (forall x, In x order -> x < n) /\ lenN order = n.
Proof. intros Hp. split; [apply Hp|]. split; [intros x; apply Hp|]. apply perm_len; auto. Qed.

(** a preparation that returns has met no edge with a node the graph does not have *)
Lemma prepared_ig_ok c ops ig fg : frozen_graph c ops ig -> prepared c ig fg -> ig_ok c ig.
Proof.
  intros Hf Hp. pose proof Hf as (_ & _ & Hfr). pose proof (from_input_checks c ig Hfr) as HF.
  apply (frozen_ok_if c ops ig Hf).
  destruct Hp as [(ps & H & hinv & Q & qinv & HL & QL & HE)|(order & ps & Hperm & H & hinv & HL & HE)].
  - unfold prepare_with_params, build_with_params, ig_get_num_nodes, ig_check_frozen in HE. rewrite Hfr in HE. cbn [bind] in HE.
    apply bind_Ok in HE as (fg0 & _ & HE). unfold run_contraction in HE.
    destruct (pg_from_input_graph c ig) as [g0|r|] eqn:Eg; [exact HF|discriminate|discriminate].
  - unfold prepare_with_order_with_params, build_with_order_with_params, ig_get_num_nodes, ig_check_frozen in HE. rewrite Hfr in HE. cbn [bind] in HE.
    destruct (negb _); [discriminate|]. apply bind_Ok in HE as (fg0 & _ & HE). unfold run_contraction_with_order in HE.
    destruct (pg_from_input_graph c ig) as [g0|r|] eqn:Eg; [exact HF|discriminate|discriminate].
Qed.

Lemma prepared_shape c ops ig fg : 1 <= umax c -> frozen_graph c ops ig -> prepared c ig fg ->
  fg_shape c (ig_edges ig) (ig_num_nodes ig) fg.
Proof.
  intros Hu Hf Hp. pose proof (prepared_ig_ok c ops ig fg Hf Hp) as Hok.
  destruct Hp as [(ps & H & hinv & Q & qinv & HL & QL & HE)|(order & ps & Hperm & H & hinv & HL & HE)].
  - eapply wp_ok; [|exact HE].
    apply (build_params_str c H hinv HL ig Hok (fun _ => True) (or_intror Logic.I) (fun _ => Logic.I) Hu Q qinv QL ps).
  - pose proof (build_order_str c H hinv HL ig Hok (fun _ => True) (or_intror Logic.I) (fun _ => Logic.I) Hu order ps (or_intror (fun _ => Logic.I))) as W.
    exact (proj1 (wp_ok _ _ _ _ W HE (proj1 Hperm) fg eq_refl)).
Qed.
Lemma C69_success_proof c ops ig H hinv Q qinv : debug_build c = false ->
  (forall e, In e (accepted ops) -> e_from e < umax c /\ e_to e < umax c) ->
  ig_num_nodes ig * ig_num_nodes ig <= umax c / 2 -> ig_num_nodes ig + 1 <= umax c / 2 ->
  frozen_graph c ops ig -> heap_laws H hinv -> pq_laws Q qinv ->
  (forall params, exists fg, prepare_with_params c H Q ig params = Ok fg) /\
  (forall order params, permutation_of_nodes (ig_num_nodes ig) order ->
     exists fg, prepare_with_order_with_params c H ig order params = Ok (inl fg)).
Proof.
  intros Hd Hids Hc1 Hc2 Hf HL QL. pose proof (frozen_graph_ok c ops ig (or_intror Hids) Hf) as Hok.
  assert (umax c / 2 <= umax c) by (apply N.div_le_upper_bound; lia).
  assert (1 <= umax c) as Hu by lia.
  assert (umax c / 2 < ig_num_nodes ig * ig_num_nodes ig \/ umax c / 2 < ig_num_nodes ig + 1 -> False) as HC by lia.
  split.
  - intros ps. pose proof (build_params_str c H hinv HL ig Hok (fun _ => False) (or_introl Hd) HC Hu Q qinv QL ps) as W.
    unfold prepare_with_params. destruct (build_with_params c H Q ig ps) as [fg|r|]; simpl in W; [eauto|contradiction|contradiction].
  - intros order ps Hperm. pose proof (perm_order _ _ Hperm) as Ho.
    pose proof (build_order_str c H hinv HL ig Hok (fun _ => False) (or_introl Hd) HC Hu order ps (or_introl Ho)) as W.
    unfold prepare_with_order_with_params.
    destruct (build_with_order_with_params c H ig order ps) as [[fg|m]|r|] eqn:Eb; simpl in W; [eauto| |contradiction|contradiction].
    exfalso. unfold build_with_order_with_params, ig_get_num_nodes, ig_check_frozen in Eb. rewrite (ig_ok_frozen _ _ Hok) in Eb. cbn [bind] in Eb.
    rewrite (perm_len _ _ Hperm), N.eqb_refl in Eb. cbn [negb] in Eb.
    destruct (fg_new _ _); cbn [bind] in Eb; try discriminate. destruct (run_contraction_with_order _ _ _ _ _ _ _); cbn [bind] in Eb; discriminate.
Qed.

(** a walk between listed nodes *)
Lemma C69_query_proof c ops ig fg H hinv pc ss ts : debug_build c = false -> 1 <= umax c ->
  frozen_graph c ops ig -> prepared c ig fg -> heap_laws H hinv -> calculator c (ig_num_nodes ig) pc ->
  ss <> [] -> ts <> [] -> (forall v w, In (v, w) (ss ++ ts) -> v < ig_num_nodes ig) ->
  exists pc' r, pc_calc_path_multiple c H pc fg ss ts = Ok (pc', r) /\ calc_path_multiple c H fg ss ts = Ok r /\
    forall p, r = Some p -> (exists w, In (sp_get_source p, w) ss) /\ (exists w, In (sp_get_target p, w) ts) /\
      exists W, walk (accepted ops) (sp_get_source p) (sp_get_target p) (sp_get_nodes p) W.
Proof.
  intros Hd Hu Hf Hp HL Hc Hs Ht Hv.
  pose proof (shape_str _ _ _ _ (prepared_shape c ops ig fg Hu Hf Hp)) as S.
  set (n := ig_num_nodes ig) in *.
  assert (forall pc, calculator c n pc -> exists pc' r, pc_calc_path_multiple c H pc fg ss ts = Ok (pc', r) /\
    forall p, r = Some p -> shape (ig_edges ig) ss ts p) as G.
  { intros pc0 Hc0. pose proof (calculator_ok _ _ _ Hc0) as Hpc.
    assert (query_ok pc0 fg ss ts) as Hq.
    { destruct Hpc as (Hpn & _). unfold query_ok. rewrite Hpn, (fs_n _ _ _ _ S).
      split; auto. split; auto. split; auto. split; intros v w Hi; apply (Hv v w), in_app_iff; auto. }
    pose proof (calc_term c H hinv HL (ig_edges ig) n fg (fun _ => False) (or_intror (conj (or_introl Hd) S)) pc0 ss ts Hpc (or_intror Hq)
      (or_intror (str_upward _ _ _ _ S)) (str_no_cycle _ _ _ _ S)) as W.
    destruct (pc_calc_path_multiple c H pc0 fg ss ts) as [[pc' r]|r|]; simpl in W; [|contradiction|contradiction].
    exists pc', r. split; auto. apply W; auto. }
  destruct (G pc Hc) as (pc' & r & E1 & R1).
  assert (calculator c n (create_calculator c fg)) as Hnew by (constructor; apply (fs_n _ _ _ _ S)).
  destruct (G _ Hnew) as (pc2 & r2 & E2 & R2).
  exists pc', r. split; auto. split.
  - unfold calc_path_multiple. rewrite E2. cbn [bind]. f_equal.
    pose proof (calc_history c H hinv HL n fg pc (create_calculator c fg) ss ts (calculator_ok _ _ _ Hc) (calculator_ok _ _ _ Hnew)) as HH.
    rewrite E1, E2 in HH. destruct HH as (HH & _). symmetry. exact HH.
  - intros p Hr. destruct (R1 p Hr) as (A & B & W & C). split; auto. split; auto. exists W.
    eapply frozen_walk; eauto.
Qed.

Lemma C69_stored_proof c ops ig fg d id e : 1 <= umax c ->
  frozen_graph c ops ig -> prepared c ig fg -> getN (fg_edges fg d) id = Some e -> edge_or_sum c (ig_edges ig) fg d e.
Proof.
  intros Hu Hf Hp He. pose proof (sh_mod _ _ _ _ (prepared_shape c ops ig fg Hu Hf Hp)) as M.
  destruct (M d id e He) as [(A & B & C)|(ei & eo & A1 & A2 & A3 & A4 & A5 & A6 & A7 & A8 & A9)].
  - left. split; auto. split; auto. destruct d; exact C.
  - right. exists ei, eo, (fe_base ei). split; auto. split; auto. unfold ends_of at 1 3. rewrite <- A5, A6, A7.
    destruct d; auto.
Qed.
