(** * Shape: what is true of prepared graphs in both build modes, whatever the weights *)
From Verif Require Export RelFacts.
From Verif Require Export RelProps TermProps SpecTerm.
Open Scope N_scope.

Lemma base_shape c E n fg : fg_base c E n fg -> fg_shape c E n fg.
Proof.
  intros Hok. pose proof (ok_edge _ _ _ _ Hok) as HE. pose proof (ok_src _ _ _ _ Hok) as HS. destruct Hok. constructor; auto.
  - intros d id ed G. destruct (HE d id ed G) as (A & B & _ & D). auto.
  - intros d id ed G. destruct (HS d id ed G) as [S|(ei & eo & S1 & S2 & S3 & S4 & S5 & S6 & S7 & S8 & S9)]; [left; auto|].
    right. exists ei, eo. repeat split; auto. rewrite <- S8. symmetry. apply N.mod_small.
    destruct (HE d id ed G) as (_ & _ & W & _). lia.
Qed.
Lemma ok_shape c E n fg : fg_ok c E n fg -> fg_shape c E n fg.
Proof. intros Hok. apply base_shape. exact (ok_base _ _ _ _ Hok). Qed.

Lemma ordered_ranks c ops ig order params fg : 1 <= umax c -> frozen_graph c ops ig ->
  permutation_of_nodes (ig_num_nodes ig) order -> prepared_by_order c ig order params fg ->
  forall i v, getN order i = Some v -> rk fg v = i.
Proof.
  intros Hu Hf Hperm Hp.
  assert (ig_ok c ig) as Hok by (apply (prepared_ig_ok c ops ig fg Hf); right; eauto).
  destruct Hp as (H & hinv & HL & HE).
  pose proof (build_order_str c H hinv HL ig Hok (fun _ => True) (or_intror Logic.I) (fun _ => Logic.I) Hu order params (or_intror (fun _ => Logic.I))) as W.
  exact (proj2 (wp_ok _ _ _ _ W HE (proj1 Hperm) fg eq_refl)).
Qed.

Lemma shape_weight c E n fg d id ed : fg_shape c E n fg -> (forall e, In e E -> e_weight e <= umax c) ->
  getN (fg_edges fg d) id = Some ed -> fe_weight ed <= umax c.
Proof.
  intros S HE G. destruct (sh_mod _ _ _ _ S d id ed G) as [(_ & _ & I)|(ei & eo & _ & _ & _ & _ & _ & _ & _ & _ & ->)].
  - exact (HE _ I).
  - pose proof (N.mod_lt (fe_weight ei + fe_weight eo) (umax c + 1)). lia.
Qed.

(** the two ways to state the hypothesis about the platform *)
Lemma checked_umax c ops ig fg : debug_build c = true -> frozen_graph c ops ig -> prepared c ig fg -> 1 <= umax c.
Proof.
  intros Hd Hf Hp. destruct (N.le_gt_cases 1 (umax c)) as [|Hu]; auto. exfalso.
  assert (fg_new c (ig_num_nodes ig) = Panic PCapacity \/ fg_new c (ig_num_nodes ig) = Panic POverflow) as G.
  { unfold fg_new, uadd. replace (umax c) with 0 by lia. change (0 / 2) with 0.
    destruct (N.leb_spec (ig_num_nodes ig) 0); [|auto]. destruct (N.leb_spec (ig_num_nodes ig + 1) 0); [lia|].
    rewrite Hd. cbn [bind]. auto. }
  pose proof Hf as (_ & _ & Hfr).
  destruct Hp as [(ps & H & hinv & Q & qinv & HL & QL & HE)|(order & ps & Hperm & H & hinv & HL & HE)].
  - unfold prepare_with_params, build_with_params, ig_get_num_nodes, ig_check_frozen in HE. rewrite Hfr in HE. cbn [bind] in HE.
    destruct G as [G|G]; rewrite G in HE; discriminate.
  - unfold prepare_with_order_with_params, build_with_order_with_params, ig_get_num_nodes, ig_check_frozen in HE. rewrite Hfr in HE. cbn [bind] in HE.
    destruct (negb _); [discriminate|]. destruct G as [G|G]; rewrite G in HE; discriminate.
Qed.

(** every accepted call names nodes of the graph *)
Lemma prepared_nodes c ops ig fg : frozen_graph c ops ig -> prepared c ig fg ->
  forall e, In e (accepted ops) -> e_from e < ig_num_nodes ig /\ e_to e < ig_num_nodes ig.
Proof.
  intros Hf Hp e He. pose proof (prepared_ig_ok c ops ig fg Hf Hp) as Hok. destruct Hf as (_ & Hrun & _).
  destruct (run_inv c ops ig Hrun) as [HI _]. destruct (hg_dom _ _ _ HI _ He) as (e' & I & <- & <- & _).
  apply (ig_ok_edge _ _ Hok) in I. tauto.
Qed.

Lemma C68_prepared_proof c c' ops ig fg : 1 <= umax c -> frozen_graph c ops ig -> prepared c ig fg ->
  umax c' = umax c -> upward fg /\ ~ nesting_cycle c' fg.
Proof.
  intros H1 Hf Hp Hu. pose proof (str_cfg c c' _ _ _ (eq_sym Hu) (shape_str _ _ _ _ (prepared_shape c ops ig fg H1 Hf Hp))) as S.
  split; [eapply str_upward; exact S|eapply str_no_cycle; exact S].
Qed.
