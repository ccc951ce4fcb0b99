(** * OverlayProps: preparation without search limits is the textbook procedure *)
From Verif Require Import TraceFacts OrderProps ShortcutProps GraphProps.
From Coq Require Import Permutation ZArith.
Open Scope N_scope.

Lemma first_arcs c ops ig : frozen_graph c ops ig -> ig_ok c ig ->
  exists g0, pg_from_input_graph c ig = Ok g0 /\ pg_wf (ig_num_nodes ig) g0 /\
    forall u v w, arel g0 u v w <-> first_overlay ops u v w.
Proof.
  intros (_ & Hr & Hfr) Hok. destruct (from_input_ok c ig Hok) as (g0 & Eg & W & Ha). exists g0. split; auto. split; auto.
  intros u v w. destruct (C18_proof c ops ig Hr Hfr) as (es & Ees & _ & Hes).
  unfold ig_get_edges, ig_check_frozen in Ees. rewrite Hfr in Ees. injection Ees as <-.
  unfold first_overlay. rewrite <- Hes. unfold arel. split.
  - intros (k & Hk). apply Ha in Hk. tauto.
  - intros He. exists (umax c). apply Ha. auto.
Qed.

Lemma C62_order_proof : forall c ops ig order params fg, debug_build c = true -> frozen_graph c ops ig ->
  ig_num_nodes ig <= po_max_settled_nodes_contraction_with_order params ->
  permutation_of_nodes (ig_num_nodes ig) order ->
  prepared_by_order c ig order params fg ->
  exists G l, (forall u v w, G u v w <-> first_overlay ops u v w) /\ hierarchy c G l /\ map fst l = order /\ stores fg l.
Proof.
  intros c ops ig order params fg Hd Hf Hm Hp (H & hinv & HL & E).
  assert (ig_ok c ig) as Hok by (apply (frozen_graph_ok c ops); auto; left; auto).
  destruct (first_arcs c ops ig Hf Hok) as (g0 & Eg & W & Ha). exists (arel g0).
  unfold prepare_with_order_with_params, build_with_order_with_params, ig_get_num_nodes, ig_check_frozen in E.
  rewrite (ig_ok_frozen _ _ Hok) in E. cbn [bind] in E. destruct (negb _); [discriminate|].
  apply bind_Ok in E as (f0 & En & E). apply bind_Ok in E as (f1 & E & X). injection X as <-.
  pose proof (fg_new_cap c Hd ig _ En) as Hn. unfold run_contraction_with_order in E. rewrite Eg in E. cbn [bind] in E.
  apply bind_Ok in E as ([[[f2 g2] w2] k2] & F & E).
  destruct (order_trace c H hinv Hd HL (ig_num_nodes ig) Hn _ Hm order _ _ _ _ _ _ _ _ W (ws_new_base c _) F)
    as (T & HT & Hs & HW & Hh).
  destruct (saved_stores c _ _ T _ _ En Hs E HW) as (S1 & _); [rewrite HT; auto|].
  exists (tov T). split; auto. split; auto. split; [|auto]. unfold tov. rewrite map_map. simpl. rewrite <- HT. auto.
Qed.

Lemma C62_params_proof : forall c ops ig params fg, debug_build c = true -> frozen_graph c ops ig ->
  ig_num_nodes ig <= p_max_settled_nodes_initial_relevance params ->
  ig_num_nodes ig <= p_max_settled_nodes_neighbor_relevance params ->
  ig_num_nodes ig <= p_max_settled_nodes_contraction params ->
  prepared_by_params c ig params fg ->
  exists G P l, (forall u v w, G u v w <-> first_overlay ops u v w) /\
    (forall v, v < ig_num_nodes ig -> priority c params G v 0 (P v)) /\
    greedy c params G (fun _ => 0) P (fun v => v < ig_num_nodes ig) l /\
    get_node_ordering fg = Ok (map fst l) /\ stores fg l.
Proof.
  intros c ops ig params fg Hd Hf Hm0 Hm1 Hm2 (H & hinv & Q & qinv & HL & QL & E).
  assert (ig_ok c ig) as Hok by (apply (frozen_graph_ok c ops); auto; left; auto).
  destruct (first_arcs c ops ig Hf Hok) as (g0 & Eg & W & Ha). exists (arel g0).
  unfold prepare_with_params, build_with_params, ig_get_num_nodes, ig_check_frozen in E.
  rewrite (ig_ok_frozen _ _ Hok) in E. cbn [bind] in E. apply bind_Ok in E as (f0 & En & E).
  pose proof (fg_new_cap c Hd ig _ En) as Hn. unfold run_contraction in E. rewrite Eg in E. cbn [bind] in E.
  set (n := ig_num_nodes ig) in *. apply bind_Ok in E as (s0 & F1 & E). apply bind_Ok in E as (s1 & F2 & E).
  unshelve edestruct (fun A B C => init_all c H hinv Hd HL n Hn Q qinv params QL Hm0 (rangeN 0 n) _ s0 (fun _ => 0) A B C F1)
    as (P & HT & X1 & X2 & X3 & X4 & X5 & _).
  { constructor; simpl.
    - exact W.
    - apply ws_new_base.
    - apply QL.
    - intros v p [].
    - rewrite lenN_repeat; auto.
    - intros v Hv. apply getN_repeat. auto. }
  { apply rangeN_NoDup. }
  { simpl. auto. }
  simpl in X1, X2, X3, X4, X5. rewrite app_nil_r in X4.
  unshelve edestruct (fun A B => loop_trace c H hinv Hd HL n Hn Q qinv params QL Hm0 Hm1 Hm2 _ s0 s1 (fun _ => 0) P HT A B F2)
    as (T & T1 & T2 & T3 & T4).
  { eapply Permutation_NoDup; [symmetry; exact X4|]. apply rangeN_NoDup. }
  { intros v Hv. eapply Permutation_in in Hv; [|exact X4]. apply rangeN_In in Hv. lia. }
  rewrite X1 in T1. rewrite X2, X3 in T2.
  destruct (saved_stores c n _ T _ _ En T2 E T3) as (S1 & S2).
  { split.
    - eapply Permutation_NoDup; [symmetry; exact T4|]. eapply Permutation_NoDup; [symmetry; exact X4|]. apply rangeN_NoDup.
    - intros v. split; intros Hv.
      + eapply Permutation_in in Hv; [|exact T4]. eapply Permutation_in in Hv; [|exact X4]. apply rangeN_In in Hv. lia.
      + eapply Permutation_in; [symmetry; exact T4|]. eapply Permutation_in; [symmetry; exact X4|]. apply rangeN_In. lia. }
  exists P, (tov T). split; auto. split.
  { intros v Hv. apply X5. apply rangeN_In. lia. }
  split; [|split; [|auto]].
  - eapply greedy_left; [|exact T1]. intros v. split; intros Hv.
    + eapply Permutation_in in Hv; [|exact X4]. apply rangeN_In in Hv. lia.
    + eapply Permutation_in; [symmetry; exact X4|]. apply rangeN_In. lia.
  - rewrite S2. unfold tov. rewrite map_map. simpl. auto.
Qed.

(** The specification leaves no choice in the counts. *)
Lemma number_of_unique {A} (P : A -> Prop) a b : number_of P a -> number_of P b -> a = b.
Proof.
  intros (l & Hl & Il & <-) (l' & Hl' & Il' & <-). unfold lenN. f_equal. apply Nat.le_antisymm; apply NoDup_incl_length; auto;
    intros x Hx; [apply Il', Il|apply Il, Il']; auto.
Qed.
Lemma priority_unique c params G x level p q : priority c params G x level p -> priority c params G x level q -> p = q.
Proof.
  intros (s & a & S1 & A1 & ->) (s' & a' & S2 & A2 & ->). rewrite (number_of_unique _ _ _ S1 S2), (number_of_unique _ _ _ A1 A2). auto.
Qed.
