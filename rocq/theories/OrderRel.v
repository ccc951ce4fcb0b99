(** * OrderRel: preparation with an arbitrary order, in builds with and without overflow checks *)
From Verif Require Export OrderProps RelFacts RelProps.
From Coq Require Import Lia.
Open Scope N_scope.

Lemma rrecs_centers c n E R : rrecs c n E R -> forall R1 r R2 d a, R = R1 ++ r :: R2 -> In a (carcs d r) ->
  a_center a = umax c \/ (a_center a < n /\ R1 <> []).
Proof.
  intros Hrecs R1 r R2 d a HE Ha. destruct (rr_arc _ _ _ _ _ (Hrecs _ _ _ HE) d a Ha) as (_ & _ & _ & Hp).
  unfold rpgood, rgood in Hp.
  destruct d; destruct Hp as [[-> _]|(Hk & x & ? & ? & ? & ? & Hi & _)]; auto; right; (split; [exact Hk|]); intros ->; destruct Hi.
Qed.

(** the panics a limit can cause *)
Definition limits (c : cfg) (n : N) (r : panic_reason) : Prop :=
  (r = POverflow /\ debug_build c = true) \/
  (r = PCapacity /\ (umax c / 2 < n * n \/ umax c / 2 < n + 1)).

Section AnyOrder.
  Context (c : cfg) (ops : list ig_op) (ig : InputGraph) (H : heap_ops) (hinv : list HeapItem -> Prop).
  Context (order : list N) (params : ParamsWithOrder).
  Hypothesis Hu : 1 <= umax c.
  Hypothesis Hids : debug_build c = true \/ forall e, In e (accepted ops) -> e_from e < umax c /\ e_to e < umax c.
  Hypothesis Hf : frozen_graph c ops ig.
  Hypothesis HL : heap_laws H hinv.
  Hypothesis Hl : lenN order = ig_num_nodes ig.

  Lemma any_HP (P : panic_reason -> Prop) : (forall r, limits c (ig_num_nodes ig) r -> P r) ->
    (debug_build c = false \/ P POverflow) /\
    (umax c / 2 < ig_num_nodes ig * ig_num_nodes ig \/ umax c / 2 < ig_num_nodes ig + 1 -> P PCapacity).
  Proof.
    intros HP. split.
    - destruct (debug_build c) eqn:E; [right|left; auto]. apply HP. left. auto.
    - intros HC. apply HP. right. auto.
  Qed.

  Lemma any_order_outcomes : (forall x, In x order -> x < ig_num_nodes ig) ->
    wp (fun r => not_found r \/ limits c (ig_num_nodes ig) r) (prepare_with_order_with_params c H ig order params)
       (fun r => exists fg, r = inl fg).
  Proof.
    intros Hord. pose proof (frozen_graph_ok c ops ig Hids Hf) as Hok.
    set (P := fun r => not_found r \/ limits c (ig_num_nodes ig) r).
    destruct (any_HP P (fun r X => or_intror X)) as [HP HC].
    unfold prepare_with_order_with_params, build_with_order_with_params, ig_get_num_nodes, ig_check_frozen.
    rewrite (ig_ok_frozen _ _ Hok). cbn [bind]. rewrite Hl, N.eqb_refl. cbn [negb].
    destruct (fg_new c (ig_num_nodes ig)) as [fg0|r|] eqn:Enew.
    2: { cbn [bind wp]. pose proof (r_fg_new c ig P HP HC Hu) as W. rewrite Enew in W. exact W. }
    2: { pose proof (r_fg_new c ig P HP HC Hu) as W. rewrite Enew in W. destruct W. }
    pose proof (r_fg_new c ig P HP HC Hu) as W. rewrite Enew in W. destruct W as [Hr0 Hcap]. cbn [bind].
    assert (umax c / 2 <= umax c) as Hhalf by (apply N.div_le_upper_bound; lia).
    assert (ig_num_nodes ig <= umax c) as Hn by lia.
    unfold run_contraction_with_order.
    destruct (rstate_init c ig Hok fg0 Hr0) as (g0 & -> & Hb0). cbn [bind].
    pose proof (r_contract_order c H hinv HL ig P HP HC Hu fg0 g0 order params Hn Hb0 (or_introl Hord) ltac:(lia)) as HW.
    destruct (foldM _ order _) as [[[[fg g] ws] rank]|r|] eqn:HE; cbn [bind wp] in *; [|exact HW|exact HW].
    destruct HW as (R & HR & Hb).
    eapply wp_bind_mono.
    - apply wp_weaken with (P := not_found); [intros r X; left; exact X|].
      apply (finish_total c (ig_num_nodes ig) R fg); auto.
      + apply (rt_r _ _ _ _ _ _ Hb).
      + exact (rrecs_centers _ _ _ _ (ri_rec _ _ _ _ _ (rt_b _ _ _ _ _ _ Hb))).
      + rewrite <- (lenN_map cnode), HR. auto.
      + intros v Hv Hlt. rewrite (order_ranks _ _ _ _ _ _ _ _ _ _ _ _ _ HE v); [apply (fg_new_zero _ _ _ Enew); auto|]. rewrite <- HR. auto.
    - intros fg1 _. cbn [bind]. apply wp_Ok. eauto.
  Qed.

  Lemma any_order_invalid : (exists x, In x order /\ ig_num_nodes ig <= x) ->
    wp (fun r => r = PExplicit "Order contains invalid node id" \/ limits c (ig_num_nodes ig) r)
       (prepare_with_order_with_params c H ig order params) (fun _ => False).
  Proof.
    intros Hex. pose proof (frozen_graph_ok c ops ig Hids Hf) as Hok.
    set (P := fun r => r = PExplicit "Order contains invalid node id" \/ limits c (ig_num_nodes ig) r).
    destruct (any_HP P (fun r X => or_intror X)) as [HP HC].
    destruct (first_invalid _ _ Hex) as (pre & x & post & Heq & Hx & Hpre).
    unfold prepare_with_order_with_params, build_with_order_with_params, ig_get_num_nodes, ig_check_frozen.
    rewrite (ig_ok_frozen _ _ Hok). cbn [bind]. rewrite Hl, N.eqb_refl. cbn [negb].
    eapply wp_bind_mono; [apply (r_fg_new c ig P HP HC Hu)|]. intros fg0 (Hr0 & Hcap).
    assert (umax c / 2 <= umax c) as Hhalf by (apply N.div_le_upper_bound; lia).
    assert (ig_num_nodes ig <= umax c) as Hn by lia.
    unfold run_contraction_with_order.
    destruct (rstate_init c ig Hok fg0 Hr0) as (g0 & -> & Hb0). cbn [bind].
    assert (lenN pre <= ig_num_nodes ig) as Hlp by (rewrite <- Hl, Heq, lenN_app; lia).
    pose proof (r_contract_order c H hinv HL ig P HP HC Hu fg0 g0 pre params Hn Hb0 (or_introl Hpre) Hlp) as HW.
    rewrite Heq, foldM_app.
    destruct (foldM _ pre _) as [[[[fg g] ws] rank]|r|]; cbn [bind wp foldM] in *; [|exact HW|exact HW].
    rewrite (proj2 (N.leb_le _ _) Hx). cbn [bind wp]. left. reflexivity.
  Qed.
End AnyOrder.

Lemma C09_any_build_proof : forall c ops ig H hinv order params, 1 <= umax c ->
  (debug_build c = true \/ forall e, In e (accepted ops) -> e_from e < umax c /\ e_to e < umax c) ->
  frozen_graph c ops ig -> heap_laws H hinv -> lenN order = ig_num_nodes ig ->
  ((forall x, In x order -> x < ig_num_nodes ig) ->
   (exists fg, prepare_with_order_with_params c H ig order params = Ok (inl fg)) \/
   prepare_with_order_with_params c H ig order params = Panic (PExplicit "could not find out-edge id") \/
   prepare_with_order_with_params c H ig order params = Panic (PExplicit "could not find in-edge id") \/
   (prepare_with_order_with_params c H ig order params = Panic POverflow /\ debug_build c = true) \/
   (prepare_with_order_with_params c H ig order params = Panic PCapacity /\
    (umax c / 2 < ig_num_nodes ig * ig_num_nodes ig \/ umax c / 2 < ig_num_nodes ig + 1))) /\
  ((exists x, In x order /\ ig_num_nodes ig <= x) ->
   prepare_with_order_with_params c H ig order params = Panic (PExplicit "Order contains invalid node id") \/
   (prepare_with_order_with_params c H ig order params = Panic POverflow /\ debug_build c = true) \/
   (prepare_with_order_with_params c H ig order params = Panic PCapacity /\
    (umax c / 2 < ig_num_nodes ig * ig_num_nodes ig \/ umax c / 2 < ig_num_nodes ig + 1))).
Proof.
  intros c ops ig H hinv order params Hu Hids Hf HL Hl. split; intros Ho.
  - pose proof (any_order_outcomes c ops ig H hinv order params Hu Hids Hf HL Hl Ho) as W.
    destruct (prepare_with_order_with_params c H ig order params) as [a|r|]; cbn [wp] in W.
    + destruct W as (fg & ->). left. eauto.
    + unfold not_found, limits in W. destruct W as [[-> | ->]|[[-> X]|[-> X]]]; auto 6.
    + destruct W.
  - pose proof (any_order_invalid c ops ig H hinv order params Hu Hids Hf HL Hl Ho) as W.
    destruct (prepare_with_order_with_params c H ig order params) as [a|r|]; cbn [wp] in W.
    + destruct W.
    + unfold limits in W. destruct W as [->|[[-> X]|[-> X]]]; auto 6.
    + destruct W.
Qed.
