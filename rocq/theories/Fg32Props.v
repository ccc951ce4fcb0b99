(** * Fg32Props: conversion to and from 32-bit integers *)
From Verif Require Export Spec32 ReleaseProps.
Open Scope N_scope.

Definition fit (c : cfg) (x : N) : Prop := x <= u32_max \/ x = umax c.
Definition to32 (c : cfg) (x : N) : N := if x =? umax c then u32_max else x.
Definition to32_edge (c : cfg) (e : FastGraphEdge) : FastGraphEdge32 :=
  mkFGE32 (to32 c (fe_base e)) (to32 c (fe_adj e)) (to32 c (fe_weight e))
          (to32 c (fe_replaced_in e)) (to32 c (fe_replaced_out e)).
Definition to32_graph (c : cfg) (fg : FastGraph) : FastGraph32 :=
  mkFG32 (to32 c (fg_num_nodes fg)) (map (to32 c) (fg_ranks fg))
         (map (to32_edge c) (fg_edges_fwd fg)) (map (to32 c) (fg_first_edge_ids_fwd fg))
         (map (to32_edge c) (fg_edges_bwd fg)) (map (to32 c) (fg_first_edge_ids_bwd fg)).

Lemma fit_dec c x : {fit c x} + {~ fit c x}.
Proof.
  unfold fit. destruct (N.eq_dec x (umax c)); [left; auto|].
  destruct (x <=? u32_max) eqn:E; [left; left; apply N.leb_le; auto|].
  right. apply N.leb_gt in E. intros [?|?]; [lia|auto].
Qed.

Lemma to_u32 k c x : u32_max < umax c ->
  (fit c x -> usize_to_u32 (S (S k)) c x = Ok (to32 c x)) /\
  (~ fit c x -> usize_to_u32 (S (S k)) c x = Panic (PExplicit "Could not convert to a 32-bit integer")).
Proof.
  intros Hc. unfold fit, to32. cbn [usize_to_u32].
  destruct (N.eqb_spec u32_max (umax c)); [lia|]. destruct (N.leb_spec u32_max u32_max); [|lia].
  destruct (N.eqb_spec x (umax c)) as [E|E]; split; intros HF; auto.
  - exfalso. apply HF. auto.
  - destruct (N.leb_spec x u32_max); auto. exfalso. destruct HF as [?|?]; [lia|auto].
  - destruct (N.leb_spec x u32_max); auto. exfalso. apply HF. auto.
Qed.

(** a conversion that succeeds on [P] with value [g] and panics otherwise *)
Definition conv {A B} (P : A -> Prop) (g : A -> B) (f : A -> res B) : Prop :=
  forall a, (P a -> f a = Ok (g a)) /\ (~ P a -> f a = Panic (PExplicit "Could not convert to a 32-bit integer")).

Lemma mapM_conv {A B} (P : A -> Prop) (Pd : forall a, {P a} + {~ P a}) (g : A -> B) f : conv P g f ->
  conv (Forall P) (map g) (mapM f).
Proof.
  intros H l. induction l as [|a l [IH1 IH2]]; simpl; split; intros HF; auto.
  - exfalso. apply HF. constructor.
  - inversion HF; subst. rewrite (proj1 (H a)) by auto. simpl. rewrite IH1 by auto. reflexivity.
  - destruct (Pd a) as [Ha|Ha]; [|rewrite (proj2 (H a)) by auto; reflexivity].
    rewrite (proj1 (H a)) by auto. simpl. rewrite IH2; auto.
Qed.

Definition fit_edge (c : cfg) (e : FastGraphEdge) : Prop := Forall (fit c) (edge_ints e).

Lemma edge_conv k c : u32_max < umax c -> conv (fit_edge c) (to32_edge c) (usize_to_u32_edge (S (S k)) c).
Proof.
  intros Hc e. unfold fit_edge, edge_ints, usize_to_u32_edge, to32_edge. split; intros HF.
  - repeat match goal with H : Forall _ (_ :: _) |- _ => inversion H; clear H; subst end.
    repeat (rewrite (proj1 (to_u32 k c _ Hc)) by assumption; cbn [bind]). reflexivity.
  - destruct e as [a b w i o]. cbn [fe_base fe_adj fe_weight fe_replaced_in fe_replaced_out] in *.
    repeat match goal with |- context [usize_to_u32 _ c ?x] =>
      let F := fresh in destruct (fit_dec c x) as [F|F];
      [rewrite (proj1 (to_u32 k c x Hc) F); cbn [bind]|rewrite (proj2 (to_u32 k c x Hc) F); reflexivity] end.
    exfalso. apply HF. repeat (apply Forall_cons; [assumption|]). constructor.
Qed.

Lemma Forall_dec' {A} (P : A -> Prop) (Pd : forall a, {P a} + {~ P a}) l : {Forall P l} + {~ Forall P l}.
Proof. apply Forall_dec. exact Pd. Qed.

Lemma graph_conv k c : u32_max < umax c ->
  conv (fun fg => Forall (fit c) (ints fg)) (to32_graph c) (fg32_new (S (S k)) c).
Proof.
  intros Hc fg. unfold ints, fg32_new, to32_graph, usize_to_u32_vec, usize_to_u32_edges.
  set (D := fit_dec c). set (De := fun e => Forall_dec' (fit c) D (edge_ints e) : {fit_edge c e} + {~ fit_edge c e}).
  pose proof (mapM_conv _ D _ _ (fun x => to_u32 k c x Hc)) as HV.
  pose proof (mapM_conv _ De _ _ (edge_conv k c Hc)) as HE.
  assert (forall l, Forall (fit c) (flat_map edge_ints l) <-> Forall (fit_edge c) l) as HFl.
  { intros l. induction l as [|e l IH]; [split; constructor|]. cbn [flat_map].
    rewrite Forall_app, IH, Forall_cons_iff. reflexivity. }
  rewrite Forall_cons_iff, !Forall_app, !HFl. split.
  - intros (H1 & H2 & H3 & H4 & H5 & H6).
    rewrite (proj1 (to_u32 k c _ Hc) H1), (proj1 (HV _) H2), (proj1 (HE _) H3), (proj1 (HV _) H4),
      (proj1 (HE _) H5), (proj1 (HV _) H6). reflexivity.
  - intros HF.
    destruct (D (fg_num_nodes fg)) as [F1|F1]; [rewrite (proj1 (to_u32 k c _ Hc) F1)|rewrite (proj2 (to_u32 k c _ Hc) F1); reflexivity].
    destruct (Forall_dec' _ D (fg_ranks fg)) as [F2|F2]; [rewrite (proj1 (HV _) F2)|rewrite (proj2 (HV _) F2); reflexivity].
    destruct (Forall_dec' _ De (fg_edges_fwd fg)) as [F3|F3]; [rewrite (proj1 (HE _) F3)|rewrite (proj2 (HE _) F3); reflexivity].
    destruct (Forall_dec' _ D (fg_first_edge_ids_fwd fg)) as [F4|F4]; [rewrite (proj1 (HV _) F4)|rewrite (proj2 (HV _) F4); reflexivity].
    destruct (Forall_dec' _ De (fg_edges_bwd fg)) as [F5|F5]; [rewrite (proj1 (HE _) F5)|rewrite (proj2 (HE _) F5); reflexivity].
    destruct (Forall_dec' _ D (fg_first_edge_ids_bwd fg)) as [F6|F6]; [rewrite (proj1 (HV _) F6)|rewrite (proj2 (HV _) F6); reflexivity].
    exfalso. apply HF. tauto.
Qed.

(** what comes back on platform [c'] *)
Definition back (c c' : cfg) (x : N) : N := u32_to_usize c' (to32 c x).
Definition back_edge (c c' : cfg) (e : FastGraphEdge) : FastGraphEdge :=
  mkFGE (back c c' (fe_base e)) (back c c' (fe_adj e)) (back c c' (fe_weight e))
        (back c c' (fe_replaced_in e)) (back c c' (fe_replaced_out e)).

Lemma convert_eq c c' fg : fg_num_nodes fg <> umax c -> fg_num_nodes fg + 1 <= umax c' / 2 ->
  fg32_convert_to_usize c' (to32_graph c fg) =
  Ok (mkFG (fg_num_nodes fg) (map (back c c') (fg_ranks fg))
       (map (back_edge c c') (fg_edges_fwd fg)) (map (back c c') (fg_first_edge_ids_fwd fg))
       (map (back_edge c c') (fg_edges_bwd fg)) (map (back c c') (fg_first_edge_ids_bwd fg))).
Proof.
  intros H1 H2. unfold fg32_convert_to_usize, to32_graph. cbn [fg32_num_nodes].
  replace (to32 c (fg_num_nodes fg)) with (fg_num_nodes fg)
    by (unfold to32; destruct (N.eqb_spec (fg_num_nodes fg) (umax c)); [contradiction|auto]).
  unfold fg_new, uadd. pose proof (N.div_le_upper_bound (umax c') 2 (umax c')).
  destruct (N.leb_spec (fg_num_nodes fg) (umax c' / 2)); [|lia].
  destruct (N.leb_spec (fg_num_nodes fg + 1) (umax c')); [|lia]. cbn [bind].
  destruct (N.leb_spec (fg_num_nodes fg + 1) (umax c' / 2)); [|lia]. cbn [bind fg_num_nodes].
  cbn [fg32_ranks fg32_edges_fwd fg32_first_edge_ids_fwd fg32_edges_bwd fg32_first_edge_ids_bwd].
  rewrite !map_map. reflexivity.
Qed.

(** the value survives unless it is 2^32-1 *)
Lemma back_lt c c' x : x < u32_max -> u32_max <= umax c -> back c c' x = x.
Proof.
  intros H1 H2. unfold back, to32, u32_to_usize. destruct (N.eqb_spec x (umax c)); [lia|].
  destruct (N.eqb_spec x u32_max); [lia|]. reflexivity.
Qed.
Lemma back_max c c' : back c c' (umax c) = umax c'.
Proof. unfold back, to32, u32_to_usize. rewrite N.eqb_refl, N.eqb_refl. reflexivity. Qed.

Lemma p64 c : platform64 c -> u32_max < umax c /\ u32_max + 1 <= umax c / 2.
Proof. unfold platform64. intros ->. vm_compute. split; [reflexivity|discriminate]. Qed.

Lemma to32_eq c fg k g : u32_max < umax c -> fg32_new (S (S k)) c fg = Ok g ->
  Forall (fit c) (ints fg) /\ g = to32_graph c fg.
Proof.
  intros Hc HE. destruct (graph_conv k c Hc fg) as [G1 G2].
  destruct (Forall_dec' _ (fit_dec c) (ints fg)) as [F|F].
  - rewrite (G1 F) in HE. injection HE as <-. auto.
  - rewrite (G2 F) in HE. discriminate.
Qed.

(** *** C28 *)
Lemma C28_proof : forall c fg, platform64 c ->
  ((exists x, In x (ints fg) /\ u32_max < x /\ x <> umax c) <->
   to_fast_graph32 c fg = Panic (PExplicit "Could not convert to a 32-bit integer")) /\
  ((forall x, In x (ints fg) -> x <= u32_max \/ x = umax c) <-> exists g, to_fast_graph32 c fg = Ok g).
Proof.
  intros c fg Hc. apply p64 in Hc. destruct Hc as [Hc _].
  unfold to_fast_graph32, u32_depth. destruct (graph_conv 0 c Hc fg) as [G1 G2].
  destruct (Forall_dec' _ (fit_dec c) (ints fg)) as [F|F].
  - rewrite (G1 F). rewrite Forall_forall in F. split; split; intros HX; eauto; try discriminate.
    destruct HX as (x & H1 & H2 & H3). destruct (F x H1) as [?|?]; [lia|contradiction].
  - rewrite (G2 F). split; split; intros HX; auto.
    + apply Exists_Forall_neg in F; [|intros x; destruct (fit_dec c x); tauto].
      apply Exists_exists in F. destruct F as (x & H1 & H2). exists x. split; auto. unfold fit in H2.
      split; [destruct (N.ltb_spec u32_max x); auto; exfalso; auto|auto].
    + exfalso. apply F. apply Forall_forall. exact HX.
    + destruct HX; discriminate.
Qed.

(** *** C27 *)
Lemma back_id c x : u32_max < umax c -> x = umax c \/ x < u32_max -> back c c x = x.
Proof. intros Hc [->|H]; [apply back_max|apply back_lt; lia]. Qed.

Lemma map_id_in {A} (f : A -> A) l : (forall x, In x l -> f x = x) -> map f l = l.
Proof. intros H. induction l; simpl; auto. rewrite H, IHl; simpl; auto. intros x Hx. apply H. simpl; auto. Qed.

Lemma C27_proof : forall c fg, platform64 c ->
  fg_get_num_nodes fg < u32_max ->
  (forall x, In x (ints fg) -> x = umax c \/ x < u32_max) ->
  exists g, to_fast_graph32 c fg = Ok g /\ from_fast_graph32 c g = Ok fg.
Proof.
  intros c fg Hc Hn HI. apply p64 in Hc. destruct Hc as [Hc Hc2]. unfold fg_get_num_nodes in Hn.
  exists (to32_graph c fg). split.
  - apply (graph_conv 0 c Hc fg). apply Forall_forall. intros x Hx. destruct (HI x Hx); [right; auto|left; lia].
  - unfold from_fast_graph32. rewrite convert_eq by lia.
    assert (forall x, In x (ints fg) -> back c c x = x) as HB by (intros; apply back_id; auto).
    assert (forall l, (forall x, In x (flat_map edge_ints l) -> In x (ints fg)) -> map (back_edge c c) l = l) as HE.
    { intros l Hl. apply map_id_in. intros [a b w i o] He. unfold back_edge; simpl.
      assert (forall x, In x (edge_ints (mkFGE a b w i o)) -> back c c x = x) as H5.
      { intros x Hx. apply HB, Hl. apply in_flat_map. eauto. }
      rewrite !H5 by (simpl; tauto). reflexivity. }
    unfold ints in *.
    rewrite !HE by (intros x Hx; right; rewrite !in_app_iff; tauto).
    rewrite !map_id_in by (intros x Hx; apply HB; right; rewrite !in_app_iff; tauto).
    destruct fg; reflexivity.
Qed.

(** *** C29 *)
Lemma NoDup_map_in {A B} (f : A -> B) l : NoDup l -> (forall x y, In x l -> In y l -> f x = f y -> x = y) ->
  NoDup (map f l).
Proof.
  induction 1 as [|a l Hn Hd IH]; intros HI; simpl; constructor.
  - intros HX. apply in_map_iff in HX. destruct HX as (y & Hy & HIn). apply Hn.
    rewrite <- (HI y a); simpl; auto.
  - apply IH. intros x y Hx Hy. apply HI; simpl; auto.
Qed.

Lemma NoDup_range k : forall b, NoDup (range_from k b).
Proof.
  induction k as [|k IH]; intros b; simpl; constructor; auto.
  intros HX. assert (forall k b x, In x (range_from k b) -> b <= x) as HB.
  { clear. induction k as [|k IH]; intros b x; simpl; [tauto|]. intros [->|H]; [lia|]. apply IH in H. lia. }
  apply HB in HX. lia.
Qed.

(** integers of a prepared graph *)
Lemma ints_cases c E n fg : fg_shape c E n fg ->
  (forall x, In x (fg_ranks fg) -> x < n) /\ (forall d x, In x (fg_first_edge_ids fg d) -> x <= lenN (fg_edges fg d)) /\
  (forall d e, In e (fg_edges fg d) -> fe_base e < n /\ fe_adj e < n /\
  ((fe_replaced_in e = umax c /\ fe_replaced_out e = umax c) \/
      (fe_replaced_in e < lenN (fg_edges fg Bwd) /\ fe_replaced_out e < lenN (fg_edges fg Fwd)))).
Proof.
  intros Hok. split; [|split].
  - intros x Hx. destruct (In_getN _ _ Hx) as (i & Hi & Hg). rewrite (sh_lr _ _ _ _ Hok) in Hi.
    pose proof (sh_rank _ _ _ _ Hok i Hi) as HR. unfold rk in HR. rewrite Hg in HR. exact HR.
  - intros d x Hx. destruct (In_getN _ _ Hx) as (i & Hi & Hg). rewrite (sh_lf _ _ _ _ Hok d) in Hi.
    destruct (N.eq_dec i n) as [->|Hne]; [rewrite (sh_last _ _ _ _ Hok d) in Hg; injection Hg as <-; lia|].
    assert (i < n) as Hin by lia.
    assert (In i (map (rk fg) (rangeN 0 n))) as HI.
    { apply (NoDup_cover _ n); auto.
      - apply NoDup_map_in; [apply NoDup_range|]. intros a b Ha Hb. apply rangeN_In in Ha, Hb.
        apply (sh_inj _ _ _ _ Hok); lia.
      - intros y Hy. apply in_map_iff in Hy. destruct Hy as (v & <- & Hv). apply rangeN_In in Hv.
        apply (sh_rank _ _ _ _ Hok). lia.
      - rewrite lenN_map, lenN_rangeN. lia. }
    apply in_map_iff in HI. destruct HI as (v & Hr & Hv). apply rangeN_In in Hv.
    destruct (sh_slice _ _ _ _ Hok d v ltac:(lia)) as (b0 & e0 & (r & S1 & S2 & S3) & S4).
    unfold rk in Hr. rewrite S1 in Hr. subst r. replace x with b0 by congruence. lia.
  - intros d e He. destruct (In_getN _ _ He) as (i & _ & Hi).
    destruct (sh_edge _ _ _ _ Hok d i e Hi) as (E1 & E2 & _). split; [auto|]. split; [auto|].
    destruct (sh_mod _ _ _ _ Hok d i e Hi) as [(S1 & S2 & _)|(ei & eo & _ & _ & S3 & S4 & _)]; [auto|].
    apply getN_Some_lt in S3, S4. right. lia.
Qed.

Lemma ints_bound c E n fg b : fg_shape c E n fg -> values_below b fg ->
  forall x, In x (ints fg) -> x = umax c \/ x < b.
Proof.
  intros Hok (H1 & H2 & H3 & H4) x. unfold fg_get_num_nodes, fg_get_num_out_edges, fg_get_num_in_edges in *.
  destruct (ints_cases c E n fg Hok) as (C1 & C2 & C3).
  pose proof (C2 Fwd) as C2f. pose proof (C2 Bwd) as C2b. pose proof (C3 Fwd) as C3f. pose proof (C3 Bwd) as C3b.
  cbn [fg_edges fg_first_edge_ids] in *. rewrite (sh_n _ _ _ _ Hok) in H1.
  unfold all_edges in H4. unfold ints. intros [<-|Hx]; [rewrite (sh_n _ _ _ _ Hok); auto|].
  assert (forall e, In e (fg_edges_fwd fg ++ fg_edges_bwd fg) -> In x (edge_ints e) -> x = umax c \/ x < b) as HEd.
  { intros e He Hi. specialize (H4 e He).
    assert (fe_base e < n /\ fe_adj e < n /\
  ((fe_replaced_in e = umax c /\ fe_replaced_out e = umax c) \/
      (fe_replaced_in e < lenN (fg_edges_bwd fg) /\ fe_replaced_out e < lenN (fg_edges_fwd fg)))) as (E1 & E2 & E3).
    { apply in_app_or in He. destruct He; auto. }
    unfold edge_ints in Hi. simpl in Hi. destruct Hi as [<-|[<-|[<-|[<-|[<-|[]]]]]]; lia. }
  rewrite !in_app_iff, !in_flat_map in Hx.
  destruct Hx as [Hx|[(e & He & Hx)|[Hx|[(e & He & Hx)|Hx]]]].
  - apply C1 in Hx. right; lia.
  - apply (HEd e); auto. apply in_or_app; auto.
  - apply C2f in Hx. right; lia.
  - apply (HEd e); auto. apply in_or_app; auto.
  - apply C2b in Hx. right; lia.
Qed.

Lemma C29_proof : forall c ops ig fg,
  platform64 c -> frozen_graph c ops ig -> prepared c ig fg ->
  values_below (2 ^ 32 - 1) fg ->
  exists g, to_fast_graph32 c fg = Ok g /\ from_fast_graph32 c g = Ok fg.
Proof.
  intros c ops ig fg Hc Hf Hp HV. assert (1 <= umax c) as Hu by (apply p64 in Hc; lia).
  pose proof (prepared_shape c ops ig fg Hu Hf Hp) as Hok.
  change (2 ^ 32 - 1) with u32_max in HV. apply C27_proof; auto.
  - apply HV.
  - eapply ints_bound; eauto.
Qed.

(** *** other platforms *)
Section Cross.
  Variables (c c' : cfg) (E : list Edge) (n : N) (fg : FastGraph).
  Hypothesis Hok : fg_ok c E n fg.
  Hypothesis Hlow : values_below u32_max fg.
  Hypothesis Hc : u32_max <= umax c.
  Hypothesis Hc' : u32_max <= umax c' <= umax c.
  Hypothesis Hn' : n + 1 <= umax c' / 2.
  Hypothesis HL' : forall d, lenN (fg_edges fg d) <= umax c' / 2.

  Let fg' : FastGraph := mkFG (fg_num_nodes fg) (map (back c c') (fg_ranks fg))
       (map (back_edge c c') (fg_edges_fwd fg)) (map (back c c') (fg_first_edge_ids_fwd fg))
       (map (back_edge c c') (fg_edges_bwd fg)) (map (back c c') (fg_first_edge_ids_bwd fg)).

  Lemma low_n : n < u32_max.
  Proof. destruct Hlow as (H & _). unfold fg_get_num_nodes in H. rewrite (ok_n _ _ _ _ Hok) in H. auto. Qed.
  Lemma low_len d : lenN (fg_edges fg d) < u32_max.
  Proof. destruct Hlow as (_ & H1 & H2 & _). destruct d; auto. Qed.
  Lemma low_w d e : In e (fg_edges fg d) -> fe_weight e < u32_max.
  Proof. destruct Hlow as (_ & _ & _ & H). intros He. apply H. unfold all_edges. apply in_or_app. destruct d; auto. Qed.

  Lemma cross_ranks : fg_ranks fg' = fg_ranks fg.
  Proof.
    unfold fg'; simpl. apply map_id_in. intros x Hx. apply back_lt; auto.
    destruct (ints_cases _ _ _ _ (ok_shape _ _ _ _ Hok)) as (C1 & _). apply C1 in Hx. pose proof low_n. lia.
  Qed.
  Lemma cross_first d : fg_first_edge_ids fg' d = fg_first_edge_ids fg d.
  Proof.
    assert (map (back c c') (fg_first_edge_ids fg d) = fg_first_edge_ids fg d) as HX.
    { apply map_id_in. intros x Hx. apply back_lt; auto.
      destruct (ints_cases _ _ _ _ (ok_shape _ _ _ _ Hok)) as (_ & C2 & _). apply C2 in Hx. pose proof (low_len d). lia. }
    destruct d; exact HX.
  Qed.
  Lemma cross_edges d : fg_edges fg' d = map (back_edge c c') (fg_edges fg d).
  Proof. destruct d; reflexivity. Qed.
  Lemma cross_rk v : rk fg' v = rk fg v.
  Proof. unfold rk. rewrite cross_ranks. reflexivity. Qed.
  Lemma cross_slice d v b e : slice fg' d v b e <-> slice fg d v b e.
  Proof. unfold slice. rewrite cross_ranks, cross_first. tauto. Qed.
  Lemma getN_map {A B} (f : A -> B) l : forall i, getN (map f l) i = option_map f (getN l i).
  Proof. induction l as [|a l IH]; intros i; simpl; auto. destruct (i =? 0); auto. Qed.
  Lemma back_fields d e : In e (fg_edges fg d) ->
    fe_base (back_edge c c' e) = fe_base e /\ fe_adj (back_edge c c' e) = fe_adj e /\
  fe_weight (back_edge c c' e) = fe_weight e /\
  ((fe_replaced_in e = umax c /\ fe_replaced_out e = umax c /\
  fe_replaced_in (back_edge c c' e) = umax c' /\ fe_replaced_out (back_edge c c' e) = umax c') \/
     (fe_replaced_in e <> umax c /\ fe_replaced_out e <> umax c /\
  fe_replaced_in (back_edge c c' e) = fe_replaced_in e /\ fe_replaced_out (back_edge c c' e) = fe_replaced_out e /\
  fe_replaced_in e <> umax c' /\ fe_replaced_out e <> umax c')).
  Proof.
    intros He. destruct (ints_cases _ _ _ _ (ok_shape _ _ _ _ Hok)) as (_ & _ & C3). destruct (C3 d e He) as (C4 & C5 & C6).
    pose proof low_n. pose proof (low_len Fwd). pose proof (low_len Bwd). pose proof (low_w d e He).
    unfold back_edge; simpl. rewrite !back_lt by lia. split; auto. split; auto. split; auto.
    destruct C6 as [[-> ->]|[C7 C8]].
    - left. rewrite !back_max. auto.
    - right. rewrite !back_lt by lia. repeat split; auto; lia.
  Qed.
  Lemma cross_get d id ed : getN (fg_edges fg' d) id = Some ed ->
    exists e, getN (fg_edges fg d) id = Some e /\ ed = back_edge c c' e.
  Proof.
    rewrite cross_edges, getN_map. destruct (getN (fg_edges fg d) id) as [e|]; simpl; [|discriminate].
    intros [= <-]. eauto.
  Qed.
  Lemma cross_up d u v w : up fg d u v w -> up fg' d u v w.
  Proof.
    intros (id & ed & H1 & H2 & H3 & H4). exists id, (back_edge c c' ed).
    destruct (back_fields d ed (getN_In _ _ _ H1)) as (B1 & B2 & B3 & _).
    rewrite cross_edges, getN_map, H1, B1, B2, B3. auto.
  Qed.

  Lemma cross_ok : fg_ok c' E n fg'.
  Proof.
    assert (forall d, lenN (fg_edges fg' d) = lenN (fg_edges fg d)) as HLe
      by (intros d; rewrite cross_edges, lenN_map; auto).
    constructor; [constructor|].
    - exact (ok_n _ _ _ _ Hok).
    - auto.
    - rewrite cross_ranks. apply (ok_lr _ _ _ _ Hok).
    - intros v. rewrite cross_rk. apply (ok_rank _ _ _ _ Hok).
    - intros u v. rewrite !cross_rk. apply (ok_inj _ _ _ _ Hok).
    - intros d. rewrite cross_first. apply (ok_lf _ _ _ _ Hok).
    - intros d. rewrite cross_first. apply (ok_first _ _ _ _ Hok).
    - intros d. rewrite cross_first, HLe. apply (ok_last _ _ _ _ Hok).
    - intros d v Hv. destruct (ok_slice _ _ _ _ Hok d v Hv) as (b & e & S1 & S2). exists b, e.
      rewrite cross_slice, HLe. auto.
    - intros d id ed v b e Hg Hs. apply cross_get in Hg. destruct Hg as (e0 & Hg & ->). apply cross_slice in Hs.
      destruct (back_fields d e0 (getN_In _ _ _ Hg)) as (B1 & _). rewrite B1. eapply (ok_iff _ _ _ _ Hok); eauto.
    - intros d id ed Hg. apply cross_get in Hg. destruct Hg as (e0 & Hg & ->).
      destruct (back_fields d e0 (getN_In _ _ _ Hg)) as (B1 & B2 & B3 & _). rewrite B1, B2, B3, !cross_rk.
      destruct (ok_edge _ _ _ _ Hok d id e0 Hg) as (F1 & F2 & F3 & F4).
      pose proof (low_w d e0 (getN_In _ _ _ Hg)). repeat split; auto; lia.
    - intros d i1 e1 i2 e2 G1 G2. apply cross_get in G1, G2. destruct G1 as (f1 & G1 & ->), G2 as (f2 & G2 & ->).
      destruct (back_fields d f1 (getN_In _ _ _ G1)) as (B1 & B2 & _).
      destruct (back_fields d f2 (getN_In _ _ _ G2)) as (B3 & B4 & _). rewrite B1, B2, B3, B4.
      eapply (ok_uniq _ _ _ _ Hok); eauto.
    - intros d id ed Hg. apply cross_get in Hg. destruct Hg as (e0 & Hg & ->).
      destruct (back_fields d e0 (getN_In _ _ _ Hg)) as (B1 & B2 & B3 & B4). unfold edge_src.
      rewrite B1, B2, B3.
      destruct (ok_src _ _ _ _ Hok d id e0 Hg) as [(S1 & S2 & S3)|(ei & eo & S1 & S2 & S3 & S4 & S5 & S6 & S7 & S8 & S9)].
      + destruct B4 as [(_ & _ & -> & ->)|(X & _)]; [|contradiction]. left. auto.
      + destruct B4 as [(X & _)|(_ & _ & -> & -> & X1 & X2)]; [contradiction|]. right.
        exists (back_edge c c' ei), (back_edge c c' eo).
        destruct (back_fields Bwd ei (getN_In _ _ _ S3)) as (A1 & A2 & A3 & _).
        destruct (back_fields Fwd eo (getN_In _ _ _ S4)) as (D1 & D2 & D3 & _).
        rewrite !cross_edges, !getN_map, S3, S4, !cross_rk, A1, A2, A3, D1, D2, D3. simpl. repeat split; auto.
    - intros d. rewrite HLe. auto.
    - intros u v W HP HW. destruct (ok_complete _ _ _ _ Hok u v W HP) as (m & W1 & W2 & P1 & P2 & P3); [lia|].
      assert (forall d u v W, path (up fg d) u v W -> path (up fg' d) u v W) as HPm.
      { intros d x y Z HZ. induction HZ; econstructor; eauto. apply cross_up; auto. }
      exists m, W1, W2. split; [|split; [|auto]].
      + exact (HPm Fwd _ _ _ P1).
      + exact (HPm Bwd _ _ _ P2).
  Qed.
End Cross.

Lemma answer_fg_ok c E n fg ss ts r : debug_build c = true -> fg_ok c E n fg -> answer_multi c fg ss ts r ->
  answer_ok c E ss ts r.
Proof.
  intros Hd Hok Ha. destruct (answer_multi_pc _ _ _ _ _ Ha) as (H & hinv & m & pc & pc' & HL & Hc & HE).
  pose proof (query_checks _ _ _ _ _ _ _ HE) as Hq. pose proof (calculator_ok _ _ _ Hc) as Hpc.
  assert (m = n) as ->.
  { destruct Hq as [Hq _]. rewrite (ok_n _ _ _ _ Hok) in Hq. destruct Hpc as [Hpc _]. congruence. }
  pose proof (calc_general c _ _ fg H hinv pc ss ts HL Hd Hok Hpc Hq) as HW.
  exact (proj2 (wp_ok _ _ _ _ HW HE)).
Qed.

(** over the edges the user added *)
Lemma answer_ok_accepted c0 c ops ig ss ts r : frozen_graph c0 ops ig ->
  answer_ok c (ig_edges ig) ss ts r -> answer_ok c (accepted ops) ss ts r.
Proof.
  intros Hf HA.
  assert (forall s t ns W, total (accepted ops) ss ts s t ns W ->
     exists W', total (ig_edges ig) ss ts s t ns W' /\ W' <= W) as Hd1.
  { intros s t ns W (sw & tw & W0 & H1 & H2 & H3 & ->).
    destruct (accepted_walk c0 ops ig s t ns W0 Hf H3) as (W' & H4 & H5).
    exists (sw + W' + tw). split; [exists sw, tw, W'; auto|lia]. }
  destruct r as [sp|]; simpl in *.
  - destruct HA as ((sw & tw & W0 & H1 & H2 & H3 & H4) & Hlt & Hmin). split; [|split; [auto|]].
    + exists sw, tw, W0. split; auto. split; auto. split; auto. eapply frozen_walk; eauto.
    + intros s t ns W HT. destruct (Hd1 _ _ _ _ HT) as (W' & HT' & HL). specialize (Hmin _ _ _ _ HT'). lia.
  - intros s t ns W HT. destruct (Hd1 _ _ _ _ HT) as (W' & HT' & HL). specialize (HA _ _ _ _ HT'). lia.
Qed.

(** *** C40 *)
Lemma C40_proof : forall c c' ops ig fg,
  platform64 c -> debug_build c = true -> frozen_graph c ops ig -> prepared c ig fg ->
  platform32 c' -> debug_build c' = true ->
  values_below (2 ^ 32 - 1) fg ->
  fg_get_num_nodes fg < 2 ^ 31 - 1 -> fg_get_num_out_edges fg < 2 ^ 31 - 1 -> fg_get_num_in_edges fg < 2 ^ 31 - 1 ->
  exists g fg', to_fast_graph32 c fg = Ok g /\ from_fast_graph32 c' g = Ok fg' /\
    (forall sources targets r, answer_multi c' fg' sources targets r ->
      match r with
      | Some p =>
          sp_get_weight p < WEIGHT_MAX c' /\
          total (accepted ops) sources targets (sp_get_source p) (sp_get_target p) (sp_get_nodes p) (sp_get_weight p) /\
          (forall s t ns W, total (accepted ops) sources targets s t ns W -> sp_get_weight p <= W)
      | None => forall s t ns W, total (accepted ops) sources targets s t ns W -> WEIGHT_MAX c' <= W
      end) /\
    (forall H hinv s t, heap_laws H hinv -> s < ig_num_nodes ig -> t < ig_num_nodes ig ->
       (exists r, calc_path c' H fg' s t = Ok r) \/ calc_path c' H fg' s t = Panic POverflow).
Proof.
  intros c c' ops ig fg Hc Hd Hf Hp Hc' Hd' HV Hn H1 H2.
  pose proof (prepared_ok c ops ig fg Hd Hf Hp) as Hok. change (2 ^ 32 - 1) with u32_max in HV.
  apply p64 in Hc. destruct Hc as [Hc Hc2].
  assert (umax c' = u32_max) as Hu by exact Hc'.
  assert (umax c' / 2 = 2 ^ 31 - 1) as Hu2 by (rewrite Hu; vm_compute; reflexivity).
  unfold fg_get_num_nodes, fg_get_num_out_edges, fg_get_num_in_edges in *.
  pose proof (ok_n _ _ _ _ Hok) as Hnn.
  assert (n_lt : fg_num_nodes fg < u32_max) by apply HV.
  exists (to32_graph c fg). eexists. split; [|split; [|split]].
  - apply (graph_conv 0 c Hc fg). apply Forall_forall. intros x Hx.
    destruct (ints_bound _ _ _ _ _ (ok_shape _ _ _ _ Hok) HV x Hx); [right; auto|left; lia].
  - unfold from_fast_graph32. apply convert_eq; lia.
  - intros ss ts r Ha.
    pose proof (cross_ok c c' _ _ fg Hok HV ltac:(lia) ltac:(lia) ltac:(lia) ltac:(intros []; simpl; lia)) as Hok'.
    pose proof (answer_ok_accepted c c' ops ig ss ts r Hf (answer_fg_ok c' _ _ _ ss ts r Hd' Hok' Ha)) as HA.
    destruct r as [p|]; [|exact HA]. destruct HA as (A1 & A2 & A3). split; [exact A2|]. split; [exact A1|exact A3].
  - intros H hinv s t HL Hs Ht.
    pose proof (cross_ok c c' _ _ fg Hok HV ltac:(lia) ltac:(lia) ltac:(lia) ltac:(intros []; simpl; lia)) as Hok'.
    match type of Hok' with fg_ok _ _ _ ?f => set (fg' := f) in * end.
    assert (pc_ok (ig_num_nodes ig) (create_calculator c' fg')) as Hpc.
    { unfold create_calculator, fg_get_num_nodes. rewrite (ok_n _ _ _ _ Hok'). apply pc_new_ok. }
    pose proof (calc_general c' _ _ fg' H hinv (create_calculator c' fg') [(s, 0)] [(t, 0)] HL Hd' Hok' Hpc) as HW.
    unfold calc_path, pc_calc_path.
    destruct (pc_calc_path_multiple c' H (create_calculator c' fg') fg' [(s, 0)] [(t, 0)]) as [[pc' r]|p|]; simpl in HW.
    + left. exists r. reflexivity.
    + right. assert (ovf True p) as HO.
      { apply HW. split; [reflexivity|]. split; [discriminate|]. split; [discriminate|].
        rewrite (proj1 Hpc). split; intros v w [HI|[]]; congruence. }
      destruct p; simpl in HO; try tauto; try reflexivity.
    + exfalso. apply HW. split; [reflexivity|]. split; [discriminate|]. split; [discriminate|].
        rewrite (proj1 Hpc). split; intros v w [HI|[]]; congruence.
Qed.

(** *** C30 *)
Lemma conv32 fuel c x : umax c = u32_max -> x <= u32_max ->
  (x <> u32_max -> usize_to_u32 (S fuel) c x = Ok x) /\ (usize_to_u32 fuel c u32_max = Diverge).
Proof.
  intros Hc Hx. split.
  - intros Hne. cbn [usize_to_u32]. rewrite Hc. destruct (N.eqb_spec x u32_max); [contradiction|].
    destruct (N.leb_spec x u32_max); [auto|lia].
  - induction fuel as [|f IH]; auto. cbn [usize_to_u32]. rewrite Hc, N.eqb_refl. exact IH.
Qed.

Definition no_panic {A} (m : res A) : Prop := match m with Panic _ => False | _ => True end.
Lemma bind_np {A B} (m : res A) (k : A -> res B) : no_panic m -> (forall a, m = Ok a -> no_panic (k a)) -> no_panic (bind m k).
Proof. destruct m; simpl; auto; tauto. Qed.
Lemma bind_div {A B} (m : res A) (k : A -> res B) : no_panic m -> (forall a, m = Ok a -> k a = Diverge) -> bind m k = Diverge.
Proof. destruct m; simpl; auto; tauto. Qed.
Lemma conv_np fuel c x : umax c = u32_max -> x <= u32_max -> no_panic (usize_to_u32 fuel c x).
Proof.
  intros Hc Hx. destruct fuel as [|f]; [exact I|].
  destruct (N.eq_dec x u32_max) as [->|Hne]; [rewrite (proj2 (conv32 _ c 0 Hc ltac:(lia))); exact I|].
  rewrite (proj1 (conv32 f c x Hc Hx) Hne). exact I.
Qed.
Lemma mapM_np {A B} (f : A -> res B) l : (forall a, In a l -> no_panic (f a)) -> no_panic (mapM f l).
Proof.
  induction l as [|a l IH]; intros H; simpl; [exact I|]. apply bind_np; [apply H; simpl; auto|]. intros b _.
  apply bind_np; [apply IH; intros; apply H; simpl; auto|]. intros; exact I.
Qed.
Lemma mapM_div {A B} (f : A -> res B) l a : (forall a, In a l -> no_panic (f a)) -> In a l -> f a = Diverge ->
  mapM f l = Diverge.
Proof.
  induction l as [|x l IH]; intros H Hi Ha; [destruct Hi|]. destruct Hi as [->|Hi]; simpl; [rewrite Ha; auto|].
  apply bind_div; [apply H; simpl; auto|]. intros b _. rewrite IH; auto. intros; apply H; simpl; auto.
Qed.
Lemma edge_np fuel c e : umax c = u32_max -> (forall x, In x (edge_ints e) -> x <= u32_max) ->
  no_panic (usize_to_u32_edge fuel c e) /\
  (fe_replaced_in e = u32_max -> usize_to_u32_edge fuel c e = Diverge).
Proof.
  intros Hc Hx. unfold usize_to_u32_edge. unfold edge_ints in Hx. split.
  - repeat (apply bind_np; [apply conv_np; auto; apply Hx; simpl; tauto|intros ? _]). exact I.
  - intros Hr. do 3 (apply bind_div; [apply conv_np; auto; apply Hx; simpl; tauto|intros ? _]).
    rewrite Hr, (proj2 (conv32 fuel c 0 Hc ltac:(lia))). reflexivity.
Qed.

(** any stored edge leads to an original one *)
Lemma original_edge c E n fg : fg_shape c E n fg -> all_edges fg <> [] ->
  exists d e, In e (fg_edges fg d) /\ fe_replaced_in e = umax c.
Proof.
  intros Hok Hne.
  assert (forall k d id e, getN (fg_edges fg d) id = Some e -> rk fg (fe_base e) < N.of_nat k ->
    exists d e, In e (fg_edges fg d) /\ fe_replaced_in e = umax c) as HI.
  { induction k as [|k IH]; intros d id e Hg Hr; [lia|].
    destruct (sh_mod _ _ _ _ Hok d id e Hg) as [(S1 & _)|(ei & eo & _ & _ & S3 & _ & _ & _ & _ & S9 & _)].
    - exists d, e. split; auto. eapply getN_In; eauto.
    - eapply IH; [exact S3|]. lia. }
  assert (exists d e, In e (fg_edges fg d)) as (d & e & He).
  { unfold all_edges in Hne. destruct (fg_edges_fwd fg) as [|e l] eqn:E1.
    - destruct (fg_edges_bwd fg) as [|e l] eqn:E2; [exfalso; apply Hne; reflexivity|]. exists Bwd, e. simpl. rewrite E2. simpl; auto.
    - exists Fwd, e. simpl. rewrite E1. simpl; auto. }
  destruct (In_getN _ _ He) as (id & _ & Hg). apply (HI (S (N.to_nat (rk fg (fe_base e)))) d id e Hg). lia.
Qed.

Lemma C30_proof : forall c ops ig fg,
  platform32 c -> frozen_graph c ops ig -> prepared c ig fg ->
  (all_edges fg = [] -> exists g, to_fast_graph32 c fg = Ok g /\ from_fast_graph32 c g = Ok fg) /\
  (all_edges fg <> [] -> forall depth, fg32_new depth c fg = Diverge).
Proof.
  intros c ops ig fg Hc Hf Hp. assert (umax c = u32_max) as Hu by exact Hc.
  assert (1 <= umax c) as Hu1 by (rewrite Hu; vm_compute; discriminate).
  pose proof (prepared_shape c ops ig fg Hu1 Hf Hp) as Hok.
  destruct (ints_cases _ _ _ _ Hok) as (C1 & C2 & C3).
  pose proof (sh_cap _ _ _ _ Hok) as Hcap. rewrite Hu in Hcap. change (u32_max / 2) with 2147483647 in Hcap.
  pose proof (sh_n _ _ _ _ Hok) as Hn. split.
  - intros HE. unfold all_edges in HE. apply app_eq_nil in HE. destruct HE as [EF EB].
    pose proof (C2 Fwd) as C2f. pose proof (C2 Bwd) as C2b. simpl in C2f, C2b. rewrite EF in C2f. rewrite EB in C2b.
    unfold lenN in C2f, C2b; simpl in C2f, C2b.
    assert (forall l, (forall x, In x l -> x < u32_max) -> mapM (usize_to_u32 2 c) l = Ok l) as HM.
    { induction l as [|x l IH]; intros Hl; [reflexivity|]. cbn [mapM].
      assert (x < u32_max) by (apply Hl; simpl; auto).
      rewrite (proj1 (conv32 1 c x Hu ltac:(lia))) by lia. cbn [bind].
      rewrite IH by (intros; apply Hl; simpl; auto). reflexivity. }
    assert (forall l, (forall x, In x l -> x < u32_max) -> map (u32_to_usize c) l = l) as HU.
    { intros l Hl. apply map_id_in. intros x Hx. apply Hl in Hx. unfold u32_to_usize.
      destruct (N.eqb_spec x u32_max); [lia|auto]. }
    exists (mkFG32 (fg_num_nodes fg) (fg_ranks fg) [] (fg_first_edge_ids_fwd fg) [] (fg_first_edge_ids_bwd fg)).
    assert (Hu32 : u32_max = 4294967295) by reflexivity.
    split.
    + unfold to_fast_graph32, fg32_new, u32_depth, usize_to_u32_vec, usize_to_u32_edges.
      rewrite (proj1 (conv32 1 c (fg_num_nodes fg) Hu ltac:(lia))) by lia. cbn [bind].
      rewrite !HM; [rewrite EF, EB; reflexivity| | |].
      * intros x Hx. apply C2b in Hx. lia.
      * intros x Hx. apply C2f in Hx. lia.
      * intros x Hx. apply C1 in Hx. lia.
    + unfold from_fast_graph32, fg32_convert_to_usize. simpl. unfold fg_new, uadd. rewrite Hu.
      change (u32_max / 2) with 2147483647. destruct (N.leb_spec (fg_num_nodes fg) 2147483647); [|lia].
      destruct (N.leb_spec (fg_num_nodes fg + 1) u32_max); [|lia]. cbn [bind].
      destruct (N.leb_spec (fg_num_nodes fg + 1) 2147483647); [|lia]. cbn [bind fg_num_nodes].
      rewrite !HU; [rewrite <- EF at 1; rewrite <- EB; destruct fg; reflexivity| | |].
      * intros x Hx. apply C2b in Hx. lia.
      * intros x Hx. apply C2f in Hx. lia.
      * intros x Hx. apply C1 in Hx. lia.
  - intros HE k. destruct (original_edge c _ _ fg Hok HE) as (d & e & He & Hr). rewrite Hu in Hr.
    pose proof (sh_len _ _ _ _ Hok) as HL. rewrite Hu in HL. change (u32_max / 2) with 2147483647 in HL.
    assert (Hu32 : u32_max = 4294967295) by reflexivity.
    assert (forall d e, In e (fg_edges fg d) -> forall x, In x (edge_ints e) -> x <= u32_max) as HX.
    { intros d' e' He' x Hx. destruct (C3 d' e' He') as (D1 & D2 & D3).
      destruct (In_getN _ _ He') as (id & _ & Hg).
      assert (fe_weight e' <= umax c) as F3.
      { apply (shape_weight c _ _ fg d' id e' Hok); auto. intros e0 He0. apply (ig_ok_edge _ _ (prepared_ig_ok c ops ig fg Hf Hp)) in He0. tauto. } pose proof (HL Fwd). pose proof (HL Bwd).
      unfold edge_ints in Hx. simpl in Hx. destruct Hx as [<-|[<-|[<-|[<-|[<-|[]]]]]]; lia. }
    assert (forall d, no_panic (mapM (usize_to_u32_edge k c) (fg_edges fg d))) as HN.
    { intros d'. apply mapM_np. intros e' He'. apply (edge_np k c e' Hu). eauto. }
    assert (mapM (usize_to_u32_edge k c) (fg_edges fg d) = Diverge) as HD.
    { apply (mapM_div _ _ e); auto.
      - intros e' He'. apply (edge_np k c e' Hu). eauto.
      - apply (edge_np k c e Hu); eauto. }
    assert (forall d, no_panic (mapM (usize_to_u32 k c) (fg_first_edge_ids fg d))) as HF.
    { intros d'. apply mapM_np. intros x Hx. apply conv_np; auto. apply C2 in Hx. specialize (HL d'). lia. }
    unfold fg32_new, usize_to_u32_vec, usize_to_u32_edges.
    apply bind_div; [apply conv_np; auto; lia|]. intros ? _.
    apply bind_div; [apply mapM_np; intros x Hx; apply conv_np; auto; apply C1 in Hx; lia|]. intros ? _.
    destruct d; simpl in HD; [rewrite HD; reflexivity|].
    apply bind_div; [exact (HN Fwd)|]. intros ? _.
    apply bind_div; [exact (HF Fwd)|]. intros ? _. rewrite HD. reflexivity.
Qed.

Lemma C28_value_proof : forall c fg g, platform64 c -> to_fast_graph32 c fg = Ok g ->
  ints32 g = map (fun x => if x =? umax c then u32_max else x) (ints fg).
Proof.
  intros c fg g Hc HE. apply p64 in Hc. destruct Hc as [Hc _].
  destruct (to32_eq c fg 0 g Hc HE) as [_ ->]. change (fun x => if x =? umax c then u32_max else x) with (to32 c).
  assert (forall l, flat_map edge_ints32 (map (to32_edge c) l) = map (to32 c) (flat_map edge_ints l)) as HF.
  { induction l as [|e l IH]; auto. cbn [map flat_map]. rewrite IH, map_app. reflexivity. }
  unfold ints32, ints, to32_graph.
  cbn [fg32_num_nodes fg32_ranks fg32_edges_fwd fg32_first_edge_ids_fwd fg32_edges_bwd fg32_first_edge_ids_bwd map].
  rewrite !HF, !map_app. reflexivity.
Qed.
