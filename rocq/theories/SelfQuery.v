(** * SelfQuery: a query from a node to itself never overflows *)
From Verif Require Import QueryProps.
Open Scope N_scope.

(** No overflow, and [Q] of the result if there is one. *)
Definition nov {A} (m : res A) (Q : A -> Prop) : Prop :=
  match m with Ok a => Q a | Panic r => r <> POverflow | Diverge => True end.
Lemma nov_bind {A B} (m : res A) (f : A -> res B) Q R :
  nov m Q -> (forall a, Q a -> nov (f a) R) -> nov (bind m f) R.
Proof. destruct m; simpl; auto. Qed.
Lemma nov_mono {A} (m : res A) (Q R : A -> Prop) : nov m Q -> (forall a, Q a -> R a) -> nov m R.
Proof. destruct m; simpl; auto. Qed.
Lemma nov_idx {A} (l : list A) i : nov (idx l i) (fun x => getN l i = Some x).
Proof. unfold idx. destruct (getN l i); simpl; easy. Qed.
Lemma nov_idx' {A} (l : list A) i : nov (idx l i) (fun _ => True).
Proof. unfold idx. destruct (getN l i); simpl; easy. Qed.
Lemma nov_upd {A} (l : list A) i y : nov (upd l i y) (fun _ => True).
Proof. unfold upd. destruct (i <? lenN l); simpl; easy. Qed.
Lemma nov_assert b m : nov (assert b m) (fun _ => True).
Proof. destruct b; simpl; easy. Qed.
Lemma nov_uadd c a b : a + b <= umax c -> nov (uadd c a b) (fun x => x = a + b).
Proof. intros HX. unfold uadd. rewrite (proj2 (N.leb_le _ _) HX). reflexivity. Qed.
Lemma nov_foldM {A S} (f : S -> A -> res S) (I : S -> Prop) l : forall s,
  I s -> (forall s a, I s -> In a l -> nov (f s a) I) -> nov (foldM f l s) I.
Proof.
  induction l as [|a l IH]; intros s Hs Hf; simpl; auto. eapply nov_bind; [apply Hf; simpl; auto|].
  intros s' Hs'. apply IH; auto. intros; apply Hf; simpl; auto.
Qed.
Lemma nov_begin fg d v : nov (fg_begin_edges fg d v) (fun _ => True).
Proof. unfold fg_begin_edges. eapply nov_bind; [apply nov_idx'|]. intros. apply nov_idx'. Qed.
Lemma nov_end fg d v : nov (fg_end_edges fg d v) (fun _ => True).
Proof. unfold fg_end_edges. eapply nov_bind; [apply nov_idx'|]. intros. apply nov_idx'. Qed.
Lemma nov_shortcut c e : nov (fe_is_shortcut c e) (fun _ => True).
Proof. unfold fe_is_shortcut. eapply nov_bind; [apply nov_assert|]. intros; exact I. Qed.
Lemma nov_valid f v : nov (vf_is_valid f v) (fun _ => True).
Proof. unfold vf_is_valid. eapply nov_bind; [apply nov_idx'|]. intros; exact I. Qed.

Lemma nov_unpack c fg : forall k d nodes id b, nov (unpack k c fg d nodes id b) (fun _ => True).
Proof.
  induction k as [|k IH]; intros d nodes id b; simpl; auto.
  eapply nov_bind; [apply nov_idx'|]. intros e _.
  eapply nov_bind; [apply nov_shortcut|]. intros sc _.
  destruct (negb sc); simpl; auto. destruct b; (eapply nov_bind; [apply IH|auto]).
Qed.
Lemma nov_tree c fg d s : forall k r v, nov (unpack_tree k c fg d s r v) (fun _ => True).
Proof.
  induction k as [|k IH]; intros r v; cbn [unpack_tree]; [exact I|]. eapply nov_bind; [apply nov_idx'|]. intros dt _.
  destruct (d_inc_edge dt =? INVALID_EDGE c); [exact I|]. eapply nov_bind; [apply nov_unpack|auto].
Qed.

Section Self.
  Variables (c : cfg) (H : heap_ops) (hinv : list HeapItem -> Prop).
  Hypothesis HL : heap_laws H hinv.
  Variables (E : list Edge) (n : N) (fg : FastGraph).
  Hypothesis Hok : fg_ok c E n fg.
  Variable s0 : N.
  Hypothesis Hs0 : s0 < n.

  (** Before the node itself is settled, and afterwards. *)
  Definition fresh (s : Side) : Prop :=
    side_base n s /\ hinv (s_heap s) /\ s_heap s = [mkHeapItem 0 s0] /\
    forall v, wt c s v = 0 \/ wt c s v = umax c.
  Definition late (s : Side) : Prop :=
    side_base n s /\ hinv (s_heap s) /\ (forall it, In it (s_heap s) -> 0 < hi_weight it) /\
    forall v, wt c s v <= umax c.
  Definition bounded (s : Side) : Prop := side_base n s /\ forall v, wt c s v <= umax c.
  Lemma late_bounded s : late s -> bounded s. Proof. intros (A & _ & _ & B). split; auto. Qed.
  Lemma fresh_bounded s : fresh s -> bounded s.
  Proof. intros (A & _ & _ & B). split; auto. intros v. destruct (B v) as [-> | ->]; lia. Qed.

  Lemma late_search d : forall k own other mn, late own ->
    nov (search_dir k c H fg d own other 0 mn) (fun '(own', bw, mn') => late own' /\ bw = 0 /\ mn' = mn).
  Proof.
    induction k as [|k IH]; intros own other mn HX; simpl; auto.
    destruct HX as (B & I & P & W). destruct HL as (_ & _ & _ & HP & _).
    destruct (hp_pop H (s_heap own)) as [[curr h']|] eqn:HE; [|split; [split|]; auto].
    destruct (HP _ _ _ I HE) as (I' & Pm & _).
    assert (late (s_set_heap own h')) as HX.
    { split; auto. split; auto. split; auto. intros it Hi. apply P. eapply Permutation_in; [symmetry; exact Pm|]. right; auto. }
    assert (0 < hi_weight curr) as Hc by (apply P; eapply Permutation_in; [symmetry; exact Pm|left; auto]).
    apply nov_bind with (Q := fun _ => True).
    { unfold s_is_settled. eapply nov_bind; [apply nov_valid|].
      intros [] _; [|exact Logic.I]. eapply nov_bind; [apply nov_idx'|intros; exact Logic.I]. }
    intros [] _; [apply IH; auto|]. rewrite (proj2 (N.ltb_lt _ _) Hc). simpl. auto.
  Qed.

  Lemma late_main : forall k fwd bwd mn, late fwd -> late bwd ->
    nov (main_loop k c H fg fwd bwd 0 mn) (fun _ => True).
  Proof.
    induction k as [|rest IH]; [|specialize (IH tt)]; intros fwd bwd mn HF HB; cbn [main_loop]; [exact I|].
    assert (nov ('(fwd', bw1, mn1) <- search_dir (S (List.length (s_heap fwd))) c H fg Fwd fwd bwd 0 mn ;;
        '(bwd', bw2, mn2) <- search_dir (S (List.length (s_heap bwd))) c H fg Bwd bwd fwd' bw1 mn1 ;;
        main_loop (rest tt) c H fg fwd' bwd' bw2 mn2) (fun _ => True)) as HX.
    { eapply nov_bind; [apply late_search; auto|]. intros [[fwd' bw1] mn1] (HF' & -> & ->).
      eapply nov_bind; [apply late_search; auto|]. intros [[bwd' bw2] mn2] (HB' & -> & ->). auto. }
    destruct (s_heap fwd); [destruct (s_heap bwd); [exact I|]|]; exact HX.
  Qed.

  Lemma nov_stall d own curr ids : side_base n own -> (forall v, wt c own v = 0 \/ wt c own v = umax c) -> hi_weight curr = 0 ->
    nov (stall_loop c fg d own curr ids) (fun b => b = false).
  Proof.
    intros B W Hc. induction ids as [|i ids IH]; simpl; auto.
    eapply nov_bind; [apply nov_idx|]. intros e He. destruct (ok_edge _ _ _ _ Hok _ _ _ He) as (_ & Ha & Hw & _).
    rewrite (get_weight_ok c n) by auto. cbn [bind]. unfold WEIGHT_MAX.
    destruct (N.eqb_spec (wt c own (fe_adj e)) (umax c)) as [|Hne]; auto.
    destruct (W (fe_adj e)) as [HZ|HZ]; [|congruence]. rewrite HZ.
    eapply nov_bind; [apply nov_uadd; lia|]. intros w ->. rewrite Hc. destruct (N.ltb_spec (0 + fe_weight e) 0); [lia|auto].
  Qed.

  Lemma late_relax d curr own id : hi_weight curr = 0 -> late own ->
    nov (relax_edge c H fg d curr own id) late.
  Proof.
    intros Hc HX. unfold relax_edge. eapply nov_bind; [apply nov_idx|]. intros e He.
    destruct (ok_edge _ _ _ _ Hok _ _ _ He) as (_ & Ha & Hw & _). rewrite Hc.
    eapply nov_bind; [apply nov_uadd; lia|]. intros w ->. rewrite N.add_0_l.
    pose proof HX as (B & I & P & W). rewrite (get_weight_ok c n) by auto. cbn [bind].
    destruct (N.ltb_spec (fe_weight e) (wt c own (fe_adj e))); [|exact HX].
    destruct (update_ok n own (fe_adj e) (fe_weight e) (hi_node curr) id B Ha) as (s1 & -> & B1 & Hh & Hl).
    cbn [bind nov]. rewrite Hh. destruct HL as (_ & Hpush & _).
    destruct (Hpush (s_heap own) (mkHeapItem (fe_weight e) (fe_adj e)) I) as (I1 & Pm).
    split; [exact B1|]. split; [exact I1|]. split.
    - intros it Hi. eapply Permutation_in in Hi; [|exact Pm]. destruct Hi as [<-|Hi]; [simpl; lia|auto].
    - intros v. unfold wt. replace (lab (s_set_heap s1 _) v) with (lab s1 v) by reflexivity. rewrite Hl.
      destruct (v =? fe_adj e); [simpl; lia|]. apply (W v).
  Qed.

  Lemma fresh_search d k own other mn : fresh own -> bounded other ->
    nov (search_dir (S k) c H fg d own other 0 mn) (fun '(own', bw, mn') => late own' /\ bw = 0).
  Proof.
    intros (B & I & Hh & W) (Bo & Wo). cbn [search_dir]. destruct HL as (_ & _ & _ & HP & _).
    destruct (hp_pop H (s_heap own)) as [[curr h']|] eqn:HE.
    2:{ apply (proj1 (proj2 (proj2 HL)) _ I) in HE. congruence. }
    destruct (HP _ _ _ I HE) as (I' & Pm & _). rewrite Hh in Pm.
    apply Permutation_length_1_inv in Pm. injection Pm as -> ->.
    assert (late (s_set_heap own [])) as HX.
    { split; auto. split; auto. split; [intros it []|]. intros v.
      change (wt c (s_set_heap own []) v) with (wt c own v). destruct (W v) as [-> | ->]; lia. }
    cbn [hi_node hi_weight]. rewrite (QueryFacts.is_settled_ok n) by auto. cbn [bind].
    destruct (stl _ s0). { eapply nov_mono; [apply late_search; auto|]. intros [[o b] m]; tauto. }
    change (0 <? 0) with false. cbn [bind].
    apply nov_bind with (Q := fun b => b = false).
    { unfold is_stallable. eapply nov_bind; [apply nov_begin|]. intros b _.
      eapply nov_bind; [apply nov_end|]. intros e _.
      rewrite stall_set_heap. apply nov_stall; auto. }
    intros ? ->.
    eapply nov_bind; [apply nov_begin|]. intros b _.
    eapply nov_bind; [apply nov_end|]. intros e _.
    eapply nov_bind; [apply (nov_foldM _ late); [auto|]; intros; apply late_relax; auto|].
    intros own2 H2.
    apply nov_bind with (Q := late).
    { destruct H2 as (B2 & I2 & P2 & W2). unfold s_settle. eapply nov_bind; [apply nov_idx|]. intros dt Hdt.
      rewrite upd_eq by (apply getN_Some_lt in Hdt; auto). cbn [bind nov]. destruct B2 as [B21 B22].
      split; [split; simpl; auto; rewrite lenN_setN; auto|]. split; auto. split; auto.
      intros v. specialize (W2 v). revert W2. unfold wt, lab, view; cbn [s_flags s_data].
      destruct (vfb (s_flags own2) v); auto. rewrite getN_setN.
      destruct (N.eqb_spec s0 v) as [->|]; cbn [andb]; auto.
      destruct (v <? lenN (s_data own2)); auto. rewrite Hdt. auto. }
    intros own3 H3. eapply nov_bind; [apply nov_valid|].
    intros v _. destruct v; [|split; auto].
    rewrite (get_weight_ok c n) by auto. cbn [bind].
    eapply nov_bind; [apply nov_uadd; rewrite N.add_0_l; apply Wo|].
    intros w ->. destruct (N.ltb_spec (0 + wt c other s0) 0); [lia|]. split; auto.
  Qed.

  Lemma fresh_init s : side_base n s -> (forall v, lab s v = None) -> s_heap s = [] ->
    nov (init_side c H s [(s0, 0)]) fresh.
  Proof.
    intros B Hl Hh. unfold init_side. cbn [foldM]. rewrite (get_weight_ok c n) by auto. cbn [bind].
    replace (wt c s s0) with (umax c) by (unfold wt; rewrite Hl; auto).
    pose proof (proj1 (umax_pos c E n fg Hok)). destruct (N.ltb_spec 0 (umax c)); [|lia].
    destruct (update_ok n s s0 0 s0 (INVALID_EDGE c) B Hs0) as (s1 & -> & B1 & Hh1 & Hl1).
    cbn [bind nov]. rewrite Hh1, Hh. destruct HL as (I0 & Hpush & _).
    destruct (Hpush [] (mkHeapItem 0 s0) I0) as (I1 & Pm).
    split; [exact B1|]. split; [exact I1|]. split.
    - symmetry in Pm. apply Permutation_length_1_inv in Pm. exact Pm.
    - intros v. unfold wt. replace (lab (s_set_heap s1 _) v) with (lab s1 v) by reflexivity. rewrite Hl1, Hl.
      destruct (v =? s0); auto.
  Qed.

  Lemma self_no_overflow pc : pc_ok n pc -> pc_calc_path c H pc fg s0 s0 <> Panic POverflow.
  Proof.
    intros (Hn & BF & BB).
    assert (nov (pc_calc_path c H pc fg s0 s0) (fun _ => True)) as HX; [|intros HE; rewrite HE in HX; apply HX; auto].
    unfold pc_calc_path, pc_calc_path_multiple.
    do 5 (eapply nov_bind; [apply nov_assert|]; intros _ _).
    unfold init_best. cbn [foldM bind]. rewrite N.eqb_refl.
    pose proof (proj1 (umax_pos c E n fg Hok)) as Hpos. unfold WEIGHT_MAX.
    assert (0 <? umax c = true) as -> by (apply N.ltb_lt; lia). cbn [andb].
    unfold uadd. change (0 + 0) with 0. assert (0 <=? umax c = true) as -> by (apply N.leb_le; lia). cbn [bind].
    assert (0 <? umax c = true) as -> by (apply N.ltb_lt; lia). cbn [bind].
    destruct (reset_ok n _ BF) as [RF LF]. destruct (reset_ok n _ BB) as [RB LB].
    eapply nov_bind; [apply (fresh_init _ RF LF); reflexivity|]. intros fwd HF.
    eapply nov_bind; [apply (fresh_init _ RB LB); reflexivity|]. intros bwd HB.
    apply nov_bind with (Q := fun _ => True).
    { unfold query_fuel. match goal with |- context [fuel_of ?m] => destruct (fuel_of_S m) as [rest ->]; [lia|] end.
      cbn [main_loop]. pose proof HF as (_ & _ & HhF & _). rewrite HhF. rewrite <- HhF.
      eapply nov_bind; [apply fresh_search; auto; apply fresh_bounded; auto|]. intros [[fwd' bw1] mn1] (HF' & ->).
      eapply nov_bind; [apply fresh_search; auto; apply late_bounded; auto|]. intros [[bwd' bw2] mn2] (HB' & ->).
      apply late_main; auto. }
    intros [[[fwd' bwd'] bw] mn] _. destruct (mn =? INVALID_NODE c); [exact I|].
    eapply nov_bind; [apply nov_assert|]. intros _ _.
    apply nov_bind with (Q := fun _ => True).
    { unfold extract_nodes. eapply nov_bind; [apply nov_assert|]. intros _ _.
      eapply nov_bind; [apply nov_valid|]. intros v1 _.
      eapply nov_bind; [apply nov_assert|]. intros _ _.
      eapply nov_bind; [apply nov_valid|]. intros v2 _.
      eapply nov_bind; [apply nov_assert|]. intros _ _.
      eapply nov_bind; [apply nov_tree|]. intros [r1 x1] _. eapply nov_bind; [apply nov_tree|]. intros [r2 x2] _. exact I. }
    intros nodes _. eapply nov_bind; [apply nov_assert|]. intros _ _.
    eapply nov_bind; [apply nov_idx'|]. intros a _. eapply nov_bind; [apply nov_idx'|]. intros b _. exact I.
  Qed.
End Self.

Lemma C06_pc_total_proof : forall c ops ig fg H hinv pc s,
  debug_build c = true -> frozen_graph c ops ig -> prepared c ig fg -> heap_laws H hinv ->
  calculator c (ig_num_nodes ig) pc -> s < ig_num_nodes ig ->
  exists pc', pc_calc_path c H pc fg s s = Ok (pc', Some (mkSP s s 0 [s])).
Proof.
  intros c ops ig fg H hinv pc s Hd Hf Hp HL Hc Hs.
  pose proof (prepared_ok c ops ig fg Hd Hf Hp) as Hok. pose proof (calculator_ok _ _ _ Hc) as Hpc.
  assert (query_ok pc fg [(s, 0)] [(s, 0)]) as Hq.
  { destruct Hpc as (Hn & _). rewrite <- Hn in Hs. split; [rewrite Hn; apply (ok_n _ _ _ _ Hok)|].
    split; [discriminate|]. split; [discriminate|].
    split; (intros v w [HX|[]]; injection HX as <- <-; auto). }
  pose proof (calc_general c _ _ fg H hinv pc _ _ HL Hd Hok Hpc Hq) as HW.
  pose proof (self_no_overflow c H hinv HL _ _ fg Hok s Hs pc Hpc) as HN. unfold pc_calc_path in *.
  destruct (pc_calc_path_multiple c H pc fg [(s, 0)] [(s, 0)]) as [[pc' r]|r|] eqn:HE; [|destruct r; simpl in HW; tauto|destruct HW].
  exists pc'. do 2 f_equal. apply (C06_proof c ops ig fg s r Hd Hf Hp). exists H, hinv. split; auto.
  right. exists (ig_num_nodes ig), pc, pc'. auto.
Qed.
Lemma C06_total_proof : forall c ops ig fg H hinv s,
  debug_build c = true -> frozen_graph c ops ig -> prepared c ig fg -> heap_laws H hinv ->
  s < ig_num_nodes ig -> calc_path c H fg s s = Ok (Some (mkSP s s 0 [s])).
Proof.
  intros c ops ig fg H hinv s Hd Hf Hp HL Hs. unfold calc_path.
  pose proof (prepared_ok c ops ig fg Hd Hf Hp) as Hok.
  destruct (C06_pc_total_proof c ops ig fg H hinv (create_calculator c fg) s Hd Hf Hp HL) as (pc' & ->); auto.
  constructor. apply (ok_n _ _ _ _ Hok).
Qed.
