(** * InputGraphFacts: sorting, removal of duplicates, call histories *)
From Verif Require Export SpecGraph BuilderFacts.
From Coq Require Import Permutation Sorted.
Open Scope N_scope.

(** ** Sorting *)
Definition edge_le (a b : Edge) : Prop := edge_leb a b = true.

Lemma edge_leb_spec a b : edge_leb a b = true <->
  edge_lt a b \/ (e_from a = e_from b /\ e_to a = e_to b /\ e_weight a <= e_weight b).
Proof.
  unfold edge_leb, edge_lt.
  destruct (N.compare_spec (e_from a) (e_from b)); destruct (N.compare_spec (e_to a) (e_to b)); rewrite ?N.leb_le; split;
    intros; try discriminate; try lia; auto.
Qed.
Lemma edge_le_trans a b d : edge_le a b -> edge_le b d -> edge_le a d.
Proof. unfold edge_le. rewrite !edge_leb_spec. unfold edge_lt. lia. Qed.
Lemma edge_le_refl a : edge_le a a.
Proof. unfold edge_le. rewrite !edge_leb_spec. unfold edge_lt. lia. Qed.
Lemma edge_le_total a b : edge_le a b \/ edge_le b a.
Proof. unfold edge_le. rewrite !edge_leb_spec. unfold edge_lt. lia. Qed.
Lemma edge_le_antisym a b : edge_le a b -> edge_le b a -> a = b.
Proof.
  unfold edge_le. rewrite !edge_leb_spec. unfold edge_lt. destruct a as [a1 a2 a3], b as [b1 b2 b3]; simpl.
  intros. f_equal; lia.
Qed.

Lemma insert_perm e l : Permutation (insert_edge e l) (e :: l).
Proof.
  induction l as [|x t IH]; simpl; auto. destruct (edge_leb e x); auto.
  rewrite IH. apply perm_swap.
Qed.
Lemma sort_perm l : Permutation (sort_edges l) l.
Proof. induction l as [|x t IH]; simpl; auto. rewrite insert_perm. auto. Qed.
Lemma insert_sorted e l : StronglySorted edge_le l -> StronglySorted edge_le (insert_edge e l).
Proof.
  induction 1 as [|x t Hs IH Hf]; simpl; [repeat constructor|].
  destruct (edge_leb e x) eqn:El.
  - constructor; [constructor; auto|]. constructor; auto.
    rewrite Forall_forall in *. intros y Hy. eapply edge_le_trans; [exact El|auto].
  - constructor; auto. rewrite Forall_forall in *. intros y Hy.
    apply (Permutation_in _ (insert_perm e t)) in Hy as [<-|Hy]; auto.
    destruct (edge_le_total e x) as [G|G]; auto. unfold edge_le in G. congruence.
Qed.
Lemma sort_sorted l : StronglySorted edge_le (sort_edges l).
Proof. induction l; simpl; [constructor|apply insert_sorted; auto]. Qed.

Lemma sorted_perm_eq l1 : forall l2, StronglySorted edge_le l1 -> StronglySorted edge_le l2 -> Permutation l1 l2 -> l1 = l2.
Proof.
  induction l1 as [|x l1 IH]; intros l2 S1 S2 P.
  { apply Permutation_nil in P. auto. }
  destruct l2 as [|y l2]; [symmetry in P; apply Permutation_nil in P; discriminate|].
  inversion S1 as [|? ? S1' F1]; subst. inversion S2 as [|? ? S2' F2]; subst.
  rewrite Forall_forall in *.
  assert (x = y) as ->.
  { assert (In x (y :: l2)) as [->|Hx] by (eapply Permutation_in; [exact P|simpl; auto]); auto.
    assert (In y (x :: l1)) as [->|Hy] by (eapply Permutation_in; [symmetry; exact P|simpl; auto]); auto.
    apply edge_le_antisym; auto. }
  f_equal. apply IH; auto. eapply Permutation_cons_inv; eauto.
Qed.
(** every sorting algorithm gives the same result *)
Lemma sort_unique l l' : StronglySorted edge_le l' -> Permutation l' l -> l' = sort_edges l.
Proof.
  intros S P. apply sorted_perm_eq; auto; [apply sort_sorted|]. rewrite P. symmetry. apply sort_perm.
Qed.

(** ** Removal of duplicates *)
Lemma dedup_from_spec l : forall prev, StronglySorted edge_le (prev :: l) ->
  StronglySorted edge_lt (prev :: dedup_from prev l) /\
  (forall e, In e (dedup_from prev l) -> In e l) /\
  (forall e, In e (prev :: l) -> exists e', In e' (prev :: dedup_from prev l) /\ e_from e' = e_from e /\
     e_to e' = e_to e /\ e_weight e' <= e_weight e).
Proof.
  induction l as [|x t IH]; intros prev S; simpl.
  { split; [repeat constructor|]. split; [auto|]. intros e [<-|[]]. exists prev. repeat split; auto. lia. }
  inversion S as [|? ? S1 F1]; subst. inversion S1 as [|? ? S2 F2]; subst. rewrite Forall_forall in *.
  destruct (N.eqb_spec (e_from x) (e_from prev)) as [E1|E1];
    destruct (N.eqb_spec (e_to x) (e_to prev)) as [E2|E2]; cbn [andb].
  1:{ destruct (IH prev) as (I1 & I2 & I3).
      - constructor; auto. apply Forall_forall. intros y Hy. apply F1. simpl; auto.
      - split; auto. split; [intros; auto|]. intros e [<-|[<-|He]]; [apply I3; simpl; auto| |apply I3; simpl; auto].
        exists prev. split; [simpl; auto|]. repeat split; auto.
        assert (edge_le prev x) as G by (apply F1; simpl; auto). apply edge_leb_spec in G. unfold edge_lt in G. lia. }
  all: destruct (IH x S1) as (I1 & I2 & I3).
  all: assert (edge_lt prev x) as Hlt by
         (assert (edge_le prev x) as G by (apply F1; simpl; auto); apply edge_leb_spec in G; unfold edge_lt in *; lia).
  all: split; [constructor; auto; constructor; auto; inversion I1 as [|? ? J1 J2]; subst; rewrite Forall_forall in *;
         intros y Hy; specialize (J2 y Hy); unfold edge_lt in *; lia|].
  all: split; [intros e [<-|He]; auto|].
  all: intros e [<-|He]; [exists prev; simpl; repeat split; auto; lia|].
  all: destruct (I3 e He) as (e' & G1 & G2); exists e'; simpl in *; tauto.
Qed.

Lemma dedup_spec l : StronglySorted edge_le l ->
  StronglySorted edge_lt (dedup_edges l) /\ (forall e, In e (dedup_edges l) -> In e l) /\
  (forall e, In e l -> exists e', In e' (dedup_edges l) /\ e_from e' = e_from e /\
     e_to e' = e_to e /\ e_weight e' <= e_weight e).
Proof.
  destruct l as [|x t]; simpl; intros S.
  { split; [constructor|]. split; [auto|]. intros e []. }
  destruct (dedup_from_spec t x S) as (H1 & H2 & H3). split; auto. split; auto.
  intros e [<-|He]; auto.
Qed.

Lemma sorted_lt_uniq l : StronglySorted edge_lt l -> forall a b, In a l -> In b l ->
  e_from a = e_from b -> e_to a = e_to b -> a = b.
Proof.
  induction 1 as [|x t S IH F]; intros a b; simpl; [tauto|]. rewrite Forall_forall in F.
  intros [->|Ha] [->|Hb] E1 E2; auto; [specialize (F _ Hb)|specialize (F _ Ha)]; unfold edge_lt in F; lia.
Qed.
Lemma sorted_lt_NoDup l : StronglySorted edge_lt l -> NoDup (map (fun e => (e_from e, e_to e)) l).
Proof.
  induction 1 as [|x t S IH F]; simpl; constructor; auto. rewrite Forall_forall in F.
  intros Hin. apply in_map_iff in Hin as (y & Ey & Hy). specialize (F _ Hy). injection Ey as E1 E2.
  unfold edge_lt in F. lia.
Qed.
Lemma sorted_lt_ext l1 : forall l2, StronglySorted edge_lt l1 -> StronglySorted edge_lt l2 ->
  (forall e, In e l1 <-> In e l2) -> l1 = l2.
Proof.
  induction l1 as [|x l1 IH]; intros l2 S1 S2 Hin.
  { destruct l2 as [|y l2]; auto. exfalso. apply (Hin y). simpl; auto. }
  destruct l2 as [|y l2]; [exfalso; apply (Hin x); simpl; auto|].
  inversion S1 as [|? ? S1' F1]; subst. inversion S2 as [|? ? S2' F2]; subst. rewrite Forall_forall in *.
  assert (x = y) as ->.
  { assert (In x (y :: l2)) as [->|Hx] by (apply Hin; simpl; auto); auto.
    assert (In y (x :: l1)) as [->|Hy] by (apply Hin; simpl; auto); auto.
    specialize (F1 _ Hy). specialize (F2 _ Hx). unfold edge_lt in *. lia. }
  f_equal. apply IH; auto. intros e. split; intros He.
  - assert (In e (y :: l2)) as [->|G] by (apply Hin; simpl; auto); auto.
    specialize (F1 _ He). unfold edge_lt in F1. lia.
  - assert (In e (y :: l1)) as [->|G] by (apply Hin; simpl; auto); auto.
    specialize (F2 _ He). unfold edge_lt in F2. lia.
Qed.

(** ** Call histories *)
Lemma accepted_app a b : accepted (a ++ b) = accepted a ++ accepted b.
Proof. unfold accepted. rewrite flat_map_app, filter_app. auto. Qed.
Lemma frozen_after_snoc ops o : frozen_after (ops ++ [o]) =
  match o with OpFreeze => true | OpThaw => false | _ => frozen_after ops end.
Proof. unfold frozen_after. rewrite fold_left_app. reflexivity. Qed.
Lemma acceptable_spec e : acceptable e = true <-> e_from e <> e_to e /\ 1 <= e_weight e.
Proof.
  unfold acceptable. rewrite andb_true_iff, negb_true_iff, N.eqb_neq, N.leb_le. tauto.
Qed.
Lemma accepted_In ops e : In e (accepted ops) -> e_from e <> e_to e /\ 1 <= e_weight e.
Proof. intros Hin. apply filter_In in Hin as [_ G]. apply acceptable_spec; auto. Qed.
Lemma accepted_repr c ops e : (forall o, In o ops -> op_repr c o) -> In e (accepted ops) ->
  e_from e <= umax c /\ e_to e <= umax c /\ e_weight e <= umax c.
Proof.
  intros Hr Hin. apply filter_In in Hin as [Hin _]. apply in_flat_map in Hin as (o & Ho & He).
  specialize (Hr o Ho). destruct o; simpl in *; try tauto.
  - destruct He as [<-|[]]; simpl; auto.
  - destruct He as [<-|[<-|[]]]; simpl; tauto.
Qed.

Lemma ig_run_app c ops1 : forall g ops2, ig_run c g (ops1 ++ ops2) = (g' <- ig_run c g ops1 ;; ig_run c g' ops2).
Proof.
  induction ops1 as [|o r IH]; intros g ops2; simpl; auto.
  destruct (ig_step c g o) as [[g' x]| |]; cbn [bind]; auto.
Qed.

(** invariant of histories *)
Record hinv_g (c : cfg) (ops : list ig_op) (g : InputGraph) : Prop := mk_hinv {
  hg_frozen : ig_frozen g = frozen_after ops;
  hg_sub : forall e, In e (ig_edges g) -> In e (accepted ops);
  hg_dom : forall e, In e (accepted ops) -> exists e', In e' (ig_edges g) /\ e_from e' = e_from e /\
     e_to e' = e_to e /\ e_weight e' <= e_weight e;
  hg_sorted : ig_frozen g = true -> StronglySorted edge_lt (ig_edges g);
  hg_cap : lenN (ig_edges g) <= umax c / 2
}.
(** and of the node count, without wrapping *)
Definition nodes_ok (ops : list ig_op) (g : InputGraph) : Prop :=
  (forall e, In e (accepted ops) -> e_from e < ig_num_nodes g /\ e_to e < ig_num_nodes g) /\
  (ig_num_nodes g = 0 \/ exists e, In e (accepted ops) /\ ig_num_nodes g = N.max (e_from e) (e_to e) + 1).

Lemma accepted_one o : accepted [o] = filter acceptable (requested o).
Proof. unfold accepted. simpl. rewrite app_nil_r. auto. Qed.

Lemma do_add_cases c g f t w b r : ig_do_add_edge c g f t w b = r ->
  (ig_frozen g = true /\ r = Panic (PExplicit "Graph is frozen already, for further changes first use thaw()")) \/
  (ig_frozen g = false /\ (f = t \/ w = 0) /\ r = Ok (g, 0)) \/
  (ig_frozen g = false /\ f <> t /\ 1 <= w /\
     ((umax c < N.max f t + 1 /\ debug_build c = true /\ r = Panic POverflow) \/
      (umax c / 2 <= lenN (ig_edges g) + (if b then 1 else 0) /\ r = Panic PCapacity) \/
      (lenN (ig_edges g) + (if b then 1 else 0) < umax c / 2 /\
       exists m, (N.max f t + 1 <= umax c -> m = N.max f t + 1) /\ (debug_build c = true -> N.max f t + 1 <= umax c) /\
       r = Ok (mkInputGraph (ig_edges g ++ mkEdge f t w :: (if b then [mkEdge t f w] else [])) (N.max (ig_num_nodes g) m) false,
               if b then 2 else 1)))).
Proof.
  unfold ig_do_add_edge. intros <-. destruct (ig_frozen g) eqn:Ef; [left; auto|]. right.
  destruct (N.eqb_spec f t) as [->|Hne]; [left; auto|].
  destruct (N.ltb_spec w 1) as [Hw|Hw]; [left; split; auto; split; auto; right; lia|]. right.
  split; auto. split; auto. split; auto.
  assert ((uadd c (N.max f t) 1 = Panic POverflow /\ umax c < N.max f t + 1 /\ debug_build c = true) \/
    exists m, uadd c (N.max f t) 1 = Ok m /\ (N.max f t + 1 <= umax c -> m = N.max f t + 1) /\ (debug_build c = true -> N.max f t + 1 <= umax c))
    as [(-> & G1 & G2)|(m & -> & G1 & G2)].
  { unfold uadd. destruct (N.leb_spec (N.max f t + 1) (umax c)).
    - right. eexists; split; [reflexivity|]. auto.
    - destruct (debug_build c) eqn:Ed; [left; auto|]. right. eexists; split; [reflexivity|]. split; [lia|discriminate]. }
  { left. auto. }
  cbn [bind]. unfold vpush. destruct (N.ltb_spec (lenN (ig_edges g)) (umax c / 2)) as [Hc|Hc]; cbn [bind].
  2:{ right; left. split; [destruct b; lia|auto]. }
  destruct b.
  - rewrite lenN_app. change (lenN [mkEdge f t w]) with 1.
    destruct (N.ltb_spec (lenN (ig_edges g) + 1) (umax c / 2)) as [Hc'|Hc']; cbn [bind].
    + right; right. split; auto. exists m. split; auto. split; auto. rewrite <- app_assoc. auto.
    + right; left. auto.
  - cbn [bind]. right; right. split; [lia|]. exists m. auto.
Qed.

Lemma req_accept f t w b o : (b = false /\ o = OpAddEdge f t w) \/ (b = true /\ o = OpAddEdgeBidir f t w) ->
  (f = t \/ w = 0 -> accepted [o] = []) /\
  (f <> t -> 1 <= w -> accepted [o] = mkEdge f t w :: (if b then [mkEdge t f w] else [])).
Proof.
  intros Ho. rewrite accepted_one.
  assert (forall x y, (x = y \/ w = 0 -> acceptable (mkEdge x y w) = false) /\
     (x <> y -> 1 <= w -> acceptable (mkEdge x y w) = true)) as G.
  { intros x y. unfold acceptable; simpl. destruct (N.eqb_spec x y); destruct (N.leb_spec 1 w); simpl; split; auto; lia. }
  destruct Ho as [[-> ->]|[-> ->]]; simpl; split.
  - intros K. rewrite (proj1 (G f t) K). auto.
  - intros K1 K2. rewrite (proj2 (G f t)); auto.
  - intros K. rewrite (proj1 (G f t) K), (proj1 (G t f)); auto. destruct K; auto.
  - intros K1 K2. rewrite (proj2 (G f t)), (proj2 (G t f)); auto.
Qed.

Definition ids_ok (c : cfg) (ops : list ig_op) : Prop :=
  debug_build c = true \/ forall e, In e (accepted ops) -> e_from e < umax c /\ e_to e < umax c.

Lemma step_add c ops g f t w b o g' k :
  (b = false /\ o = OpAddEdge f t w) \/ (b = true /\ o = OpAddEdgeBidir f t w) ->
  hinv_g c ops g -> ig_do_add_edge c g f t w b = Ok (g', k) ->
  hinv_g c (ops ++ [o]) g' /\ (ids_ok c (ops ++ [o]) -> nodes_ok ops g -> nodes_ok (ops ++ [o]) g').
Proof.
  intros Ho [H1 H2 H3 H4 H5] E. destruct (req_accept f t w b o Ho) as [R1 R2].
  assert (frozen_after (ops ++ [o]) = frozen_after ops) as Fr.
  { rewrite frozen_after_snoc. destruct Ho as [[_ ->]|[_ ->]]; auto. }
  unfold nodes_ok. rewrite !accepted_app.
  destruct (do_add_cases _ _ _ _ _ _ _ E) as [[_ G]|[(F & Hz & G)|(F & G1 & G2 & [(_ & _ & G)|[(_ & G)|(Hc & m & M1 & M2 & G)]])]];
    try discriminate.
  - injection G as -> _. rewrite (R1 Hz), app_nil_r. split; [|auto].
    constructor; auto; try congruence; rewrite !accepted_app, (R1 Hz), app_nil_r; auto.
  - injection G as -> _. specialize (R2 G1 G2).
    set (new := mkEdge f t w :: (if b then [mkEdge t f w] else [])) in *.
    split.
    + constructor; simpl; rewrite ?accepted_app, ?R2.
      * congruence.
      * intros e He. apply in_app_or in He as [He|He]; apply in_or_app; auto.
      * intros e He. apply in_app_or in He as [He|He].
        -- destruct (H3 e He) as (e' & K1 & K2). exists e'. split; auto. apply in_or_app; auto.
        -- exists e. split; [apply in_or_app; auto|]. repeat split; lia.
      * discriminate.
      * rewrite lenN_app. unfold new. destruct b; [change (lenN [_; _]) with 2|change (lenN [_]) with 1]; lia.
    + intros Hids [N1 N2]. simpl.
      assert (N.max f t + 1 <= umax c) as Hm.
      { destruct Hids as [Hd|Hi]; auto. specialize (Hi (mkEdge f t w)). rewrite accepted_app, R2 in Hi.
        assert (In (mkEdge f t w) (accepted ops ++ new)) as K by (apply in_or_app; right; left; auto).
        apply Hi in K. simpl in K. lia. }
      specialize (M1 Hm). subst m. rewrite R2. split.
      * intros e He. apply in_app_or in He as [He|He]; [specialize (N1 e He); lia|].
        assert (N.max (e_from e) (e_to e) = N.max f t) as K; [|lia].
        unfold new in He. destruct He as [<-|He]; [auto|]. destruct b; [|destruct He]. destruct He as [<-|[]]. simpl. lia.
      * right. destruct (N.max_spec (ig_num_nodes g) (N.max f t + 1)) as [[K ->]|[K ->]].
        -- exists (mkEdge f t w). split; [|auto]. apply in_or_app; right; left; auto.
        -- destruct N2 as [N2|(e & He & N2)]; [lia|]. exists e. split; [apply in_or_app; auto|auto].
Qed.

Lemma step_inv c ops g o g' out : hinv_g c ops g -> ig_step c g o = Ok (g', out) ->
  hinv_g c (ops ++ [o]) g' /\ (ids_ok c (ops ++ [o]) -> nodes_ok ops g -> nodes_ok (ops ++ [o]) g').
Proof.
  intros I E. destruct o as [f t w|f t w| | | | |]; simpl in E.
  - unfold ig_add_edge in E. destruct (ig_do_add_edge c g f t w false) as [[g1 k]| |] eqn:Ea; try discriminate.
    cbn [bind] in E. injection E as <- _. eapply step_add; eauto.
  - unfold ig_add_edge_bidir in E. destruct (ig_do_add_edge c g f t w true) as [[g1 k]| |] eqn:Ea; try discriminate.
    cbn [bind] in E. injection E as <- _. eapply step_add; eauto.
  - unfold ig_freeze in E. destruct (ig_frozen g) eqn:Ef; [discriminate|]. cbn [bind] in E. injection E as <- _.
    assert (accepted (ops ++ [OpFreeze]) = accepted ops) as A by (rewrite accepted_app; apply app_nil_r).
    unfold nodes_ok. rewrite A. split; [|auto]. destruct I as [H1 H2 H3 H4 H5].
    destruct (dedup_spec _ (sort_sorted (ig_edges g))) as (D1 & D2 & D3).
    constructor; simpl; rewrite ?A.
    + rewrite frozen_after_snoc. auto.
    + intros e He. apply H2. eapply Permutation_in; [apply sort_perm|auto].
    + intros e He. destruct (H3 e He) as (e1 & K1 & K2 & K3 & K4).
      eapply Permutation_in in K1; [|symmetry; apply sort_perm].
      destruct (D3 e1 K1) as (e2 & L1 & L2 & L3 & L4). exists e2. repeat split; auto; lia.
    + auto.
    + assert (lenN (dedup_edges (sort_edges (ig_edges g))) <= lenN (ig_edges g)) as K; [|lia].
      unfold lenN. rewrite <- (Permutation_length (sort_perm (ig_edges g))).
      assert (List.length (dedup_edges (sort_edges (ig_edges g))) <= List.length (sort_edges (ig_edges g)))%nat; [|lia].
      apply NoDup_incl_length; [|intros e; apply D2].
      apply (NoDup_map_inv (fun e => (e_from e, e_to e))). apply sorted_lt_NoDup; auto.
  - injection E as <- _.
    assert (accepted (ops ++ [OpThaw]) = accepted ops) as A by (rewrite accepted_app; apply app_nil_r).
    unfold nodes_ok. rewrite A. split; [|auto]. destruct I as [H1 H2 H3 H4 H5].
    constructor; simpl; rewrite ?A; auto; [rewrite frozen_after_snoc; auto|discriminate].
  - unfold ig_get_edges, ig_check_frozen in E. destruct (ig_frozen g) eqn:Ef; [|discriminate]. cbn [bind] in E. injection E as <- _.
    assert (accepted (ops ++ [OpGetEdges]) = accepted ops) as A by (rewrite accepted_app; apply app_nil_r).
    unfold nodes_ok. rewrite A. split; [|auto]. destruct I. constructor; rewrite ?A; auto. rewrite frozen_after_snoc; auto.
  - unfold ig_get_num_nodes, ig_check_frozen in E. destruct (ig_frozen g) eqn:Ef; [|discriminate]. cbn [bind] in E. injection E as <- _.
    assert (accepted (ops ++ [OpGetNumNodes]) = accepted ops) as A by (rewrite accepted_app; apply app_nil_r).
    unfold nodes_ok. rewrite A. split; [|auto]. destruct I. constructor; rewrite ?A; auto. rewrite frozen_after_snoc; auto.
  - unfold ig_get_num_edges, ig_check_frozen in E. destruct (ig_frozen g) eqn:Ef; [|discriminate]. cbn [bind] in E. injection E as <- _.
    assert (accepted (ops ++ [OpGetNumEdges]) = accepted ops) as A by (rewrite accepted_app; apply app_nil_r).
    unfold nodes_ok. rewrite A. split; [|auto]. destruct I. constructor; rewrite ?A; auto. rewrite frozen_after_snoc; auto.
Qed.

Lemma ids_ok_app c a b : ids_ok c (a ++ b) -> ids_ok c a.
Proof.
  intros [Hd|Hi]; [left; auto|right]. intros e He. apply Hi. rewrite accepted_app. apply in_or_app; auto.
Qed.

Lemma run_inv c ops : forall g, ig_run c ig_new ops = Ok g ->
  hinv_g c ops g /\ (ids_ok c ops -> nodes_ok ops g).
Proof.
  induction ops as [|o ops IH] using rev_ind; intros g Hr.
  - simpl in Hr. injection Hr as <-. split.
    + constructor; simpl; auto; try tauto; [discriminate|apply N.le_0_l].
    + intros _. split; simpl; [tauto|auto].
  - rewrite ig_run_app in Hr. destruct (ig_run c ig_new ops) as [g1| |] eqn:E1; try discriminate. cbn [bind] in Hr.
    simpl in Hr. destruct (ig_step c g1 o) as [[g2 out]| |] eqn:E2; try discriminate. cbn [bind] in Hr. injection Hr as <-.
    destruct (IH _ eq_refl) as [I1 I2]. destruct (step_inv _ _ _ _ _ _ I1 E2) as [J1 J2]. split; auto.
    intros Hids. apply J2; auto. apply I2. eapply ids_ok_app; eauto.
Qed.

Lemma run_edges c ops g : ig_run c ig_new ops = Ok g -> ig_frozen g = true ->
  forall u v w, In (mkEdge u v w) (ig_edges g) <->
    In (mkEdge u v w) (accepted ops) /\ forall w', In (mkEdge u v w') (accepted ops) -> w <= w'.
Proof.
  intros Hr Hf u v w. destruct (run_inv _ _ _ Hr) as [[H1 H2 H3 H4 H5] _]. specialize (H4 Hf). split.
  - intros Hin. split; auto. intros w' Hw'. destruct (H3 _ Hw') as (e & K1 & K2 & K3 & K4). simpl in *.
    assert (e = mkEdge u v w) as -> by (eapply sorted_lt_uniq; eauto). auto.
  - intros [Hin Hmin]. destruct (H3 _ Hin) as ([u' v' w'] & K1 & K2 & K3 & K4). simpl in *. subst u' v'.
    pose proof (Hmin _ (H2 _ K1)). assert (w' = w) by lia. subst; auto.
Qed.

Lemma frozen_graph_ok c ops ig : ids_ok c ops -> frozen_graph c ops ig -> ig_ok c ig.
Proof.
  intros Hids (Hr & Hrun & Hf). destruct (run_inv _ _ _ Hrun) as [[H1 H2 H3 H4 H5] HN]. destruct (HN Hids) as [N1 N2].
  constructor; auto.
  - apply sorted_lt_NoDup; auto.
  - intros e He. apply H2 in He. pose proof (accepted_In _ _ He). pose proof (accepted_repr _ _ _ Hr He).
    specialize (N1 _ He). repeat split; try tauto; lia.
Qed.
