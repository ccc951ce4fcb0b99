(** * EffortFacts: proofs about the steps of a query *)
From Verif Require Export SpecEffort QueryProps.
From Coq Require Import Permutation.
Open Scope N_scope.

(** ** Forgetting the steps *)
Lemma forget_lbind {T A B} (m : recorded T A) (k : A -> recorded T B) :
  forget (lbind m k) = bind (forget m) (fun a => forget (k a)).
Proof. destruct m as [[a l]| |]; simpl; auto. destruct (k a) as [[b l']| |]; auto. Qed.
Lemma forget_lift {T A} (m : res A) : forget (lift (T := T) m) = m.
Proof. destruct m; auto. Qed.
Lemma forget_log {T} (s : T) : forget (log s) = Ok tt. Proof. reflexivity. Qed.
Lemma forget_lret {T A} (a : A) : forget (lret (T := T) a) = Ok a. Proof. reflexivity. Qed.
Lemma bind_cong {A B} (m m' : res A) (k k' : A -> res B) : m = m' -> (forall a, k a = k' a) -> bind m k = bind m' k'.
Proof. intros -> Hk. destruct m'; simpl; auto. Qed.
Lemma forget_if {T A} (b : bool) (x y : recorded T A) : forget (if b then x else y) = if b then forget x else forget y.
Proof. destruct b; auto. Qed.

Lemma forget_stall c fg d own curr : forall ids, forget (l_stall_loop c fg d own curr ids) = stall_loop c fg d own curr ids.
Proof.
  induction ids as [|i ids IH]; cbn [l_stall_loop stall_loop]; auto.
  rewrite forget_lbind, forget_log. cbn [bind]. rewrite forget_lbind, forget_lift. apply bind_cong; auto. intros e.
  rewrite forget_lbind, forget_lift. apply bind_cong; auto. intros w. rewrite forget_if.
  destruct (w =? WEIGHT_MAX c); auto. rewrite forget_lbind, forget_lift. apply bind_cong; auto. intros x. rewrite forget_if.
  destruct (x <? hi_weight curr); auto.
Qed.
Lemma forget_stallable c fg d own curr : forget (l_is_stallable c fg d own curr) = is_stallable c fg d own curr.
Proof.
  unfold l_is_stallable, is_stallable. rewrite forget_lbind, forget_lift. apply bind_cong; auto. intros b.
  rewrite forget_lbind, forget_lift. apply bind_cong; auto. intros e. apply forget_stall.
Qed.
Lemma forget_fold {T S A} (f : S -> A -> recorded T S) (g : S -> A -> res S) : (forall s a, forget (f s a) = g s a) ->
  forall l s, forget (lfold f l s) = foldM g l s.
Proof.
  intros Hfg. induction l as [|a l IH]; intros s; cbn [lfold foldM]; auto.
  rewrite forget_lbind, Hfg. apply bind_cong; auto.
Qed.
Lemma forget_search c H fg d : forall k own other bw mn,
  forget (l_search_dir k c H fg d own other bw mn) = search_dir k c H fg d own other bw mn.
Proof.
  induction k as [|k IH]; intros own other bw mn; cbn [l_search_dir search_dir]; auto.
  destruct (hp_pop H (s_heap own)) as [[curr h']|]; auto.
  rewrite forget_lbind, forget_log. cbn [bind]. rewrite forget_lbind, forget_lift. apply bind_cong; auto. intros st.
  destruct st; [apply IH|]. destruct (bw <? hi_weight curr); auto.
  rewrite forget_lbind, forget_stallable. apply bind_cong; auto. intros st. destruct st; [apply IH|].
  rewrite forget_lbind, forget_lift. apply bind_cong; auto. intros b.
  rewrite forget_lbind, forget_lift. apply bind_cong; auto. intros e.
  rewrite forget_lbind. rewrite (forget_fold _ (relax_edge c H fg d curr)).
  2:{ intros s a. unfold l_relax_edge. rewrite forget_lbind, forget_log, forget_lift. auto. }
  apply bind_cong; auto. intros own2. rewrite forget_lbind, forget_lift. apply bind_cong; auto. intros own3.
  rewrite forget_lbind, forget_log. cbn [bind]. rewrite forget_lbind, forget_lift. apply bind_cong; auto. intros v.
  destruct v; auto. rewrite forget_lbind, forget_lift. apply bind_cong; auto. intros ow.
  rewrite forget_lbind, forget_lift. apply bind_cong; auto. intros w. destruct (w <? bw); auto.
Qed.
Lemma forget_main c H fg : forall f fwd bwd bw mn,
  forget (l_main_loop f c H fg fwd bwd bw mn) = main_loop f c H fg fwd bwd bw mn.
Proof.
  induction f as [|rest IH]; [|specialize (IH tt)]; intros fwd bwd bw mn; cbn [l_main_loop main_loop]; auto.
  assert (forget ('(fwd', bw1, mn1) <~~ l_search_dir (S (List.length (s_heap fwd))) c H fg Fwd fwd bwd bw mn ;;
          '(bwd', bw2, mn2) <~~ l_search_dir (S (List.length (s_heap bwd))) c H fg Bwd bwd fwd' bw1 mn1 ;;
          l_main_loop (rest tt) c H fg fwd' bwd' bw2 mn2) =
     ('(fwd', bw1, mn1) <- search_dir (S (List.length (s_heap fwd))) c H fg Fwd fwd bwd bw mn ;;
          '(bwd', bw2, mn2) <- search_dir (S (List.length (s_heap bwd))) c H fg Bwd bwd fwd' bw1 mn1 ;;
          main_loop (rest tt) c H fg fwd' bwd' bw2 mn2)) as G.
  { rewrite forget_lbind, forget_search. apply bind_cong; auto. intros [[fwd' bw1] mn1].
    rewrite forget_lbind, forget_search. apply bind_cong; auto. intros [[bwd' bw2] mn2]. apply IH. }
  destruct (s_heap fwd), (s_heap bwd); auto.
Qed.
Lemma forget_unpack c fg : forall k d nodes id rv, forget (l_unpack k c fg d nodes id rv) = unpack k c fg d nodes id rv.
Proof.
  induction k as [|k IH]; intros d nodes id rv; cbn [l_unpack unpack]; auto.
  rewrite forget_lbind, forget_log. cbn [bind]. rewrite forget_lbind, forget_lift. apply bind_cong; auto. intros e.
  rewrite forget_lbind, forget_lift. apply bind_cong; auto. intros sc. destruct (negb sc); auto.
  destruct rv; rewrite forget_lbind, IH; apply bind_cong; auto.
Qed.
Lemma forget_tree c fg d s : forall k result node, forget (l_unpack_tree k c fg d s result node) = unpack_tree k c fg d s result node.
Proof.
  induction k as [|k IH]; intros result node; cbn [l_unpack_tree unpack_tree]; auto.
  rewrite forget_lbind, forget_lift. apply bind_cong; auto. intros dt. destruct (d_inc_edge dt =? INVALID_EDGE c); auto.
  rewrite forget_lbind, forget_unpack. apply bind_cong; auto.
Qed.
Lemma forget_extract c fg fwd bwd mn : forget (l_extract_nodes c fg fwd bwd mn) = extract_nodes c fg fwd bwd mn.
Proof.
  unfold l_extract_nodes, extract_nodes.
  rewrite forget_lbind, forget_lift. apply bind_cong; auto. intros _.
  rewrite forget_lbind, forget_lift. apply bind_cong; auto. intros vf.
  rewrite forget_lbind, forget_lift. apply bind_cong; auto. intros _.
  rewrite forget_lbind, forget_lift. apply bind_cong; auto. intros vb.
  rewrite forget_lbind, forget_lift. apply bind_cong; auto. intros _.
  rewrite forget_lbind, forget_tree. apply bind_cong; auto. intros [r1 x1].
  rewrite forget_lbind, forget_tree. apply bind_cong; auto. intros [r2 x2]. auto.
Qed.

Lemma C72_same_proof : forall c H pc fg sources targets,
  forget (l_calc_path_multiple c H pc fg sources targets) = pc_calc_path_multiple c H pc fg sources targets.
Proof.
  intros c H pc fg ss ts. unfold l_calc_path_multiple, pc_calc_path_multiple.
  do 5 (rewrite forget_lbind, forget_lift; apply bind_cong; auto; intros _).
  rewrite forget_lbind, forget_lift. apply bind_cong; auto. intros [bw0 mn0].
  rewrite forget_lbind, forget_lift. apply bind_cong; auto. intros fwd1.
  rewrite forget_lbind, forget_lift. apply bind_cong; auto. intros bwd1.
  rewrite forget_lbind, forget_main. apply bind_cong; auto. intros [[[fwd2 bwd2] bw] mn].
  destruct (mn =? INVALID_NODE c); auto.
  rewrite forget_lbind, forget_lift. apply bind_cong; auto. intros _.
  rewrite forget_lbind, forget_extract. apply bind_cong; auto. intros nodes.
  rewrite forget_lbind, forget_lift. apply bind_cong; auto. intros _.
  rewrite forget_lbind, forget_lift. apply bind_cong; auto. intros f.
  rewrite forget_lbind, forget_lift. apply bind_cong; auto.
Qed.

(** ** Inversion *)
Lemma lbind_Ok {T A B} (m : recorded T A) (k : A -> recorded T B) b l : lbind m k = Ok (b, l) ->
  exists a l1 l2, m = Ok (a, l1) /\ k a = Ok (b, l2) /\ l = l1 ++ l2.
Proof.
  destruct m as [[a l1]| |]; simpl; try discriminate. destruct (k a) as [[b' l2]| |] eqn:E; simpl; try discriminate.
  intros G. injection G as <- <-. eauto 7.
Qed.
Lemma lift_Ok {T A} (m : res A) a (l : list T) : lift m = Ok (a, l) -> m = Ok a /\ l = [].
Proof. destruct m; simpl; try discriminate. intros G. injection G as <- <-. auto. Qed.
Lemma forget_Ok {T A} (m : recorded T A) a l : m = Ok (a, l) -> forget m = Ok a.
Proof. intros ->. reflexivity. Qed.

(** take the first step off a run; what is left keeps the name *)
Tactic Notation "linv" hyp(E) "as" ident(a) ident(Q) :=
  let l1 := fresh "l" in let l2 := fresh "l" in
  apply lbind_Ok in E as (a & l1 & l2 & Q & E & ->);
  try (apply lift_Ok in Q as (Q & ->)); rewrite ?app_nil_l in *.
Tactic Notation "linv_log" hyp(E) :=
  let l2 := fresh "l" in let Q := fresh "Q" in let l1 := fresh "l" in let a := fresh "a" in
  apply lbind_Ok in E as (a & l1 & l2 & Q & E & ->); injection Q as <- <-.

(** ** Counting *)
Lemma popped_app l l' : popped (l ++ l') = popped l ++ popped l'. Proof. apply flat_map_app. Qed.
Lemma compared_app l l' : compared (l ++ l') = compared l ++ compared l'. Proof. apply flat_map_app. Qed.
Lemma expanded_app l l' : expanded (l ++ l') = expanded l ++ expanded l'. Proof. apply flat_map_app. Qed.
Lemma relaxed_app l l' : relaxed (l ++ l') = relaxed l ++ relaxed l'. Proof. apply flat_map_app. Qed.
Lemma unpacked_app l l' : unpacked (l ++ l') = unpacked l ++ unpacked l'. Proof. apply flat_map_app. Qed.
Lemma checks_app fg l l' : checks fg (l ++ l') = (checks fg l + checks fg l')%nat.
Proof. unfold checks. rewrite map_app, list_sum_app. auto. Qed.
#[global] Hint Rewrite popped_app compared_app expanded_app relaxed_app unpacked_app checks_app app_nil_r app_length : steps.

Lemma compared_map d ids : compared (map (Compared d) ids) = map (pair d) ids.
Proof. induction ids as [|i r IH]; simpl; [auto|rewrite IH; auto]. Qed.
Lemma relaxed_map d ids : relaxed (map (Relaxed d) ids) = map (pair d) ids.
Proof. induction ids as [|i r IH]; simpl; [auto|rewrite IH; auto]. Qed.
Lemma flat_none {A B} (f : A -> list B) l : (forall a, In a l -> f a = []) -> flat_map f l = [].
Proof. intros G. induction l as [|a l IH]; simpl; auto. rewrite G, IH; simpl; auto. intros; apply G; simpl; auto. Qed.
Ltac none := apply flat_none; let s := fresh in intros s; rewrite in_map_iff; intros (? & <- & _); reflexivity.
Lemma popped_cmp d ids : popped (map (Compared d) ids) = []. Proof. none. Qed.
Lemma expanded_cmp d ids : expanded (map (Compared d) ids) = []. Proof. none. Qed.
Lemma relaxed_cmp d ids : relaxed (map (Compared d) ids) = []. Proof. none. Qed.
Lemma unpacked_cmp d ids : unpacked (map (Compared d) ids) = []. Proof. none. Qed.
Lemma popped_rel d ids : popped (map (Relaxed d) ids) = []. Proof. none. Qed.
Lemma expanded_rel d ids : expanded (map (Relaxed d) ids) = []. Proof. none. Qed.
Lemma compared_rel d ids : compared (map (Relaxed d) ids) = []. Proof. none. Qed.
Lemma unpacked_rel d ids : unpacked (map (Relaxed d) ids) = []. Proof. none. Qed.
#[global] Hint Rewrite compared_map relaxed_map popped_cmp expanded_cmp relaxed_cmp unpacked_cmp
  popped_rel expanded_rel compared_rel unpacked_rel map_length : steps.

(** ** Steps of the inner loops *)
Lemma stall_steps c fg d own curr : forall ids r l, l_stall_loop c fg d own curr ids = Ok (r, l) ->
  exists ids', l = map (Compared d) ids' /\ (List.length ids' <= List.length ids)%nat.
Proof.
  induction ids as [|i ids IH]; intros r l E; cbn [l_stall_loop] in E.
  - injection E as <- <-. exists []. simpl. auto.
  - linv_log E. linv E as ed X1. linv E as w X2. destruct (w =? WEIGHT_MAX c).
    + apply IH in E as (ids' & -> & Hl). exists (i :: ids'). simpl. split; auto. lia.
    + linv E as x X3. destruct (x <? hi_weight curr).
      * injection E as <- <-. exists [i]. simpl. split; auto. lia.
      * apply IH in E as (ids' & -> & Hl). exists (i :: ids'). simpl. split; auto. lia.
Qed.
Lemma relax_steps c H fg d curr : forall ids s s' l, lfold (l_relax_edge c H fg d curr) ids s = Ok (s', l) ->
  foldM (relax_edge c H fg d curr) ids s = Ok s' /\ l = map (Relaxed d) ids.
Proof.
  induction ids as [|i ids IH]; intros s s' l E; cbn [lfold foldM] in *.
  - injection E as <- <-. auto.
  - apply lbind_Ok in E as (a & l1 & l2 & E1 & E2 & ->). unfold l_relax_edge in E1. linv_log E1.
    apply lift_Ok in E1 as (E1 & ->). rewrite E1. cbn [bind]. apply IH in E2 as (E2 & ->). split; auto.
Qed.

(** ** Steps of unpacking *)
Definition quiet (l : list step) : Prop := popped l = [] /\ compared l = [] /\ expanded l = [] /\ relaxed l = [].
Lemma quiet_app l l' : quiet l -> quiet l' -> quiet (l ++ l').
Proof. intros (A & B & C & D) (A' & B' & C' & D'). unfold quiet. autorewrite with steps. rewrite A, B, C, D, A', B', C', D'. auto. Qed.

Lemma unpack_steps c fg : forall k d nodes id rv nodes' l, l_unpack k c fg d nodes id rv = Ok (nodes', l) ->
  quiet l /\ exists L, nodes' = nodes ++ L /\ (S (List.length (unpacked l)) = 2 * List.length L)%nat.
Proof.
  induction k as [|k IH]; intros d nodes id rv nodes' l E; cbn [l_unpack] in E; [discriminate|].
  linv_log E. linv E as ed X1. linv E as sc X2. destruct (negb sc).
  { injection E as <- <-. split; [split; auto|]. eexists. split; [reflexivity|]. reflexivity. }
  destruct rv; apply lbind_Ok in E as (n1 & l3 & l4 & G1 & G2 & ->);
    apply IH in G1 as (Q1 & L1 & -> & C1); apply IH in G2 as (Q2 & L2 & -> & C2);
    (split; [apply quiet_app; [split; auto|apply quiet_app; auto]|]);
    exists (L1 ++ L2); (split; [rewrite app_assoc; auto|]); autorewrite with steps; simpl; lia.
Qed.
Lemma tree_steps c fg d s : forall k result node r l, l_unpack_tree k c fg d s result node = Ok (r, l) ->
  quiet l /\ exists L, fst r = result ++ L /\ (List.length (unpacked l) <= 2 * List.length L)%nat.
Proof.
  induction k as [|k IH]; intros result node r l E; cbn [l_unpack_tree] in E; [discriminate|].
  linv E as dt X1. destruct (d_inc_edge dt =? INVALID_EDGE c).
  { injection E as <- <-. split; [split; auto|]. exists []. simpl. rewrite app_nil_r. auto. }
  apply lbind_Ok in E as (r1 & l3 & l4 & G1 & G2 & ->).
  apply unpack_steps in G1 as (Q1 & L1 & -> & C1). apply IH in G2 as (Q2 & L2 & F2 & C2).
  split; [apply quiet_app; auto|]. exists (L1 ++ L2). rewrite F2, app_assoc. split; auto.
  autorewrite with steps. lia.
Qed.
Lemma extract_steps c fg fwd bwd mn nodes l : l_extract_nodes c fg fwd bwd mn = Ok (nodes, l) ->
  quiet l /\ (List.length (unpacked l) + 2 <= 2 * List.length nodes)%nat.
Proof.
  unfold l_extract_nodes. intros E. linv E as a1 X1. linv E as a2 X2. linv E as a3 X3. linv E as a4 X4. linv E as a5 X5.
  apply lbind_Ok in E as ([r1 x1] & l3 & l4 & G1 & G2 & ->).
  apply lbind_Ok in G2 as ([r2 x2] & l5 & l6 & G2 & G3 & ->). injection G3 as <- <-.
  apply tree_steps in G1 as (Q1 & L1 & F1 & C1). apply tree_steps in G2 as (Q2 & L2 & F2 & C2). simpl in F1, F2.
  rewrite app_nil_r. split; [apply quiet_app; auto|]. rewrite F2, F1. autorewrite with steps. rewrite rev_length. simpl. lia.
Qed.

(** ** Steps of the search *)
Section Search.
  Variables (c : cfg) (H : heap_ops) (hinv : list HeapItem -> Prop).
  Hypothesis HL : heap_laws H hinv.
  Hypothesis Hdbg : debug_build c = true.
  Variables (E : list Edge) (n : N) (fg : FastGraph).
  Hypothesis Hok : fg_ok c E n fg.
  Variables (starts ends : list (N * N)).
  Variables (K : dir -> N) (Bd : N -> N) (Bm : N) (allow : Prop).
  Notation roots := (roots starts ends).
  Hypothesis Hroots : forall d v w, In (v, w) (roots d) -> v < n.
  Hypothesis HK : forall d v w, In (v, w) (roots d) -> w < umax c -> w <= K d.
  Hypothesis HW : forall d id ed, getN (fg_edges fg d) id = Some ed ->
    Bd (rk fg (fe_base ed)) + fe_weight ed <= Bd (rk fg (fe_adj ed)).
  Hypothesis HB : forall v, v < n -> Bd (rk fg v) <= Bm.
  Hypothesis Hallow : umax c < K Fwd + K Bwd + 2 * Bm -> allow.
  Notation sinv := (sinv c hinv n fg starts ends K Bd).
  Notation minv := (minv c hinv n fg starts ends K Bd).

  Definition from_roots (d : dir) (v : N) : Prop := exists r w, In (r, w) (roots d) /\ climb fg d r v.

  Lemma lab_climb d best x s : sinv d best x s -> forall v dt, lab s v = Some dt -> from_roots d v.
  Proof.
    intros I. assert (forall k v dt, (N.to_nat (rk fg v) < k)%nat -> lab s v = Some dt -> from_roots d v) as G.
    { induction k as [|k IH]; intros v dt Hk Hl; [lia|].
      destruct (si_lab _ _ _ _ _ _ _ _ _ _ _ _ I _ _ Hl) as (_ & _ & [(A1 & A2 & A3)|(ed & dp & A1 & A2 & A3 & A4 & A5 & A6)]).
      - exists v, (d_weight dt). split; auto. constructor.
      - destruct (ok_edge _ _ _ _ Hok _ _ _ A1) as (_ & _ & _ & Hr). rewrite A2, A3 in Hr.
        destruct (IH (d_parent dt) dp) as (r & rw & B1 & B2); [lia|auto|].
        exists r, rw. split; auto. rewrite <- A3. eapply climb_edge; eauto. }
    intros v dt Hl. eapply G; eauto.
  Qed.

  Lemma degree_slice d v b e : slice fg d v b e -> b <= e <= lenN (fg_edges fg d) ->
    degree fg d v = N.to_nat (e - b).
  Proof.
    intros Hs Hbe. unfold degree.
    assert (forall k l j, (forall i ed, getN l i = Some ed -> (fe_base ed = v <-> b <= j + i < e)) ->
       k = List.length l -> 
       List.length (filter (fun e0 => fe_base e0 =? v) l) = List.length (filter (fun i => (b <=? i) && (i <? e)) (rangeN j (j + N.of_nat k)))) as G.
    { induction k as [|k IH]; intros l j Hl Hk.
      - destruct l; [|discriminate]. rewrite N.add_0_r. unfold rangeN. rewrite N.sub_diag. reflexivity.
      - destruct l as [|ed l]; [discriminate|]. rewrite rangeN_cons by lia. simpl filter.
        assert ((fe_base ed =? v) = ((b <=? j) && (j <? e))) as ->.
        { specialize (Hl 0 ed eq_refl). rewrite N.add_0_r in Hl.
          destruct (N.eqb_spec (fe_base ed) v), (N.leb_spec b j), (N.ltb_spec j e); simpl; auto; try lia; tauto. }
        specialize (IH l (j + 1)).
        replace (j + 1 + N.of_nat k) with (j + N.of_nat (S k)) in IH by lia.
        destruct ((b <=? j) && (j <? e)); simpl; rewrite IH; auto;
          try (intros i ed' Hi; specialize (Hl (i + 1) ed'); simpl in Hl; destruct (N.eqb_spec (i + 1) 0); [lia|];
               replace (N.pred (i + 1)) with i in Hl by lia; rewrite (Hl Hi); lia).
    }
    rewrite (G (List.length (fg_edges fg d)) (fg_edges fg d) 0); auto.
    2:{ intros i ed Hi. rewrite N.add_0_l. symmetry. eapply (ok_iff _ _ _ _ Hok); eauto. }
    rewrite N.add_0_l. change (N.of_nat (List.length (fg_edges fg d))) with (lenN (fg_edges fg d)).
    rewrite (rangeN_app 0 b (lenN (fg_edges fg d))), (rangeN_app b e (lenN (fg_edges fg d))) by lia.
    rewrite !filter_app, !app_length.
    rewrite (filter_none _ (rangeN 0 b)).
    2:{ intros i Hi. apply rangeN_In in Hi. destruct (N.leb_spec b i); simpl; auto. lia. }
    rewrite (filter_none _ (rangeN e _)).
    2:{ intros i Hi. apply rangeN_In in Hi. destruct (N.ltb_spec i e); simpl; auto; [lia|]. apply andb_false_r. }
    rewrite (filter_all _ (rangeN b e)).
    2:{ intros i Hi. apply rangeN_In in Hi. destruct (N.leb_spec b i), (N.ltb_spec i e); simpl; auto; lia. }
    pose proof (lenN_rangeN b e) as G3. unfold lenN in G3. simpl. lia.
  Qed.

  Definition search_steps (d : dir) (own own' : Side) (l : list step) : Prop :=
    ((expanded l = [] /\ relaxed l = [] /\ forall v, stl own' v = stl own v) \/
     (exists x b e, expanded l = [(d, x)] /\ slice fg d x b e /\ b <= e <= lenN (fg_edges fg d) /\
        relaxed l = map (pair d) (rangeN b e) /\
        stl own x = false /\ stl own' x = true /\ (forall v, v <> x -> stl own' v = stl own v))) /\
    (List.length (popped l) + List.length (s_heap own') <= List.length (s_heap own) + List.length (relaxed l))%nat /\
    (List.length (compared l) <= checks fg (popped l))%nat /\
    unpacked l = [] /\
    (forall d' v, In (d', v) (popped l) -> d' = d /\ from_roots d v) /\
    (forall x, In x (expanded l) -> In x (popped l)).

  Lemma search_dir_steps d : forall fuel own other best mn own' best' mn' l,
    minv d own other best mn ->
    l_search_dir fuel c H fg d own other best mn = Ok (own', best', mn', l) ->
    search_steps d own own' l.
  Proof.
    induction fuel as [|fuel IH]; intros own other best mn own' best' mn' l M EQ; [discriminate|]. cbn [l_search_dir] in EQ.
    pose proof (mi_own _ _ _ _ _ _ _ _ _ _ _ _ _ M) as I.
    destruct (hp_pop H (s_heap own)) as [[curr h']|] eqn:Ep.
    2:{ injection EQ as <- <- <- <-. split; [left; auto|]. simpl. split; [lia|]. split; [lia|]. split; auto.
        split; [intros d' v []|intros x []]. }
    destruct (pop_inv c H hinv HL Hdbg n fg starts ends K Bd Bm allow Hallow _ _ _ _ _ I Ep) as (P1 & P2 & P3).
    assert (In curr (s_heap own)) as Hin by (eapply Permutation_in; [symmetry; exact P2|simpl; auto]).
    pose proof (Permutation_length P2) as Plen. simpl in Plen.
    destruct (si_items _ _ _ _ _ _ _ _ _ _ _ _ I _ Hin) as (Hcw & dt & Hl & Hle).
    pose proof (lab_lt _ _ _ _ (si_base _ _ _ _ _ _ _ _ _ _ _ _ I) Hl) as Hv.
    pose proof (lab_climb _ _ _ _ I _ _ Hl) as Hcl.
    linv_log EQ. set (own1 := s_set_heap own h') in *.
    assert (side_base n own1) as B1 by exact (si_base _ _ _ _ _ _ _ _ _ _ _ _ I).
    linv EQ as st0 Q0. rewrite (QueryFacts.is_settled_ok n own1 _ B1 Hv) in Q0. injection Q0 as <-.
    change (stl own1 (hi_node curr)) with (stl own (hi_node curr)) in EQ.
    assert (sinv d best None own1 -> minv d own1 other best mn) as Mdrop.
    { intros I'. constructor; auto; [apply (mi_other _ _ _ _ _ _ _ _ _ _ _ _ _ M)|apply (mi_meet _ _ _ _ _ _ _ _ _ _ _ _ _ M)|
        apply (mi_both _ _ _ _ _ _ _ _ _ _ _ _ _ M)]. }
    assert (forall own'' ids' l', search_steps d own1 own'' l' -> (List.length ids' <= degree fg (opp d) (hi_node curr))%nat ->
       search_steps d own own'' ([Popped d (hi_node curr)] ++ map (Compared d) ids' ++ l')) as Hrec.
    { intros own'' ids' l' (S1 & S2 & S3 & S4 & S5 & S6) Hids. unfold search_steps. autorewrite with steps.
      simpl. unfold checks in *. simpl. unfold own1 in S2. simpl in S2.
      split; [exact S1|]. split; [lia|]. split; [lia|]. split; auto. split.
      - intros d' v [G|G]; [injection G as <- <-; auto|auto].
      - intros x Hx. right. auto. }
    destruct (stl own (hi_node curr)) eqn:Es.
    { apply IH in EQ.
      - apply (Hrec own' [] _ EQ). simpl; lia.
      - apply Mdrop. eapply (drop_inv c H hinv HL Hdbg n fg starts ends K Bd Bm allow Hallow); eauto. }
    destruct (N.ltb_spec best (hi_weight curr)) as [Hbw|Hbw].
    { injection EQ as <- <- <- <-. apply (Hrec own1 [] []); [|simpl; lia]. split; [left; auto|]. simpl. split; [lia|]. split; [lia|].
      split; auto. split; [intros d' v []|intros x []]. }
    (* stalling *)
    apply lbind_Ok in EQ as (st & ls & l2 & Est & EQ & ->). pose proof (forget_Ok _ _ _ Est) as Est'.
    rewrite forget_stallable in Est'.
    unfold l_is_stallable in Est. destruct (ok_slice _ _ _ _ Hok (opp d) _ Hv) as (b & e & Hsl & Hbe).
    rewrite (slice_begin _ _ _ _ _ Hsl), (slice_end _ _ _ _ _ Hsl) in Est.
    linv Est as b' Q1. injection Q1 as <-. linv Est as e' Q1. injection Q1 as <-. apply stall_steps in Est as (ids' & -> & Hids).
    assert ((List.length ids' <= degree fg (opp d) (hi_node curr))%nat) as Hids'.
    { rewrite (degree_slice _ _ _ _ Hsl Hbe). pose proof (lenN_rangeN b e) as G. unfold lenN in G. lia. }
    clear Hids.
    unfold is_stallable in Est'. rewrite (slice_begin _ _ _ _ _ Hsl), (slice_end _ _ _ _ _ Hsl) in Est'. cbn [bind] in Est'.
    unfold own1 in Est'. rewrite stall_set_heap in Est'.
    pose proof (stall_spec c hinv Hdbg E n fg Hok starts ends K Bd Bm allow) as SS.
    specialize (SS HW HB Hallow d best own curr b e I Hsl ltac:(lia) (rangeN b e)).
    rewrite Est' in SS. simpl in SS. destruct SS as (St & Sf).
    { intros i Hi. apply rangeN_In in Hi. auto. }
    destruct st.
    { destruct (St eq_refl) as (id & ed & Hed & Hb & Hw1 & Hw2).
      apply IH in EQ.
      - apply Hrec; auto.
      - apply Mdrop. eapply (drop_inv c H hinv HL Hdbg n fg starts ends K Bd Bm allow Hallow); eauto.
        destruct (N.lt_ge_cases (wt c own (hi_node curr)) (hi_weight curr)) as [Hlt|Hge]; auto.
        right; left. exists id, ed. repeat split; auto. lia. }
    assert (~ stallw c fg d own (hi_node curr)) as Hns.
    { intros (id & ed & Hed & Hb & Hw1 & Hw2).
      assert (In id (rangeN b e)) as Hid by (apply rangeN_In, (ok_iff _ _ _ _ Hok _ _ _ _ _ _ Hed Hsl); auto).
      pose proof (Sf eq_refl _ _ Hid Hed Hw1). rewrite (lab_wt c _ _ _ Hl) in Hw2. lia. }
    destruct (lab_fresh c H hinv HL Hdbg n fg starts ends K Bd Bm allow Hallow _ _ _ _ _ I Ep Es Hns Hbw) as (dt' & Hl' & Hdw).
    assert (dt' = dt) by congruence. subst dt'. clear Hl' Hle St Sf.
    destruct (ok_slice _ _ _ _ Hok d _ Hv) as (b2 & e2 & Hsl2 & Hbe2).
    rewrite (slice_begin _ _ _ _ _ Hsl2), (slice_end _ _ _ _ _ Hsl2) in EQ.
    linv EQ as b' Q1. injection Q1 as <-. linv EQ as e' Q1. injection Q1 as <-.
    apply lbind_Ok in EQ as (own2 & lr & l3 & Er & EQ & ->).
    apply relax_steps in Er as (Er & ->).
    destruct curr as [wx x]. cbn [hi_node hi_weight] in *.
    assert (sinv d best (Some x) own1) as I1.
    { assert (forall it, In it h' -> In it (s_heap own)) as Hsub.
      { intros it Hit. eapply Permutation_in; [symmetry; exact P2|]. simpl; auto. }
      destruct I as [H1 H2 H3 H4 H5 H6 H7 H8]. constructor; auto.
      - intros v dv Hlv. destruct (H3 v dv Hlv) as (A1 & A2 & [A3|(ed & dp & A3 & A4 & A5 & A6 & A7 & A8)]); [auto|].
        split; auto. split; auto. right. exists ed, dp. repeat (split; auto).
        destruct A7 as [A7|A7]; [left; auto|discriminate].
      - intros it Hit. apply (H4 it). auto.
      - intros v it [Hd|Hd] Hit; [apply (H5 v it); auto; left; auto|]. injection Hd as <-.
        change (wt c own1 x) with (wt c own x). rewrite (lab_wt c _ _ _ Hl). apply Hsub, P3 in Hit. simpl in Hit. lia.
      - intros v dv Hlv Hsv Hxv. destruct (H6 v dv Hlv Hsv) as [G|[G|G]]; auto; [discriminate|].
        eapply Permutation_in in G; [|exact P2]. destruct G as [G|G]; auto. injection G as _ ->. congruence. }
    assert (wp (ovf allow) (foldM (relax_edge c H fg d (mkHeapItem wx x)) (rangeN b2 e2) own1)
       (fun s' => sinv d best (Some x) s' /\ lab s' x = Some dt /\ (forall v, stl s' v = stl own1 v) /\
          (List.length (s_heap s') <= List.length (s_heap own1) + N.to_nat (e2 - b2))%nat)) as HR.
    { eapply wp_mono; [eapply (relax_all_spec c H hinv HL Hdbg E n fg Hok starts ends K Bd Bm allow HW HB Hallow d best own1 x wx dt b2 e2 I1); auto; try lia|].
      - intros v Hsv. change (wt c own1 v) with (wt c own v). pose proof (si_mono _ _ _ _ _ _ _ _ _ _ _ _ I v _ (or_introl Hsv) Hin). auto.
      - intros it Hit. apply P3. eapply Permutation_in; [symmetry; exact P2|]. simpl; auto.
      - intros s' (J1 & J2 & J3 & _ & _ & _ & _ & J8). auto. }
    rewrite Er in HR. simpl in HR. destruct HR as (J1 & J2 & J3 & J8).
    destruct (settle_node_ok n own2 x dt (si_base _ _ _ _ _ _ _ _ _ _ _ _ J1) J2) as (own3 & Hse & B3 & Hh3 & Hl3).
    linv EQ as own3' Q1. rewrite Hse in Q1. injection Q1 as <-. linv_log EQ.
    assert (forall v, stl own3 v = if v =? x then true else stl own v) as Hstl3.
    { intros v. unfold stl at 1. rewrite Hl3. destruct (N.eqb_spec v x); simpl; auto. apply J3. }
    assert (forall lz, lz = [] -> own' = own3 -> search_steps d own own'
       ([Popped d x] ++ map (Compared d) ids' ++ map (Relaxed d) (rangeN b2 e2) ++ [Expanded d x] ++ lz)) as Hfin.
    { intros lz -> ->. unfold search_steps. autorewrite with steps. simpl.
      pose proof (lenN_rangeN b2 e2) as G. unfold lenN in G.
      split; [right; exists x, b2, e2; split; [auto|]; split; [auto|]; split; [auto|]; split; [auto|]; split; [auto|]; split|].
      - rewrite Hstl3, N.eqb_refl. auto.
      - intros v Hne. rewrite Hstl3. destruct (N.eqb_spec v x); [congruence|auto].
      - split; [rewrite Hh3; unfold own1 in J8; simpl in J8; lia|]. split; [unfold checks; simpl; lia|]. split; auto. split.
        + intros d' v [G1|[]]. injection G1 as <- <-. auto.
        + auto. }
    linv EQ as v Q2.
    destruct v.
    - linv EQ as ow Q3. linv EQ as w Q4. destruct (w <? best); injection EQ as <- <- <- <-; apply Hfin; auto.
    - injection EQ as <- <- <- <-. apply Hfin; auto.
  Qed.

  (** ** Steps of the whole search *)
  Definition pick (d : dir) (fwd bwd : Side) : Side := match d with Fwd => fwd | Bwd => bwd end.

  Record counted (fwd bwd : Side) (l : list step) : Prop := mk_counted {
    ct_exp : NoDup (expanded l);
    ct_uns : forall d x, In (d, x) (expanded l) -> stl (pick d fwd bwd) x = false;
    ct_rel : NoDup (relaxed l);
    ct_src : forall d i, In (d, i) (relaxed l) ->
      exists ed, getN (fg_edges fg d) i = Some ed /\ In (d, fe_base ed) (expanded l);
    ct_cmp : (List.length (compared l) <= checks fg (popped l))%nat;
    ct_unp : unpacked l = [];
    ct_root : forall d v, In (d, v) (popped l) -> from_roots d v;
    ct_sub : forall x, In x (expanded l) -> In x (popped l)
  }.

  Lemma NoDup_join {A} (l l' : list A) : NoDup l -> NoDup l' -> (forall x, In x l -> In x l' -> False) -> NoDup (l ++ l').
  Proof.
    intros H1 H2 H3. induction H1 as [|a l Ha H1 IH]; simpl; auto. constructor.
    - intros G. apply in_app_or in G as [G|G]; [auto|]. apply (H3 a); simpl; auto.
    - apply IH. intros x Hx. apply H3. simpl; auto.
  Qed.

  Lemma counted_nil fwd bwd : counted fwd bwd [].
  Proof. constructor; simpl; auto; try constructor; try (intros ? ? []); intros ? []. Qed.

  Lemma counted_app fwd bwd fwd' bwd' l l' : counted fwd bwd l -> counted fwd' bwd' l' ->
    (forall d x, stl (pick d fwd bwd) x = true -> stl (pick d fwd' bwd') x = true) ->
    (forall d x, In (d, x) (expanded l) -> stl (pick d fwd' bwd') x = true) ->
    counted fwd bwd (l ++ l').
  Proof.
    intros [A1 A2 A3 A4 A5 A6 A7 A8] [B1 B2 B3 B4 B5 B6 B7 B8] Hm Hs.
    assert (forall d x, In (d, x) (expanded l) -> In (d, x) (expanded l') -> False) as Hdis.
    { intros d x G1 G2. apply Hs in G1. apply B2 in G2. congruence. }
    constructor; autorewrite with steps.
    - apply NoDup_join; auto. intros [d x]. apply Hdis.
    - intros d x G. apply in_app_or in G as [G|G]; auto. apply B2 in G.
      destruct (stl (pick d fwd bwd) x) eqn:Es; auto. apply Hm in Es. congruence.
    - apply NoDup_join; auto. intros [d i] G1 G2. destruct (A4 _ _ G1) as (ed & F1 & F2).
      destruct (B4 _ _ G2) as (ed' & F3 & F4). rewrite F1 in F3. injection F3 as <-. eapply Hdis; eauto.
    - intros d i G. apply in_app_or in G as [G|G]; [apply A4 in G|apply B4 in G]; destruct G as (ed & F1 & F2);
        exists ed; split; auto; apply in_or_app; auto.
    - lia.
    - rewrite A6, B6. auto.
    - intros d v G. apply in_app_or in G as [G|G]; auto.
    - intros x G. apply in_or_app. apply in_app_or in G as [G|G]; auto.
  Qed.

  Lemma rangeN_NoDup' b e : NoDup (rangeN b e).
  Proof.
    unfold rangeN. generalize (N.to_nat (e - b)) as k. intros k. revert b. induction k as [|k IH]; intros b; simpl; constructor; auto.
    intros G. assert (forall k b x, In x (range_from k b) -> b <= x) as Hge.
    { clear. induction k as [|k IH]; simpl; [intros ? ? []|]. intros b x [<-|G]; [lia|]. apply IH in G. lia. }
    apply Hge in G. lia.
  Qed.

  Lemma steps_counted d own own' fwd bwd l : search_steps d own own' l -> pick d fwd bwd = own -> counted fwd bwd l.
  Proof.
    intros (S1 & _ & S3 & S4 & S5 & S6) <-. destruct S1 as [(X & R & St)|(x & b & e & X & Hsl & Hbe & R & U1 & U2 & U3)].
    - assert (forall d' v, In (d', v) (popped l) -> from_roots d' v) as Hr by (intros d' v G; apply S5 in G as (-> & G); auto).
      constructor; rewrite ?X, ?R; auto; try constructor; try (intros ? ? []); intros ? [].
    - assert (forall i, In i (rangeN b e) -> exists ed, getN (fg_edges fg d) i = Some ed /\ fe_base ed = x) as Hid.
      { intros i Hi. apply rangeN_In in Hi. destruct (getN_lt (fg_edges fg d) i) as (ed & Hed); [lia|].
        exists ed. split; auto. apply (ok_iff _ _ _ _ Hok _ _ _ _ _ _ Hed Hsl); auto. }
      constructor; rewrite ?X, ?R; auto.
      + repeat constructor. intros [].
      + intros d' y [G|[]]. injection G as <- <-. auto.
      + apply FinFun.Injective_map_NoDup; [intros u v G; congruence|apply rangeN_NoDup'].
      + intros d' i G. apply in_map_iff in G as (i' & G & Hi). injection G as <- <-. destruct (Hid _ Hi) as (ed & F1 & F2).
        exists ed. split; auto. rewrite F2. simpl; auto.
      + intros d' v G. apply S5 in G as (-> & G). auto.
      + rewrite X in S6. auto.
  Qed.
  Lemma steps_mono d own own' l : search_steps d own own' l -> forall x, stl own x = true -> stl own' x = true.
  Proof.
    intros (S1 & _) x Hx. destruct S1 as [(_ & _ & St)|(y & b & e & _ & _ & _ & _ & U1 & U2 & U3)].
    - rewrite St; auto.
    - destruct (N.eq_dec x y) as [->|Hne]; auto. rewrite U3; auto.
  Qed.
  Lemma steps_settles d own own' l : search_steps d own own' l -> forall d' x, In (d', x) (expanded l) -> d' = d /\ stl own' x = true.
  Proof.
    intros (S1 & _) d' x Hx. destruct S1 as [(X & _ & St)|(y & b & e & X & _ & _ & _ & U1 & U2 & U3)]; rewrite X in Hx.
    - destruct Hx.
    - destruct Hx as [G|[]]. injection G as <- <-. auto.
  Qed.

  Lemma main_steps : forall f fwd bwd best mn fwd' bwd' best' mn' l, minv Fwd fwd bwd best mn ->
    l_main_loop f c H fg fwd bwd best mn = Ok (fwd', bwd', best', mn', l) ->
    counted fwd bwd l /\
    (List.length (popped l) <= List.length (s_heap fwd) + List.length (s_heap bwd) + List.length (relaxed l))%nat.
  Proof.
    induction f as [|rest IH]; [|specialize (IH tt)]; intros fwd bwd best mn fwd' bwd' best' mn' l M EQ; [discriminate|].
    cbn [l_main_loop] in EQ.
    assert (counted fwd bwd [] /\ (0 <= List.length (s_heap fwd) + List.length (s_heap bwd) + 0)%nat) as Hnil by (split; [apply counted_nil|lia]).
    assert (('(fwd', bw1, mn1) <~~ l_search_dir (S (List.length (s_heap fwd))) c H fg Fwd fwd bwd best mn ;;
          '(bwd', bw2, mn2) <~~ l_search_dir (S (List.length (s_heap bwd))) c H fg Bwd bwd fwd' bw1 mn1 ;;
          l_main_loop (rest tt) c H fg fwd' bwd' bw2 mn2) = Ok (fwd', bwd', best', mn', l) ->
       counted fwd bwd l /\
       (List.length (popped l) <= List.length (s_heap fwd) + List.length (s_heap bwd) + List.length (relaxed l))%nat) as G.
    { clear EQ. intros EQ.
      apply lbind_Ok in EQ as ([[f1 bw1] mn1] & lf & l0 & Ef & EQ & ->).
      apply lbind_Ok in EQ as ([[b1 bw2] mn2] & lb & lr & Eb & EQ & ->).
      pose proof (search_dir_spec c H hinv HL Hdbg E n fg Hok starts ends K Bd Bm allow HW HB Hallow Fwd _ _ _ _ _ M (le_n _)) as Sf.
      rewrite <- forget_search, (forget_Ok _ _ _ Ef) in Sf. simpl in Sf. destruct Sf as (M1 & _).
      pose proof (minv_swap c hinv Hdbg n fg starts ends K Bd Bm allow Hallow Fwd _ _ _ _ M1) as M1'.
      pose proof (search_dir_spec c H hinv HL Hdbg E n fg Hok starts ends K Bd Bm allow HW HB Hallow Bwd _ _ _ _ _ M1' (le_n _)) as Sb.
      rewrite <- forget_search, (forget_Ok _ _ _ Eb) in Sb. simpl in Sb. destruct Sb as (M2 & _).
      pose proof (minv_swap c hinv Hdbg n fg starts ends K Bd Bm allow Hallow Bwd _ _ _ _ M2) as M2'.
      apply (search_dir_steps Fwd) in Ef; [|exact M]. apply (search_dir_steps Bwd) in Eb; [|exact M1'].
      apply IH in EQ as (Cr & Pr); [|exact M2'].
      assert (counted f1 b1 lr) as Cr' by exact Cr.
      pose proof (steps_counted Bwd bwd b1 f1 bwd lb Eb eq_refl) as Cb.
      pose proof (steps_counted Fwd fwd f1 fwd bwd lf Ef eq_refl) as Cf.
      split.
      - apply (counted_app fwd bwd f1 bwd); auto.
        + apply (counted_app f1 bwd f1 b1); auto.
          * intros [|] x; simpl; auto. apply (steps_mono _ _ _ _ Eb).
          * intros d x G. apply (steps_settles _ _ _ _ Eb) in G as (-> & G). auto.
        + intros [|] x; simpl; auto. apply (steps_mono _ _ _ _ Ef).
        + intros d x G. apply (steps_settles _ _ _ _ Ef) in G as (-> & G). auto.
      - destruct Ef as (_ & Pf & _). destruct Eb as (_ & Pb & _). autorewrite with steps. lia. }
    destruct (s_heap fwd) eqn:E1, (s_heap bwd) eqn:E2; auto. injection EQ as <- <- <- <- <-. exact Hnil.
  Qed.

  Theorem query_steps pc pc' r l : pc_ok n pc -> starts <> [] -> ends <> [] ->
    l_calc_path_multiple c H pc fg starts ends = Ok (pc', r, l) ->
    NoDup (expanded l) /\ NoDup (relaxed l) /\
    (forall d i, In (d, i) (relaxed l) -> exists ed, getN (fg_edges fg d) i = Some ed /\ In (d, fe_base ed) (expanded l)) /\
    (List.length (popped l) <= List.length starts + List.length ends + List.length (relaxed l))%nat /\
    (List.length (compared l) <= checks fg (popped l))%nat /\
    (forall d v, In (d, v) (popped l) -> from_roots d v) /\
    (forall x, In x (expanded l) -> In x (popped l)) /\
    (List.length (unpacked l) <= match r with Some p => 2 * (List.length (sp_nodes p) - 1) | None => 0 end)%nat.
  Proof.
    intros (Hn & Bf & Bb) Hs He. unfold l_calc_path_multiple. intros EQ.
    linv EQ as u1 Z1. linv EQ as u2 Z2. linv EQ as u3 Z3. linv EQ as u4 Z4. linv EQ as u5 Z5.
    destruct (reset_ok n _ Bf) as [Rf1 Rf2]. destruct (reset_ok n _ Bb) as [Rb1 Rb2].
    apply lbind_Ok in EQ as ([bw0 mn0] & lb0 & lb1 & Zb & EQ & ->). apply lift_Ok in Zb as (Zb & ->).
    linv EQ as fwd1 Zf. linv EQ as bwd1 Zw.
    assert (wp (ovf allow) (init_best c starts ends) (fun '(bw, mn) => (mn = umax c /\ bw = umax c) \/
      (bw < umax c /\ exists sw ew, In (mn, sw) starts /\ In (mn, ew) ends /\ sw + ew = bw /\ sw < umax c /\ ew < umax c))) as Hm0
      by (eapply init_best_spec; eauto).
    rewrite Zb in Hm0. simpl in Hm0.
    assert (wp (ovf allow) (init_side c H (reset_side (pc_fwd pc)) starts) (iinv c hinv n starts ends Fwd starts)) as F1
      by (eapply (init_side_spec c H hinv HL Hdbg n starts ends K Bm allow) with (d := Fwd); eauto).
    assert (wp (ovf allow) (init_side c H (reset_side (pc_bwd pc)) ends) (iinv c hinv n starts ends Bwd ends)) as B1
      by (eapply (init_side_spec c H hinv HL Hdbg n starts ends K Bm allow) with (d := Bwd); eauto).
    rewrite Zf in F1. rewrite Zw in B1. simpl in F1, B1.
    apply lbind_Ok in EQ as ([[[fwd2 bwd2] best] mn] & lm & lx & Em & EQ & ->).
    assert (minv Fwd fwd1 bwd1 bw0 mn0) as M by (eapply init_minv; eauto).
    apply main_steps in Em as (Cm & Pm); [|exact M].
    assert (quiet lx /\ (List.length (unpacked lx) <= match r with Some p => 2 * (List.length (sp_nodes p) - 1) | None => 0 end)%nat) as (Q & U).
    { destruct (mn =? INVALID_NODE c).
      - injection EQ as <- <- <-. split; [split; auto|simpl; lia].
      - linv EQ as u6 Z6. apply lbind_Ok in EQ as (nodes & le & lz & Ee & EQ & ->).
        apply extract_steps in Ee as (Qe & Ue). linv EQ as u7 Z7. linv EQ as u8 Z8. linv EQ as u9 Z9. injection EQ as <- <- <-.
        rewrite app_nil_r. split; auto. simpl. lia. }
    destruct Q as (Q1 & Q2 & Q3 & Q4). destruct Cm as [A1 A2 A3 A4 A5 A6 A7 A8].
    pose proof (ii_len _ _ _ _ _ _ _ _ F1). pose proof (ii_len _ _ _ _ _ _ _ _ B1).
    autorewrite with steps. rewrite Q1, Q2, Q3, Q4, A6. autorewrite with steps.
    split; auto. split; auto. split; auto. split; [simpl; lia|]. split; [simpl; lia|]. auto.
  Qed.
End Search.

Lemma prepared_effort : forall c ops ig fg H hinv n pc sources targets pc' r l,
  debug_build c = true -> frozen_graph c ops ig -> prepared c ig fg -> heap_laws H hinv -> calculator c n pc ->
  l_calc_path_multiple c H pc fg sources targets = Ok (pc', r, l) ->
  fg_ok c (ig_edges ig) (ig_num_nodes ig) fg /\
  NoDup (expanded l) /\ NoDup (relaxed l) /\
  (forall d i, In (d, i) (relaxed l) -> exists ed, getN (fg_edges fg d) i = Some ed /\ In (d, fe_base ed) (expanded l)) /\
  (List.length (popped l) <= List.length sources + List.length targets + List.length (relaxed l))%nat /\
  (List.length (compared l) <= checks fg (popped l))%nat /\
  (forall d v, In (d, v) (popped l) -> exists r w, In (r, w) (sides sources targets d) /\ r < ig_num_nodes ig /\ climb fg d r v) /\
  (forall x, In x (expanded l) -> In x (popped l)) /\
  (List.length (unpacked l) <= match r with Some p => 2 * (List.length (sp_nodes p) - 1) | None => 0 end)%nat.
Proof.
  intros c ops ig fg H hinv n pc ss ts pc' r l Hd Hf Hp HL Hc EQ.
  pose proof (prepared_ok c ops ig fg Hd Hf Hp) as Hok.
  pose proof (forget_Ok _ _ _ EQ) as EQ'. rewrite C72_same_proof in EQ'.
  destruct (query_checks _ _ _ _ _ _ _ EQ') as (Hn & H1 & H2 & H3 & H4).
  pose proof (calculator_ok _ _ _ Hc) as Hpc.
  assert (n = ig_num_nodes ig) as ->.
  { rewrite <- (ok_n _ _ _ _ Hok), Hn. symmetry. apply Hpc. }
  assert (forall d v w, In (v, w) (roots ss ts d) -> v < ig_num_nodes ig) as Hr.
  { destruct Hpc as (Hpn & _). rewrite Hpn in *. intros [] v w HI; eauto. }
  destruct (query_steps c H hinv HL Hd _ _ fg Hok ss ts (fun _ => umax c) (fun r => r * umax c) (ig_num_nodes ig * umax c) True) with (9 := EQ)
    as (A1 & A2 & A3 & A4 & A5 & A6 & A7 & A8); auto.
  - intros d v w _ Hw. lia.
  - intros d id ed HG. destruct (ok_edge _ _ _ _ Hok d id ed HG) as (_ & _ & [_ Hw] & Hrk). nia.
  - intros v Hv. pose proof (ok_rank _ _ _ _ Hok v Hv). nia.
  - split; [exact Hok|]. split; auto. split; auto. split; auto. split; auto. split; auto. split; [|auto].
    intros d v G. destruct (A6 d v G) as (r0 & w & B1 & B2). exists r0, w. split; [destruct d; exact B1|]. split; [eapply Hr; eauto|auto].
Qed.

Lemma dirs_length (l : list (dir * N)) a b : NoDup l ->
  (forall d i, In (d, i) l -> i < match d with Fwd => a | Bwd => b end) -> lenN l <= a + b.
Proof.
  intros Hnd Hb.
  assert (List.length l <= List.length (map (pair Fwd) (rangeN 0 a) ++ map (pair Bwd) (rangeN 0 b)))%nat as G.
  { apply NoDup_incl_length; auto. intros [d i] Hi. apply in_or_app. apply Hb in Hi.
    destruct d; [left|right]; apply in_map, rangeN_In; lia. }
  rewrite app_length, !map_length in G. pose proof (lenN_rangeN 0 a). pose proof (lenN_rangeN 0 b). unfold lenN in *. lia.
Qed.

Lemma climb_lt c E n fg d u v : fg_ok c E n fg -> climb fg d u v -> u < n -> v < n /\ (u = v \/ rk fg u < rk fg v).
Proof.
  intros Hok Hc Hu. induction Hc as [|v id ed Hc IH Hg Hb]; auto.
  destruct (ok_edge _ _ _ _ Hok _ _ _ Hg) as (G1 & G2 & _ & G3). rewrite Hb in G3. split; auto.
  right. destruct IH as (_ & [<-|IH]); lia.
Qed.

Lemma C72_search_proof : forall c ops ig fg H hinv n pc sources targets pc' r l,
  debug_build c = true -> frozen_graph c ops ig -> prepared c ig fg -> heap_laws H hinv -> calculator c n pc ->
  l_calc_path_multiple c H pc fg sources targets = Ok (pc', r, l) ->
  NoDup (expanded l) /\ lenN (expanded l) <= 2 * ig_num_nodes ig /\
  NoDup (relaxed l) /\ lenN (relaxed l) <= lenN (fg_edges_fwd fg) + lenN (fg_edges_bwd fg) /\
  (forall d i, In (d, i) (relaxed l) -> exists ed, getN (fg_edges fg d) i = Some ed /\ In (d, fe_base ed) (expanded l)) /\
  lenN (popped l) <= lenN sources + lenN targets + lenN (relaxed l) /\
  (List.length (compared l) <= checks fg (popped l))%nat.
Proof.
  intros c ops ig fg H hinv n pc ss ts pc' r l Hd Hf Hp HL Hc EQ.
  destruct (prepared_effort c ops ig fg H hinv n pc ss ts pc' r l Hd Hf Hp HL Hc EQ) as (Hok & A1 & A2 & A3 & A4 & A5 & A6 & A7 & A8).
  split; auto. split.
  { replace (2 * ig_num_nodes ig) with (ig_num_nodes ig + ig_num_nodes ig) by lia. apply dirs_length; auto.
    intros d v G. apply A7, A6 in G as (r0 & w & _ & B2 & B3). apply (climb_lt _ _ _ _ _ _ _ Hok B3) in B2. destruct d; tauto. }
  split; auto. split.
  { apply dirs_length; auto. intros d i G. apply A3 in G as (ed & G & _). apply getN_Some_lt in G. destruct d; exact G. }
  split; auto. split; auto. unfold lenN. lia.
Qed.

Lemma C72_space_proof : forall c ops ig fg H hinv n pc sources targets pc' r l,
  debug_build c = true -> frozen_graph c ops ig -> prepared c ig fg -> heap_laws H hinv -> calculator c n pc ->
  l_calc_path_multiple c H pc fg sources targets = Ok (pc', r, l) ->
  forall d v, In (d, v) (popped l) \/ In (d, v) (expanded l) ->
  exists u w, In (u, w) (sides sources targets d) /\ climb fg d u v /\
    (u = v \/ exists a b, getN (fg_ranks fg) u = Some a /\ getN (fg_ranks fg) v = Some b /\ a < b).
Proof.
  intros c ops ig fg H hinv n pc ss ts pc' r l Hd Hf Hp HL Hc EQ d v G.
  destruct (prepared_effort c ops ig fg H hinv n pc ss ts pc' r l Hd Hf Hp HL Hc EQ) as (Hok & A1 & A2 & A3 & A4 & A5 & A6 & A7 & A8).
  assert (In (d, v) (popped l)) as Hi by (destruct G; auto). apply A6 in Hi as (u & w & B1 & B2 & B3).
  exists u, w. split; auto. split; auto. destruct (climb_lt _ _ _ _ _ _ _ Hok B3 B2) as (Hv & [->|Hr]); auto.
  right. exists (rk fg u), (rk fg v). pose proof (ok_lr _ _ _ _ Hok) as Hlr.
  split; [eapply rk_get; eauto|]. split; [eapply rk_get; eauto|]. auto.
Qed.

Lemma search_unp c H fg d : forall k own other bw mn r l,
  l_search_dir k c H fg d own other bw mn = Ok (r, l) -> unpacked l = [].
Proof.
  induction k as [|k IH]; intros own other bw mn r l EQ; cbn [l_search_dir] in EQ; [discriminate|].
  destruct (hp_pop H (s_heap own)) as [[curr h']|]; [|injection EQ as <- <-; auto].
  linv_log EQ. linv EQ as st Q1. destruct st; [apply IH in EQ; exact EQ|].
  destruct (bw <? hi_weight curr); [injection EQ as <- <-; auto|].
  apply lbind_Ok in EQ as (st & ls & l2 & Est & EQ & ->). unfold l_is_stallable in Est.
  linv Est as b' Q2. linv Est as e' Q3. apply stall_steps in Est as (ids & -> & _).
  autorewrite with steps. simpl. destruct st; [apply IH in EQ; exact EQ|].
  linv EQ as b2 Q4. linv EQ as e2 Q5. apply lbind_Ok in EQ as (own2 & lr & l5 & Er & EQ & ->).
  apply relax_steps in Er as (_ & ->). linv EQ as own3 Q6. linv_log EQ. linv EQ as v Q7.
  autorewrite with steps. simpl. destruct v.
  - linv EQ as ow Q8. linv EQ as w Q9. destruct (w <? bw); injection EQ as <- <-; auto.
  - injection EQ as <- <-; auto.
Qed.
Lemma main_unp c H fg : forall f fwd bwd bw mn r l, l_main_loop f c H fg fwd bwd bw mn = Ok (r, l) -> unpacked l = [].
Proof.
  induction f as [|rest IH]; [|specialize (IH tt)]; intros fwd bwd bw mn r l EQ; cbn [l_main_loop] in EQ; [discriminate|].
  assert (('(fwd', bw1, mn1) <~~ l_search_dir (S (List.length (s_heap fwd))) c H fg Fwd fwd bwd bw mn ;;
          '(bwd', bw2, mn2) <~~ l_search_dir (S (List.length (s_heap bwd))) c H fg Bwd bwd fwd' bw1 mn1 ;;
          l_main_loop (rest tt) c H fg fwd' bwd' bw2 mn2) = Ok (r, l) -> unpacked l = []) as G.
  { clear EQ. intros EQ. apply lbind_Ok in EQ as ([[f1 bw1] mn1] & lf & l0 & Ef & EQ & ->).
    apply lbind_Ok in EQ as ([[b1 bw2] mn2] & lb & lr & Eb & EQ & ->).
    apply search_unp in Ef, Eb. apply IH in EQ. autorewrite with steps. rewrite Ef, Eb, EQ. auto. }
  destruct (s_heap fwd), (s_heap bwd); auto. injection EQ as <- <-. auto.
Qed.

Lemma C72_path_proof : forall c H pc fg sources targets pc' r l,
  l_calc_path_multiple c H pc fg sources targets = Ok (pc', r, l) ->
  lenN (unpacked l) <= match r with Some p => 2 * (lenN (sp_get_nodes p) - 1) | None => 0 end.
Proof.
  intros c H pc fg ss ts pc' r l EQ. unfold l_calc_path_multiple in EQ.
  linv EQ as u1 Z1. linv EQ as u2 Z2. linv EQ as u3 Z3. linv EQ as u4 Z4. linv EQ as u5 Z5.
  apply lbind_Ok in EQ as ([bw0 mn0] & lb0 & lb1 & Zb & EQ & ->). apply lift_Ok in Zb as (Zb & ->).
  linv EQ as fwd1 Zf. linv EQ as bwd1 Zw.
  apply lbind_Ok in EQ as ([[[fwd2 bwd2] best] mn] & lm & lx & Em & EQ & ->). apply main_unp in Em.
  unfold sp_get_nodes. unfold lenN. autorewrite with steps. rewrite Em. simpl app. simpl List.length.
  destruct (mn =? INVALID_NODE c).
  - injection EQ as <- <- <-. simpl. lia.
  - linv EQ as u6 Z6. apply lbind_Ok in EQ as (nodes & le & lz & Ee & EQ & ->).
    apply extract_steps in Ee as (Qe & Ue). linv EQ as u7 Z7. linv EQ as u8 Z8. linv EQ as u9 Z9. injection EQ as <- <- <-.
    rewrite app_nil_r. simpl. lia.
Qed.
