(** * FileProps: proofs about the file formats *)
From Verif Require Export ReaderFacts.
From Coq Require Export Sorting.Sorted Sorting.Permutation.
Open Scope N_scope.

(** ** Graphs from lists of edges *)
Definition id_max (n : N) (e : Edge) : N := N.max n (N.max (e_from e) (e_to e) + 1).
Lemma add_all c es : forall g, ig_frozen g = false ->
  (forall e, In e es -> acceptable e = true /\ e_from e < umax c /\ e_to e < umax c) ->
  lenN (ig_edges g) + lenN es <= umax c / 2 ->
  ig_run c g (add_ops es) = Ok (mkInputGraph (ig_edges g ++ es) (fold_left id_max es (ig_num_nodes g)) false).
Proof.
  induction es as [|e es IH]; intros g Hf He Hc.
  - simpl. rewrite app_nil_r. destruct g as [a b d]; simpl in *. subst. auto.
  - rewrite run_add. destruct (He e (or_introl eq_refl)) as (Ha & H1 & H2). apply acceptable_spec in Ha as [Ha Hw].
    rewrite lenN_cons in Hc.
    assert (ig_add_edge c g (e_from e) (e_to e) (e_weight e) =
      Ok (mkInputGraph (ig_edges g ++ [e]) (id_max (ig_num_nodes g) e) false, 1)) as ->.
    { unfold ig_add_edge.
      destruct (do_add_cases c g (e_from e) (e_to e) (e_weight e) false _ eq_refl) as [[G _]|[(F & Hz & G)|(F & G1 & G2 & [(G & _)|[(G & _)|(Hc' & m & M1 & M2 & G)]])]];
      try congruence; try lia.
      - rewrite G. unfold id_max. rewrite (M1 ltac:(lia)). destruct e; reflexivity. }
    cbn [bind]. rewrite IH; simpl; auto.
    + rewrite <- app_assoc. reflexivity.
    + intros; apply He; simpl; auto.
    + rewrite lenN_app. change (lenN [e]) with 1. lia.
Qed.

Lemma sorted_le_of_lt l : StronglySorted edge_lt l -> StronglySorted edge_le l.
Proof.
  induction 1 as [|x t S IH F]; constructor; auto. rewrite Forall_forall in *. intros y Hy. apply edge_leb_spec. left. auto.
Qed.
Lemma dedup_from_id l : forall x, StronglySorted edge_lt (x :: l) -> dedup_from x l = l.
Proof.
  induction l as [|y l IH]; intros x HS; auto. simpl. inversion HS as [|? ? HS' HF]; subst. inversion HF as [|? ? Hxy _]; subst.
  destruct (N.eqb_spec (e_from y) (e_from x)); simpl.
  - destruct (N.eqb_spec (e_to y) (e_to x)); simpl; [unfold edge_lt in Hxy; lia|]. rewrite IH; auto.
  - rewrite IH; auto.
Qed.
Lemma dedup_sort_id l : StronglySorted edge_lt l -> dedup_edges (sort_edges l) = l.
Proof.
  intros H. rewrite <- (sort_unique l l); [|apply sorted_le_of_lt; auto|apply Permutation_refl].
  destruct l as [|x l]; auto. simpl. rewrite dedup_from_id; auto.
Qed.

(** The graph that consists of a strictly sorted list of edges. *)
Definition graph_with (es : list Edge) : InputGraph := mkInputGraph es (fold_left id_max es 0) true.
Lemma graph_of_sorted c es : StronglySorted edge_lt es ->
  (forall e, In e es -> acceptable e = true /\ e_from e < umax c /\ e_to e < umax c) ->
  lenN es <= umax c / 2 -> graph_of c es = Ok (graph_with es).
Proof.
  intros HS He Hc. apply graph_of_ok. eexists. split; [apply (add_all c es ig_new eq_refl He); exact Hc|].
  unfold ig_freeze. cbn [ig_frozen ig_new ig_edges ig_num_nodes app]. rewrite dedup_sort_id by auto. reflexivity.
Qed.

Lemma fold_id_max es : forall n, n <= fold_left id_max es n /\
  (forall e, In e es -> N.max (e_from e) (e_to e) + 1 <= fold_left id_max es n) /\
  (fold_left id_max es n = n \/ exists e, In e es /\ fold_left id_max es n = N.max (e_from e) (e_to e) + 1).
Proof.
  induction es as [|e es IH]; intros n; simpl.
  - split; [lia|]. split; [intros e []|auto].
  - destruct (IH (id_max n e)) as (H1 & H2 & H3). unfold id_max at 1 in H1. split; [lia|]. split.
    + intros x [<-|Hx]; auto. lia.
    + destruct H3 as [H3|(x & Hx & H3)]; [|right; eauto]. rewrite H3. unfold id_max.
      destruct (N.le_gt_cases n (N.max (e_from e) (e_to e) + 1)).
      * right. exists e. split; auto. lia.
      * left. lia.
Qed.

Lemma run_nodes_bound c ops : forall g, ig_run c ig_new ops = Ok g -> ig_num_nodes g <= umax c.
Proof.
  induction ops as [|o ops IH] using rev_ind; intros g Hr.
  - simpl in Hr. injection Hr as <-. simpl. lia.
  - rewrite ig_run_app in Hr. apply bind_ok in Hr as (g1 & H1 & H2). apply IH in H1. cbn [ig_run] in H2.
    apply bind_ok in H2 as ([g2 x] & H2 & [= <-]).
    assert (forall f t w b k, ig_do_add_edge c g1 f t w b = Ok (g2, k) -> ig_num_nodes g2 <= umax c) as HA.
    { intros f t w b k HE. unfold ig_do_add_edge in HE. destruct (ig_frozen g1); [discriminate|]. destruct (f =? t); [congruence|].
      destruct (w <? 1); [congruence|]. apply bind_ok in HE as (m & Hm & HE). apply bind_ok in HE as (es & _ & HE).
      apply bind_ok in HE as (es' & _ & HE). injection HE as <- _. cbn [ig_num_nodes].
      assert (m <= umax c); [|lia]. unfold uadd in Hm. destruct (N.leb_spec (N.max f t + 1) (umax c)); [injection Hm as <-; auto|].
      destruct (debug_build c); [discriminate|]. injection Hm as <-.
      pose proof (N.mod_lt (N.max f t + 1) (umax c + 1)). lia. }
    destruct o; cbn [ig_step] in H2.
    + apply bind_ok in H2 as ([g3 k] & H2 & [= -> <-]). eapply HA; eauto.
    + apply bind_ok in H2 as ([g3 k] & H2 & [= -> <-]). eapply HA; eauto.
    + apply bind_ok in H2 as (g3 & H2 & [= -> <-]). unfold ig_freeze in H2. destruct (ig_frozen g1); [discriminate|]. injection H2 as <-. auto.
    + injection H2 as <- _. auto.
    + apply bind_ok in H2 as (? & _ & [= <- _]). auto.
    + apply bind_ok in H2 as (? & _ & [= <- _]). auto.
    + apply bind_ok in H2 as (? & _ & [= <- _]). auto.
Qed.

(** What the round trips need of a graph. *)
Record file_ok (c : cfg) (g : InputGraph) : Prop := mk_file_ok {
  fo_sorted : StronglySorted edge_lt (ig_edges g);
  fo_edge : forall e, In e (ig_edges g) -> acceptable e = true /\ e_from e < ig_num_nodes g /\ e_to e < ig_num_nodes g /\ e_weight e <= umax c;
  fo_cap : lenN (ig_edges g) <= umax c / 2;
  fo_nodes : ig_num_nodes g <= umax c;
  fo_eq : g = graph_with (ig_edges g)
}.
Lemma frozen_file_ok c ops g : ids_ok c ops -> frozen_graph c ops g -> file_ok c g.
Proof.
  intros Hids (Hr & Hrun & Hf). destruct (run_inv _ _ _ Hrun) as [[H1 H2 H3 H4 H5] HN]. destruct (HN Hids) as [N1 N2].
  assert (forall e, In e (ig_edges g) -> acceptable e = true /\ e_from e < ig_num_nodes g /\ e_to e < ig_num_nodes g /\ e_weight e <= umax c) as HE.
  { intros e He. apply H2 in He. pose proof (accepted_In _ _ He). pose proof (accepted_repr _ _ _ Hr He).
    specialize (N1 _ He). split; [apply acceptable_spec; auto|]. tauto. }
  constructor; auto.
  - eapply run_nodes_bound; eauto.
  - destruct g as [es n fr]; cbn [ig_edges ig_num_nodes ig_frozen] in *. unfold graph_with. rewrite Hf. f_equal.
    destruct (fold_id_max es 0) as (_ & F2 & F3). apply N.le_antisymm.
    + destruct N2 as [->|(e & He & ->)]; [apply N.le_0_l|]. destruct (H3 _ He) as (e' & He' & <- & <- & _). apply F2; auto.
    + destruct F3 as [->|(e & He & ->)]; [apply N.le_0_l|]. specialize (HE _ He). lia.
Qed.
Lemma file_ok_ids c g e : file_ok c g -> In e (ig_edges g) -> e_from e < umax c /\ e_to e < umax c.
Proof. intros Hg He. destruct (fo_edge _ _ Hg e He) as (_ & H1 & H2 & _). pose proof (fo_nodes _ _ Hg). lia. Qed.
Lemma file_ok_graph c g : file_ok c g -> graph_of c (ig_edges g) = Ok g.
Proof.
  intros Hg. rewrite (fo_eq _ _ Hg) at 2. apply graph_of_sorted; [apply (fo_sorted _ _ Hg)| |apply (fo_cap _ _ Hg)].
  intros e He. split; [apply (fo_edge _ _ Hg e He)|]. eapply file_ok_ids; eauto.
Qed.

(** ** The lines that are written *)
Definition arc_body (f t w : N) : list N := str "a " ++ dec f ++ 32 :: dec t ++ 32 :: dec w.
Lemma arc_text_body f t w : arc_text f t w = arc_body f t w ++ [10].
Proof. unfold arc_text, arc_body. rewrite <- !app_assoc. do 2 f_equal. cbn [app str]. rewrite <- !app_assoc. reflexivity. Qed.
Definition problem_body (n m : N) : list N := str "p sp " ++ dec n ++ 32 :: dec m.
Definition unlines (ls : list (list N)) : list N := flat_map (fun l => l ++ [10]) ls.
Definition arc_of (e : Edge) : list N := arc_body (e_from e) (e_to e) (e_weight e).
Definition one_based (e : Edge) : Edge := mkEdge (e_from e + 1) (e_to e + 1) (e_weight e).
Lemma plain_file_lines es : plain_file es = unlines (map arc_of es).
Proof. unfold plain_file, unlines. rewrite flat_map_concat_map, flat_map_concat_map, map_map. f_equal. apply map_ext. intros e. apply arc_text_body. Qed.
Lemma dimacs_file_lines n es : dimacs_file n es = unlines (problem_body n (lenN es) :: map arc_of (map one_based es)).
Proof.
  unfold dimacs_file, unlines. cbn [flat_map]. rewrite !map_map.
  replace (flat_map (fun l => l ++ [10]) (map (fun x => arc_of (one_based x)) es)) with (flat_map (fun e => arc_text (e_from e + 1) (e_to e + 1) (e_weight e)) es).
  - unfold problem_body. rewrite <- !app_assoc. reflexivity.
  - rewrite !flat_map_concat_map, map_map. f_equal. apply map_ext. intros e. apply arc_text_body.
Qed.
Lemma zero_one es : map zero_based (map one_based es) = es.
Proof.
  rewrite map_map. rewrite <- (map_id es) at 2. apply map_ext. intros [f t w]. unfold zero_based, one_based. simpl. f_equal; lia.
Qed.

(** ** Reading lines that were written *)
Lemma dec_not_ws n x : In x (dec n) -> is_whitespace x = false.
Proof. intros H. apply digit_not_ws. apply (proj1 (proj2 (dec_spec n))). auto. Qed.
Lemma dec_plain n x : In x (dec n) -> plain_byte x.
Proof. intros H. apply digit_plain. apply (proj1 (proj2 (dec_spec n))). auto. Qed.
Lemma plain_app l1 l2 : (forall x, In x l1 -> plain_byte x) -> (forall x, In x l2 -> plain_byte x) -> forall x, In x (l1 ++ l2) -> plain_byte x.
Proof. intros H1 H2 x Hx. apply in_app_or in Hx as [Hx|Hx]; auto. Qed.
Lemma plain_space l : (forall x, In x l -> plain_byte x) -> forall x, In x (32 :: l) -> plain_byte x.
Proof. intros H x [<-|Hx]; auto. unfold plain_byte. lia. Qed.
Lemma arc_body_plain f t w x : In x (arc_body f t w) -> plain_byte x.
Proof.
  revert x. unfold arc_body. apply plain_app; [|apply plain_app; [apply dec_plain|apply plain_space, plain_app; [apply dec_plain|apply plain_space, dec_plain]]].
  intros x Hx. cbn in Hx. unfold plain_byte. destruct Hx as [<-|[<-|[]]]; lia.
Qed.
Lemma problem_body_plain n m x : In x (problem_body n m) -> plain_byte x.
Proof.
  revert x. unfold problem_body. apply plain_app; [|apply plain_app; [apply dec_plain|apply plain_space, dec_plain]].
  intros x Hx. cbn in Hx. unfold plain_byte. repeat destruct Hx as [<-|Hx]; try lia; try destruct Hx.
Qed.
Lemma words_one w : w <> [] -> (forall x, In x w -> is_whitespace x = false) -> words w [w].
Proof.
  intros H1 H2. rewrite <- (app_nil_r w) at 1. rewrite <- (app_nil_l (w ++ [])). apply words_cons; [intros x []|auto|auto|auto|constructor; intros x []].
Qed.
Lemma words_space w r ws : w <> [] -> (forall x, In x w -> is_whitespace x = false) -> words r ws -> words (w ++ 32 :: r) (w :: ws).
Proof.
  intros H1 H2 H3. rewrite <- (app_nil_l (w ++ 32 :: r)). apply words_cons; [intros x []|auto|auto|right; exists 32, r; auto|].
  apply words_iff. apply words_iff in H3. rewrite <- H3. reflexivity.
Qed.
Lemma dec_nonempty n : dec n <> []. Proof. apply dec_spec. Qed.
Lemma arc_body_line c f t w : f <= umax c -> t <= umax c -> w <= umax c -> arc_line c (arc_body f t w) f t w.
Proof.
  intros H1 H2 H3. exists (dec f ++ 32 :: dec t ++ 32 :: dec w), (dec f), (dec t), (dec w). split; [reflexivity|].
  split; [|auto using dec_number].
  apply words_space; [apply dec_nonempty|apply dec_not_ws|]. apply words_space; [apply dec_nonempty|apply dec_not_ws|].
  apply words_one; [apply dec_nonempty|apply dec_not_ws].
Qed.
Lemma problem_body_line c n m : n <= umax c -> m <= umax c -> problem_line c (problem_body n m) n m.
Proof.
  intros H1 H2. exists (dec n ++ 32 :: dec m), (dec n), (dec m). split; [reflexivity|].
  split; [|auto using dec_number].
  apply words_space; [apply dec_nonempty|apply dec_not_ws|]. apply words_one; [apply dec_nonempty|apply dec_not_ws].
Qed.

Definition plain_line (l : list N) : Prop := forall x, In x l -> plain_byte x.
Lemma lines_unlines ls : (forall l, In l ls -> plain_line l) -> forall s,
  text_lines (unlines ls ++ s) = ls ++ text_lines s.
Proof.
  induction ls as [|l ls IH]; intros H s; [reflexivity|]. unfold unlines. cbn [flat_map]. rewrite <- !app_assoc. cbn [app].
  rewrite line_cons by (apply H; simpl; auto). f_equal. apply IH. intros; apply H; simpl; auto.
Qed.
Lemma file_lines_plain b ls : text_lines b = ls -> (forall l, In l ls -> plain_line l) -> forall ss, file_lines b ss <-> ss = ls.
Proof.
  intros E H ss. unfold file_lines. rewrite E. clear E. revert ss. induction ls as [|l ls IH]; intros ss.
  - split; [intros HF; inversion HF; auto|intros ->; constructor].
  - split.
    + intros HF. inversion HF as [|? s ? ss' Hd HD]; subst. apply IH in HD; [|intros; apply H; simpl; auto].
      rewrite utf8_plain in Hd by (apply H; simpl; auto). injection Hd as <-. subst. auto.
    + intros ->. constructor; [apply utf8_plain, H; simpl; auto|]. apply IH; auto. intros; apply H; simpl; auto.
Qed.

Lemma plain_text_arcs c es : (forall e, In e es -> e_from e <= umax c /\ e_to e <= umax c /\ e_weight e <= umax c) ->
  plain_text c (map arc_of es) es.
Proof.
  induction es as [|[f t w] es IH]; intros H; [constructor|]. cbn [map]. destruct (H _ (or_introl eq_refl)) as (H1 & H2 & H3). cbn [e_from e_to e_weight] in *.
  apply plain_arc; [apply arc_body_line; auto|]. apply IH. intros; apply H; simpl; auto.
Qed.
Ltac arcs_eq := match goal with H1 : arc_line _ _ _ _ _, H2 : arc_line _ _ _ _ _ |- _ =>
  destruct (arc_line_fun _ _ _ _ _ _ _ _ H1 H2) as (-> & -> & ->); f_equal; auto end.
Lemma plain_text_fun c ss : forall a b, plain_text c ss a -> plain_text c ss b -> a = b.
Proof.
  induction ss as [|s ss IH]; intros a b Ha Hb; inversion Ha; subst; inversion Hb; subst; auto; try arcs_eq;
    exfalso; match goal with H : arc_line _ _ _ _ _ |- _ => destruct (arc_line_shape _ _ _ _ _ H) as (r & ->) end;
    match goal with H : forall r, _ <> _ |- _ => eapply H; eauto end.
Qed.
Lemma dimacs_arcs_text c n es : (forall e, In e es -> 1 <= e_from e <= n /\ 1 <= e_to e <= n /\ e_weight e <= umax c) -> n <= umax c ->
  dimacs_arcs c n (map arc_of es) es.
Proof.
  induction es as [|[f t w] es IH]; intros H Hn; [constructor|]. cbn [map]. destruct (H _ (or_introl eq_refl)) as (H1 & H2 & H3). cbn [e_from e_to e_weight] in *.
  apply da_arc; try lia; [apply arc_body_line; lia|]. apply IH; auto. intros; apply H; simpl; auto.
Qed.
Lemma dimacs_arcs_fun c n ss : forall a b, dimacs_arcs c n ss a -> dimacs_arcs c n ss b -> a = b.
Proof.
  induction ss as [|s ss IH]; intros a b Ha Hb; inversion Ha; subst; inversion Hb; subst; auto; try arcs_eq;
    exfalso; match goal with H : arc_line _ _ _ _ _ |- _ => destruct (arc_line_shape _ _ _ _ _ H) as (r & ->) end;
    eapply comment_not_arc; eauto.
Qed.

(** ** C22, C23 *)
Lemma to_file_lines dv old g : ig_frozen g = true ->
  to_file dv old g = with_writer dv old (Ok (map (fun e => Ok (arc_pieces (e_from e) (e_to e) (e_weight e))) (ig_edges g))).
Proof. intros H. unfold to_file, ig_get_edges, ig_check_frozen. rewrite H. reflexivity. Qed.
Lemma arc_pieces_text f t w : line_text (Ok (arc_pieces f t w)) = arc_text f t w.
Proof. unfold line_text, arc_pieces, arc_text. cbn [concat]. rewrite app_nil_r. reflexivity. Qed.
Lemma to_file_text es : flat_map line_text (map (fun e => Ok (arc_pieces (e_from e) (e_to e) (e_weight e))) es) = plain_file es.
Proof. unfold plain_file. rewrite !flat_map_concat_map, map_map. reflexivity. Qed.
Lemma to_file_spec dv old g file r : ig_frozen g = true -> to_file dv old g = (file, r) ->
  (r = Ok IoOk \/ r = Ok IoErr) /\
  (dv_create_ok dv = false -> file = old /\ r = Ok IoErr) /\
  (dv_create_ok dv = true -> exists f q, file = Some f /\ plain_file (ig_edges g) = f ++ q /\
     (r = Ok IoOk -> lenN q <= buf_capacity)) /\
  (reliable dv -> file = Some (plain_file (ig_edges g)) /\ r = Ok IoOk).
Proof.
  intros Hf HE. rewrite to_file_lines in HE by auto. rewrite <- to_file_text. eapply with_writer_spec; [|exact HE].
  intros l Hl. apply in_map_iff in Hl as (e & <- & _). eauto.
Qed.

Lemma dimacs_arc_ok c g e : file_ok c g -> In e (ig_edges g) -> dimacs_arc c e = Ok (arc_pieces (e_from e + 1) (e_to e + 1) (e_weight e)).
Proof.
  intros Hg He. destruct (file_ok_ids _ _ _ Hg He) as (H1 & H2). unfold dimacs_arc, uadd.
  rewrite !(proj2 (N.leb_le _ _)) by lia. reflexivity.
Qed.
Lemma to_dimacs_lines c dv old g : ig_frozen g = true ->
  to_dimacs_file c dv old g = with_writer dv old
    (Ok (Ok [str "p sp "; dec (ig_num_nodes g); str " "; dec (lenN (ig_edges g)); [10]] :: map (dimacs_arc c) (ig_edges g))).
Proof. intros H. unfold to_dimacs_file, ig_get_edges, ig_get_num_nodes, ig_get_num_edges, ig_check_frozen. rewrite H. reflexivity. Qed.
Lemma to_dimacs_text c g : file_ok c g ->
  flat_map line_text (Ok [str "p sp "; dec (ig_num_nodes g); str " "; dec (lenN (ig_edges g)); [10]] :: map (dimacs_arc c) (ig_edges g)) =
  dimacs_file (ig_num_nodes g) (ig_edges g).
Proof.
  intros Hg. unfold dimacs_file. cbn [flat_map line_text concat]. rewrite <- !app_assoc. cbn [app]. do 6 f_equal.
  f_equal. f_equal. f_equal. cbn [app]. f_equal. rewrite !flat_map_concat_map, map_map. f_equal. apply map_ext_in. intros e He.
  rewrite (dimacs_arc_ok c g e Hg He). apply arc_pieces_text.
Qed.
Lemma to_dimacs_spec c dv old g file r : file_ok c g -> ig_frozen g = true -> to_dimacs_file c dv old g = (file, r) ->
  (r = Ok IoOk \/ r = Ok IoErr) /\
  (dv_create_ok dv = false -> file = old /\ r = Ok IoErr) /\
  (dv_create_ok dv = true -> exists f q, file = Some f /\ dimacs_file (ig_num_nodes g) (ig_edges g) = f ++ q /\
     (r = Ok IoOk -> lenN q <= buf_capacity)) /\
  (reliable dv -> file = Some (dimacs_file (ig_num_nodes g) (ig_edges g)) /\ r = Ok IoOk).
Proof.
  intros Hg Hf HE. rewrite to_dimacs_lines in HE by auto. rewrite <- (to_dimacs_text c g Hg). eapply with_writer_spec; [|exact HE].
  intros l [<-|Hl]; eauto. apply in_map_iff in Hl as (e & <- & He). rewrite (dimacs_arc_ok c g e Hg He). eauto.
Qed.

Lemma read_plain_file c g : file_ok c g -> from_file c (contents (plain_file (ig_edges g))) = Ok g.
Proof.
  intros Hg. apply from_file_spec. exists (map arc_of (ig_edges g)), (ig_edges g).
  assert (forall l, In l (map arc_of (ig_edges g)) -> plain_line l) as HP.
  { intros l Hl. apply in_map_iff in Hl as (e & <- & _). intros x. apply arc_body_plain. }
  split; [|split].
  - apply (file_lines_plain _ (map arc_of (ig_edges g))); auto. rewrite plain_file_lines, <- (app_nil_r (unlines _)), lines_unlines by auto.
    apply app_nil_r.
  - apply plain_text_arcs. intros e He. destruct (fo_edge _ _ Hg e He) as (_ & H1 & H2 & H3). pose proof (fo_nodes _ _ Hg). lia.
  - apply file_ok_graph; auto.
Qed.
Lemma read_dimacs_file c g : file_ok c g -> from_dimacs_file c (contents (dimacs_file (ig_num_nodes g) (ig_edges g))) = Ok g.
Proof.
  intros Hg. apply from_dimacs_spec.
  exists (problem_body (ig_num_nodes g) (lenN (ig_edges g)) :: map arc_of (map one_based (ig_edges g))), (map one_based (ig_edges g)).
  pose proof (fo_nodes _ _ Hg) as Hn. pose proof (fo_cap _ _ Hg) as Hc.
  assert (umax c / 2 <= umax c) by (apply N.div_le_upper_bound; lia).
  split; [|split].
  - eapply file_lines_plain; [| |reflexivity].
    + rewrite dimacs_file_lines, <- (app_nil_r (unlines _)), lines_unlines; [apply app_nil_r|].
      intros l [<-|Hl]; [intros x; apply problem_body_plain|]. apply in_map_iff in Hl as (e & <- & _). intros x. apply arc_body_plain.
    + intros l [<-|Hl]; [intros x; apply problem_body_plain|]. apply in_map_iff in Hl as (e & <- & _). intros x. apply arc_body_plain.
  - left. exists [], (problem_body (ig_num_nodes g) (lenN (ig_edges g))), (map arc_of (map one_based (ig_edges g))), (ig_num_nodes g), (lenN (ig_edges g)).
    split; auto. split; [intros s []|]. split; [apply problem_body_line; lia|]. split; [|unfold lenN; rewrite map_length; auto].
    apply dimacs_arcs_text; auto. intros e He. apply in_map_iff in He as (e' & <- & He). destruct (fo_edge _ _ Hg e' He) as (_ & H1 & H2 & H3).
    cbn [one_based e_from e_to e_weight]. lia.
  - rewrite zero_one. apply file_ok_graph; auto.
Qed.
