(** * CompatFacts: proofs for C89 *)
From Verif Require Import FileTrunc MetaProps ApiFacts.
From Verif Require Export SpecCompat.
Open Scope N_scope.

Lemma edge_leb_up a b : edge_leb (one_up a) (one_up b) = edge_leb a b.
Proof.
  unfold edge_leb, one_up. cbn [e_from e_to e_weight].
  assert (forall x y, N.compare (x + 1) (y + 1) = N.compare x y) as HC.
  { intros x y. destruct (N.compare_spec x y) as [->|H|H]; [apply N.compare_eq_iff|apply N.compare_lt_iff|apply N.compare_gt_iff]; lia. }
  rewrite !HC. reflexivity.
Qed.
Lemma insert_up e l : insert_edge (one_up e) (map one_up l) = map one_up (insert_edge e l).
Proof. induction l as [|x l IH]; auto. cbn [map insert_edge]. rewrite edge_leb_up. destruct (edge_leb e x); cbn [map]; congruence. Qed.
Lemma sort_up l : sort_edges (map one_up l) = map one_up (sort_edges l).
Proof. induction l as [|x l IH]; auto. cbn [map sort_edges]. rewrite IH. apply insert_up. Qed.
Lemma succ_eqb x y : (x + 1 =? y + 1) = (x =? y).
Proof. destruct (N.eqb_spec x y); destruct (N.eqb_spec (x + 1) (y + 1)); auto; lia. Qed.
Lemma dedup_from_up l : forall p, dedup_from (one_up p) (map one_up l) = map one_up (dedup_from p l).
Proof.
  induction l as [|x l IH]; intros p; auto. cbn [map dedup_from]. unfold one_up at 1 2 3 4. cbn [e_from e_to].
  rewrite !succ_eqb. destruct ((e_from x =? e_from p) && (e_to x =? e_to p)); cbn [map]; rewrite IH; auto.
Qed.
Lemma dedup_up l : dedup_edges (map one_up l) = map one_up (dedup_edges l).
Proof. destruct l as [|x l]; auto. cbn [map dedup_edges]. rewrite dedup_from_up. auto. Qed.

Lemma freeze_up g g' : ig_freeze g = Ok g' -> ig_freeze (shifted g) = Ok (shifted g').
Proof.
  unfold ig_freeze. cbn [shifted ig_frozen ig_edges ig_num_nodes]. destruct (ig_frozen g); [discriminate|]. intros [= <-].
  rewrite sort_up, dedup_up. reflexivity.
Qed.
Lemma freeze_num g g' : ig_freeze g = Ok g' -> ig_num_nodes g' = ig_num_nodes g.
Proof. unfold ig_freeze. destruct (ig_frozen g); [discriminate|]. intros [= <-]. reflexivity. Qed.

Lemma add_mono c g f t w g' k : ig_add_edge c g f t w = Ok (g', k) -> ig_num_nodes g <= ig_num_nodes g'.
Proof.
  unfold ig_add_edge, ig_do_add_edge. destruct (ig_frozen g); [discriminate|].
  destruct (f =? t); [intros [= <- _]; lia|]. destruct (w <? 1); [intros [= <- _]; lia|].
  destruct (uadd c (N.max f t) 1) as [m| |]; try discriminate. cbn [bind].
  destruct (vpush c (ig_edges g) _) as [es| |]; try discriminate. cbn [bind]. intros [= <- _]. cbn [ig_num_nodes]. lia.
Qed.
Lemma run_mono c arcs : forall g g', ig_run c g (add_ops arcs) = Ok g' -> ig_num_nodes g <= ig_num_nodes g'.
Proof.
  induction arcs as [|e arcs IH]; intros g g'; [intros [= <-]; lia|]. rewrite run_add.
  destruct (ig_add_edge c g _ _ _) as [[g1 k]| |] eqn:E; try discriminate. cbn [bind]. intros H.
  apply add_mono in E. apply IH in H. lia.
Qed.

Lemma add_up c g f t w g' k : f <= umax c -> t <= umax c -> 1 <= f -> 1 <= t ->
  ig_add_edge c g (f - 1) (t - 1) w = Ok (g', k) -> ig_num_nodes g' < umax c ->
  ig_add_edge c (shifted g) f t w = Ok (shifted g', k).
Proof.
  intros Uf Ut Hf Ht. unfold ig_add_edge, ig_do_add_edge. cbn [shifted ig_frozen]. destruct (ig_frozen g) eqn:EF; [discriminate|].
  replace (f - 1 =? t - 1) with (f =? t) by (destruct (N.eqb_spec f t); destruct (N.eqb_spec (f - 1) (t - 1)); auto; lia).
  destruct (f =? t); [intros [= <- <-] _; unfold shifted; rewrite EF; auto|].
  destruct (w <? 1); [intros [= <- <-] _; unfold shifted; rewrite EF; auto|].
  unfold uadd. rewrite (proj2 (N.leb_le (N.max (f - 1) (t - 1) + 1) (umax c))) by lia. cbn [bind]. unfold vpush.
  cbn [shifted ig_edges ig_num_nodes]. unfold lenN. rewrite map_length.
  destruct (N.of_nat (length (ig_edges g)) <? umax c / 2); [|discriminate]. cbn [bind]. intros [= <- <-] HU.
  cbn [ig_num_nodes] in HU. rewrite (proj2 (N.leb_le (N.max f t + 1) (umax c))) by lia. cbn [bind].
  do 2 f_equal. unfold shifted. cbn [ig_edges ig_num_nodes ig_frozen]. f_equal.
  - rewrite map_app. cbn [map]. unfold one_up at 3. cbn [e_from e_to e_weight]. rewrite !N.sub_add by lia. reflexivity.
  - destruct (N.eqb_spec (ig_num_nodes g) 0); destruct (N.eqb_spec (N.max (ig_num_nodes g) (N.max (f - 1) (t - 1) + 1)) 0); lia.
Qed.

Definition arc_in (c : cfg) (e : Edge) : Prop :=
  1 <= e_from e <= umax c /\ 1 <= e_to e <= umax c /\ e_weight e <= umax c.
Lemma run_up c arcs : forall g g', (forall e, In e arcs -> arc_in c e) ->
  ig_run c g (add_ops (map zero_based arcs)) = Ok g' -> ig_num_nodes g' < umax c ->
  ig_run c (shifted g) (add_ops arcs) = Ok (shifted g').
Proof.
  induction arcs as [|e arcs IH]; intros g g' HA; [intros [= <-]; auto|]. cbn [map]. rewrite !run_add.
  unfold zero_based at 1 2 3. cbn [e_from e_to e_weight].
  destruct (ig_add_edge c g _ _ _) as [[g1 k]| |] eqn:E; try discriminate. cbn [bind]. intros H HU.
  pose proof (run_mono _ _ _ _ H) as HM. destruct (HA e) as (H1 & H2 & H3); [simpl; auto|].
  rewrite (add_up c g _ _ _ g1 k) by (auto; lia). cbn [bind]. apply IH; auto. intros; apply HA; simpl; auto.
Qed.
Lemma graph_of_up c arcs g : (forall e, In e arcs -> arc_in c e) ->
  graph_of c (map zero_based arcs) = Ok g -> ig_num_nodes g < umax c -> graph_of c arcs = Ok (shifted g).
Proof.
  intros HA H HU. apply graph_of_ok in H as (g0 & H1 & H2). apply graph_of_ok. exists (shifted g0).
  split; [|apply freeze_up; auto]. change ig_new with (shifted ig_new). apply run_up; auto. rewrite <- (freeze_num _ _ H2). auto.
Qed.

(** ** DIMACS text is plain text *)
Lemma arc_line_bound c s f t w : arc_line c s f t w -> f <= umax c /\ t <= umax c /\ w <= umax c.
Proof. intros (r & a & b & d & _ & _ & (H1 & _) & (H2 & _) & (H3 & _)). auto. Qed.
Lemma comment_no_arc s : comment_line s -> forall r, s <> str "a " ++ r.
Proof. intros H r ->. apply (comment_not_arc _ r eq_refl) in H. auto. Qed.
Lemma comments_plain c pre post arcs : (forall s, In s pre -> comment_line s) -> plain_text c post arcs -> plain_text c (pre ++ post) arcs.
Proof.
  intros H HP. induction pre as [|s pre IH]; auto. cbn [app]. apply plain_other; [apply comment_no_arc, H; simpl; auto|].
  apply IH. intros; apply H; simpl; auto.
Qed.
Lemma dimacs_arcs_plain c n ss arcs : dimacs_arcs c n ss arcs -> plain_text c ss arcs /\ forall e, In e arcs -> arc_in c e.
Proof.
  induction 1 as [|s ss arcs Hs H (I1 & I2)|s ss f t w arcs Hs Hf Ht H (I1 & I2)].
  - split; [constructor|intros e []].
  - split; auto. apply plain_other; auto. apply comment_no_arc. auto.
  - split; [constructor; auto|]. intros e [<-|He]; auto. apply arc_line_bound in Hs. unfold arc_in. cbn [e_from e_to e_weight]. lia.
Qed.
Lemma dimacs_text_plain c ss arcs : dimacs_text c ss arcs -> plain_text c ss arcs /\ forall e, In e arcs -> arc_in c e.
Proof.
  intros [(pre & p & post & n & m & -> & H1 & H2 & H3 & H4)|(H1 & ->)].
  - apply dimacs_arcs_plain in H3 as (H3 & H5). split; auto. apply comments_plain; auto. apply plain_other; auto.
    intros r E. destruct (problem_line_shape _ _ _ _ H2) as (q & Eq). eapply arc_not_problem; eauto.
  - split; [|intros e []]. rewrite <- (app_nil_r ss). apply comments_plain; auto. constructor.
Qed.

Lemma C89_reads_proof c b g : from_dimacs_file c (contents b) = Ok g -> ig_num_nodes g < umax c ->
  from_file c (contents b) = Ok (shifted g).
Proof.
  intros H HU. apply from_dimacs_spec in H as (ss & arcs & H1 & H2 & H3). apply dimacs_text_plain in H2 as (H2 & H4).
  apply from_file_spec. exists ss, arcs. split; auto. split; auto. apply graph_of_up; auto.
Qed.

(** ** Answers *)
Lemma accepted_add arcs : accepted (add_ops arcs ++ [OpFreeze]) = filter acceptable arcs.
Proof.
  unfold accepted. rewrite flat_map_app. cbn [flat_map requested]. rewrite !app_nil_r. f_equal. unfold add_ops.
  induction arcs as [|[f t w] arcs IH]; auto. cbn [map flat_map requested app e_from e_to e_weight]. congruence.
Qed.
Lemma acceptable_zero c e : arc_in c e -> acceptable (zero_based e) = acceptable e.
Proof.
  intros (H1 & H2 & _). unfold acceptable, zero_based. cbn [e_from e_to e_weight]. do 2 f_equal.
  destruct (N.eqb_spec (e_from e) (e_to e)); destruct (N.eqb_spec (e_from e - 1) (e_to e - 1)); auto; lia.
Qed.
Lemma graph_of_frozen c arcs g : (forall e, In e arcs -> e_from e <= umax c /\ e_to e <= umax c /\ e_weight e <= umax c) ->
  graph_of c arcs = Ok g -> frozen_graph c (add_ops arcs ++ [OpFreeze]) g.
Proof.
  intros HA H. split; [|split; auto].
  - intros o Ho. apply in_app_or in Ho as [Ho|[<-|[]]]; [|exact I]. apply in_map_iff in Ho as (e & <- & He). apply HA; auto.
  - apply graph_of_ok in H as (g0 & _ & H). unfold ig_freeze in H. destruct (ig_frozen g0); [discriminate|]. injection H as <-. auto.
Qed.

Lemma C89_answers_proof c b g g' fg fg' s t r r' : debug_build c = true ->
  from_dimacs_file c (contents b) = Ok g -> from_file c (contents b) = Ok g' -> ig_num_nodes g < umax c ->
  prepared c g fg -> prepared c g' fg' ->
  answer c fg s t r -> answer c fg' (s + 1) (t + 1) r' ->
  option_map sp_get_weight r = option_map sp_get_weight r'.
Proof.
  intros HD H H' HU P P' A A'. rewrite (C89_reads_proof c b g H HU) in H'. injection H' as <-.
  apply from_dimacs_spec in H as (ss & arcs & _ & H2 & H3). apply dimacs_text_plain in H2 as (_ & H4).
  apply answer_as_multi in A. apply answer_as_multi in A'.
  assert (frozen_graph c (add_ops arcs ++ [OpFreeze]) (shifted g)) as F'.
  { apply graph_of_frozen; [|apply graph_of_up; auto]. intros e He. destruct (H4 e He) as (? & ? & ?). lia. }
  assert (frozen_graph c (add_ops (map zero_based arcs) ++ [OpFreeze]) g) as F.
  { apply graph_of_frozen; auto. intros e He. apply in_map_iff in He as (e0 & <- & He). destruct (H4 e0 He) as (? & ? & ?).
    unfold zero_based. cbn [e_from e_to e_weight]. lia. }
  apply (C54_proof c _ g fg _ (shifted g) fg' (fun x => x + 1) [(s, 0)] [(t, 0)] r r' HD F P F' P'); auto; rewrite ?accepted_add.
  - intros; lia.
  - intros u v w He. apply filter_In in He as (He & Ha). apply in_map_iff in He as (e & E & He).
    pose proof (acceptable_zero _ _ (H4 e He)) as Z. destruct (H4 e He) as (G1 & G2 & G3). rewrite E in Z. rewrite Ha in Z.
    unfold zero_based in E. injection E as <- <- <-. rewrite !N.sub_add by lia. apply filter_In. destruct e. auto.
  - intros u v w He. apply filter_In in He as (He & Ha). pose proof (acceptable_zero _ _ (H4 _ He)) as Z.
    destruct (H4 _ He) as (G1 & G2 & G3). cbn [e_from e_to e_weight] in *. exists (u - 1), (v - 1). rewrite !N.sub_add by lia.
    split; auto. split; auto. apply filter_In. split; [|rewrite <- Ha, <- Z; reflexivity].
    apply in_map_iff. exists (mkEdge u v w). auto.
Qed.

(** ** The other direction *)
Lemma C89_not_conversely_proof c es : es <> [] -> exists r, from_dimacs_file c (contents (plain_file es)) = Panic r.
Proof.
  intros Hne. destruct (nd_cases _ (nd_from_dimacs c (contents (plain_file es)))) as [(g' & HR)|]; auto. exfalso.
  apply from_dimacs_spec in HR as (ss & arcs & HL & HT & _).
  assert (ss = map arc_of es) as ->.
  { eapply file_lines_plain; [| |exact HL].
    - rewrite plain_file_lines, <- (app_nil_r (unlines _)), lines_unlines; [apply app_nil_r|]. intros l. apply arc_of_plain.
    - intros l. apply arc_of_plain. }
  destruct es as [|e es]; [congruence|]. cbn [map] in HT.
  assert (exists q, arc_of e = str "a " ++ q) as (q & Eq) by (exists (skipn 2 (arc_of e)); reflexivity).
  destruct HT as [([|s pre] & p & post & n & m & E & H1 & H2 & _)|(H1 & _)].
  - injection E as E _. destruct (problem_line_shape _ _ _ _ H2) as (q' & Eq'). apply (arc_not_problem _ q q' Eq). congruence.
  - injection E as E _. apply (comment_not_arc _ q Eq). rewrite E. apply H1. simpl; auto.
  - apply (comment_not_arc _ q Eq). apply H1. simpl; auto.
Qed.

(** ** The problem line of the doc comment *)
Lemma documented_problem_proof c b ss s r x y n m : file_lines b ss -> In s ss -> s = str "p " ++ r ->
  words r [x; y] -> number c x n -> number c y m -> exists e, from_dimacs_file c (contents b) = Panic e.
Proof.
  intros HL Hin -> HW HX _. destruct (nd_cases _ (nd_from_dimacs c (contents b))) as [(g & HR)|]; auto. exfalso.
  destruct (proj1 (C24_rejects_proof c b g ss HR HL) _ Hin) as [H|[(n' & m' & H)|(f & t & w & H)]].
  - destruct H as [H|(q & H)]; discriminate.
  - destruct (problem_line_shape _ _ _ _ H) as (q & E). injection E as E.
    assert (exists x', r = 115 :: x') as (x' & Er) by (eexists; exact E). clear E H. subst r.
    inversion HW as [|pre w rest ws H1 H2 H3 H4 H5 H6]; subst.
    destruct pre as [|z pre].
    + destruct x as [|z x]; [congruence|]. cbn [app] in H6. injection H6 as -> _.
      destruct HX as (_ & ds & (D1 & D2 & _) & [E|E]); [|discriminate].
      assert (48 <= 115 <= 57) by (apply D2; rewrite <- E; simpl; auto). lia.
    + cbn [app] in H6. injection H6 as -> _. specialize (H1 115 (or_introl eq_refl)). vm_compute in H1. discriminate.
  - destruct (arc_line_shape _ _ _ _ _ H) as (q & E). discriminate.
Qed.
