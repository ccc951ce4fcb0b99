(** * TextProgramFacts: proofs for C90 *)
From Verif Require Import CompatFacts ReaderFacts ProgramFacts.
From Verif Require Export SpecTextProgram.
From Coq Require Import Lia.
Open Scope N_scope.

Lemma triples_ops arcs : map (fun '(u, v, w) => OpAddEdge u v w) (triples arcs) = add_ops arcs.
Proof. unfold triples, add_ops. rewrite map_map. reflexivity. Qed.
Lemma triples_edges arcs : map (fun '(u, v, w) => mkEdge u v w) (triples arcs) = arcs.
Proof. unfold triples. rewrite map_map. rewrite <- (map_id arcs) at 2. apply map_ext. intros []; reflexivity. Qed.
Lemma usable_triples arcs : usable (triples arcs) = filter acceptable arcs.
Proof. unfold usable. rewrite triples_edges. reflexivity. Qed.

Lemma plain_fold_eq c raws : forall ss arcs g, Forall2 decoded raws ss -> plain_text c ss arcs ->
  foldM (read_line_plain c) raws g = ig_run c g (add_ops arcs).
Proof.
  induction raws as [|raw raws IH]; intros ss arcs g H1 H2; inversion H1 as [|raw' s raws' ss' Hd HD]; subst.
  - inversion H2; subst. reflexivity.
  - cbn [foldM]. unfold read_line_plain at 1. unfold decoded in Hd. rewrite Hd. cbn [unwrap bind].
    inversion H2 as [|s0 ss0 f t w arcs0 Ha Hp|s0 ss0 arcs0 Ha Hp]; subst.
    + destruct (arc_line_shape _ _ _ _ _ Ha) as (r & ->). rewrite starts_with_app. apply read_arc_spec in Ha. rewrite Ha. cbn [bind].
      rewrite run_add. cbn [e_from e_to e_weight]. destruct (ig_add_edge c g f t w) as [[g1 k]| |]; cbn [bind]; auto. eapply IH; eauto.
    + rewrite (proj2 (starts_false _ _) Ha). cbn [bind]. eapply IH; eauto.
Qed.
Lemma from_file_eq c b ss arcs : file_lines b ss -> plain_text c ss arcs -> from_file c (contents b) = graph_of c arcs.
Proof.
  intros H1 H2. unfold from_file, contents, fold_lines. cbn [unwrap bind fd_error fd_bytes].
  rewrite (plain_fold_eq c _ ss arcs); auto. unfold graph_of. fold (add_ops arcs). rewrite ig_run_app.
  destruct (ig_run c ig_new (add_ops arcs)) as [g| |]; cbn [bind ig_run ig_step]; auto.
  destruct (ig_freeze g); reflexivity.
Qed.
Lemma C90_plain_eq_proof c b ss arcs s t : file_lines b ss -> plain_text c ss arcs ->
  plain_program c (contents b) s t = readme_program c (triples arcs) s t.
Proof.
  intros H1 H2. unfold plain_program, readme_program. rewrite (from_file_eq c b ss arcs H1 H2). unfold graph_of. fold (add_ops arcs).
  rewrite triples_ops. reflexivity.
Qed.
Lemma plain_text_bound c ss arcs : plain_text c ss arcs -> usize_edges c (triples arcs).
Proof.
  induction 1 as [|s ss f t w arcs Ha H IH|s ss arcs Ha H IH]; auto; [intros u v w []|].
  intros u v x [E|Hin]; [|apply IH; auto]. cbn [e_from e_to e_weight] in E. injection E as <- <- <-. eapply arc_line_bound; eauto.
Qed.

(** ** DIMACS *)
Lemma dimacs_after_eq c n m raws : forall ss arcs g k, Forall2 decoded raws ss -> dimacs_arcs c n ss arcs -> k + lenN arcs <= m ->
  foldM (read_line_dimacs c) raws (mkDS g n m k true) =
  (g' <- ig_run c g (add_ops (map zero_based arcs)) ;; Ok (mkDS g' n m (k + lenN arcs) true)).
Proof.
  induction raws as [|raw raws IH]; intros ss arcs g k H1 H2 Hm; inversion H1 as [|raw' s raws' ss' Hd HD]; subst.
  - inversion H2; subst. cbn. unfold lenN. cbn. rewrite N.add_0_r. reflexivity.
  - cbn [foldM]. unfold decoded in Hd.
    inversion H2 as [|s0 ss0 arcs0 Ha Hp|s0 ss0 f t w arcs0 Ha Hf Ht Hp]; subst.
    + rewrite (dimacs_line_unfold c _ s raw Hd), (proj2 (comment_spec s) Ha). cbn [bind]. eapply IH; eauto.
    + rewrite lenN_cons in *. cbn [map]. rewrite run_add. unfold zero_based at 1 2 3. cbn [e_from e_to e_weight].
      rewrite (dimacs_line_unfold c _ s raw Hd). destruct (arc_line_shape _ _ _ _ _ Ha) as (r & ->).
      destruct (_ || starts_with (str "c") _) eqn:Ec; [apply comment_spec in Ec; apply (comment_not_arc _ r eq_refl) in Ec; tauto|].
      destruct (starts_with (str "p sp ") _) eqn:Ep; [apply starts_with_spec in Ep as (q & Ep); exfalso; apply (arc_not_problem _ r q eq_refl Ep)|].
      rewrite starts_with_app. cbn [ds_found assert bind]. apply read_arc_spec in Ha. rewrite Ha. cbn [bind ds_nodes ds_curr ds_edges ds_g].
      replace ((f <=? n) && (t <=? n)) with true by (symmetry; rewrite andb_true_iff, !N.leb_le; lia).
      replace (k <? m) with true by (symmetry; apply N.ltb_lt; lia).
      replace ((0 <? f) && (0 <? t)) with true by (symmetry; rewrite andb_true_iff, !N.ltb_lt; lia). cbn [assert bind].
      destruct (ig_add_edge c g (f - 1) (t - 1) w) as [[g1 k1]| |]; cbn [bind]; auto.
      rewrite (IH ss' arcs0) by (auto; lia). replace (k + 1 + lenN arcs0) with (k + (1 + lenN arcs0)) by lia.
      rewrite ?(N.add_comm (lenN arcs0) 1). reflexivity.
Qed.
Lemma from_dimacs_eq c b ss arcs : file_lines b ss -> dimacs_text c ss arcs ->
  from_dimacs_file c (contents b) = graph_of c (map zero_based arcs).
Proof.
  intros H1 H2. unfold from_dimacs_file, contents, fold_lines. cbn [unwrap bind fd_error fd_bytes].
  unfold graph_of. fold (add_ops (map zero_based arcs)). rewrite ig_run_app. unfold file_lines in H1. revert H1.
  generalize (text_lines b) as raws. intros raws H1.
  assert (forall pre raws0 post d, (forall s, In s pre -> comment_line s) -> Forall2 decoded raws0 (pre ++ post) ->
            exists raws1, Forall2 decoded raws1 post /\
              foldM (read_line_dimacs c) raws0 d = foldM (read_line_dimacs c) raws1 d) as HC.
  { induction pre as [|s pre IH]; intros raws0 post d Hp HF; [exists raws0; auto|].
    inversion HF as [|raw' s' raws' ss' Hd HD]; subst. destruct (IH raws' post d) as (raws1 & G1 & G2); auto; [intros; apply Hp; simpl; auto|].
    exists raws1. split; auto. cbn [foldM]. rewrite (dimacs_line_unfold c _ s raw' Hd), (proj2 (comment_spec s) (Hp s (or_introl eq_refl))). exact G2. }
  destruct H2 as [(pre & p & post & n & m & -> & K1 & K2 & K3 & K4)|(K1 & ->)].
  - destruct (HC pre raws (p :: post) (mkDS ig_new 0 0 0 false) K1 H1) as (raws1 & G1 & ->).
    inversion G1 as [|raw' s' raws' ss' Hd HD]; subst. cbn [foldM].
    rewrite (dimacs_line_unfold c _ p raw' Hd). destruct (problem_line_shape _ _ _ _ K2) as (r & ->).
    destruct (_ || starts_with (str "c") _) eqn:Ec; [apply comment_spec in Ec; apply (comment_not_problem _ r eq_refl) in Ec; tauto|].
    rewrite starts_with_app. cbn [ds_found]. apply read_problem_spec in K2. rewrite K2. cbn [bind ds_g ds_curr].
    rewrite (dimacs_after_eq c n (lenN arcs) raws' post arcs) by (auto; lia).
    destruct (ig_run c ig_new _) as [g| |]; cbn [bind ig_run ig_step]; auto. cbn [ds_curr ds_edges ds_g]. rewrite N.add_0_l, N.eqb_refl.
    cbn [assert bind]. destruct (ig_freeze g); reflexivity.
  - rewrite <- (app_nil_r ss) in H1. destruct (HC ss raws [] (mkDS ig_new 0 0 0 false) K1 H1) as (raws1 & G1 & ->). inversion G1; subst. reflexivity.
Qed.
Lemma C90_dimacs_eq_proof c b ss arcs s t : file_lines b ss -> dimacs_text c ss arcs ->
  dimacs_program c (contents b) s t = readme_program c (triples (map zero_based arcs)) (s - 1) (t - 1).
Proof.
  intros H1 H2. unfold dimacs_program, readme_program. rewrite (from_dimacs_eq c b ss arcs H1 H2). unfold graph_of.
  fold (add_ops (map zero_based arcs)). rewrite triples_ops. reflexivity.
Qed.

(** Walks and known nodes in the numbers of the file *)
Lemma in_zero c arcs u v w : (forall e, In e arcs -> arc_in c e) ->
  In (mkEdge u v w) (usable (triples (map zero_based arcs))) <-> In (mkEdge (u + 1) (v + 1) w) (usable (triples arcs)).
Proof.
  intros HA. rewrite !usable_triples, !filter_In, in_map_iff. split.
  - intros ((e & E & He) & Ha). pose proof (acceptable_zero _ _ (HA e He)) as Z. destruct (HA e He) as (G1 & G2 & G3).
    rewrite E, Ha in Z. unfold zero_based in E. injection E as <- <- <-. rewrite !N.sub_add by lia. destruct e. auto.
  - intros (He & Ha). pose proof (acceptable_zero _ _ (HA _ He)) as Z. rewrite Ha in Z. unfold zero_based in Z. cbn [e_from e_to e_weight] in Z.
    rewrite !N.add_sub in Z. split; auto. exists (mkEdge (u + 1) (v + 1) w). split; auto. unfold zero_based. cbn [e_from e_to e_weight].
    rewrite !N.add_sub. reflexivity.
Qed.
Lemma usable_in c arcs e : (forall e, In e arcs -> arc_in c e) -> In e (usable (triples arcs)) -> arc_in c e.
Proof. intros HA. rewrite usable_triples, filter_In. intros (H & _). auto. Qed.
Lemma walk_up c arcs : (forall e, In e arcs -> arc_in c e) -> forall u v ns W,
  walk (usable (triples (map zero_based arcs))) u v ns W -> walk (usable (triples arcs)) (u + 1) (v + 1) (file_numbers ns) W.
Proof.
  intros HA u v ns W H. induction H as [u|u v t w ns W He Hw IH]; cbn [file_numbers map]; [constructor|].
  econstructor; eauto. apply (in_zero c); auto.
Qed.
Lemma walk_down c arcs : (forall e, In e arcs -> arc_in c e) -> forall u v ns W,
  walk (usable (triples arcs)) u v ns W -> exists ns', walk (usable (triples (map zero_based arcs))) (u - 1) (v - 1) ns' W.
Proof.
  intros HA u v ns W H. induction H as [u|u v t w ns W He Hw (ns' & IH)]; [exists [u - 1]; constructor|].
  exists ((u - 1) :: ns'). econstructor; eauto. destruct (usable_in _ _ _ HA He) as (G1 & G2 & _). cbn [e_from e_to] in *.
  apply (in_zero c); auto. rewrite !N.sub_add by lia. auto.
Qed.
Lemma known_up c arcs v : (forall e, In e arcs -> arc_in c e) -> 1 <= v ->
  known (triples (map zero_based arcs)) (v - 1) <-> known (triples arcs) v.
Proof.
  intros HA Hv. unfold known. split.
  - intros ([f t w] & He & H). cbn [e_from e_to] in H. apply (in_zero c) in He; auto. exists (mkEdge (f + 1) (t + 1) w). split; auto.
    cbn [e_from e_to]. lia.
  - intros ([f t w] & He & H). cbn [e_from e_to] in H. destruct (usable_in _ _ _ HA He) as (G1 & G2 & _). cbn [e_from e_to] in *.
    exists (mkEdge (f - 1) (t - 1) w). split; [|cbn [e_from e_to]; lia]. apply (in_zero c); auto. rewrite !N.sub_add by lia. auto.
Qed.

Lemma C90_plain_right_proof c b ss arcs s t : debug_build c = true -> 1 <= umax c ->
  file_lines b ss -> plain_text c ss arcs ->
  match plain_program c (contents b) s t with
  | Ok (Some p) =>
      known (triples arcs) s /\ known (triples arcs) t /\ sp_get_source p = s /\ sp_get_target p = t /\
      walk (usable (triples arcs)) s t (sp_get_nodes p) (sp_get_weight p) /\
      (forall ns W, walk (usable (triples arcs)) s t ns W -> sp_get_weight p <= W)
  | Ok None => known (triples arcs) s /\ known (triples arcs) t /\ forall ns W, walk (usable (triples arcs)) s t ns W -> umax c <= W
  | Panic r => r = POverflow \/ r = PCapacity \/
      (r = PAssert "invalid start node" /\ ~ known (triples arcs) s) \/
      (r = PAssert "invalid end node" /\ known (triples arcs) s /\ ~ known (triples arcs) t)
  | Diverge => False
  end.
Proof.
  intros HD HU H1 H2. rewrite (C90_plain_eq_proof c b ss arcs s t H1 H2). apply C87_right_proof; auto. eapply plain_text_bound; eauto.
Qed.
Lemma C90_dimacs_right_proof c b ss arcs s t : debug_build c = true -> 1 <= umax c ->
  file_lines b ss -> dimacs_text c ss arcs -> 1 <= s -> 1 <= t ->
  match dimacs_program c (contents b) s t with
  | Ok (Some p) =>
      known (triples arcs) s /\ known (triples arcs) t /\ sp_get_source p + 1 = s /\ sp_get_target p + 1 = t /\
      walk (usable (triples arcs)) s t (file_numbers (sp_get_nodes p)) (sp_get_weight p) /\
      (forall ns W, walk (usable (triples arcs)) s t ns W -> sp_get_weight p <= W)
  | Ok None => known (triples arcs) s /\ known (triples arcs) t /\ forall ns W, walk (usable (triples arcs)) s t ns W -> umax c <= W
  | Panic r => r = POverflow \/ r = PCapacity \/
      (r = PAssert "invalid start node" /\ ~ known (triples arcs) s) \/
      (r = PAssert "invalid end node" /\ known (triples arcs) s /\ ~ known (triples arcs) t)
  | Diverge => False
  end.
Proof.
  intros HD HU H1 H2 Hs Ht. rewrite (C90_dimacs_eq_proof c b ss arcs s t H1 H2).
  destruct (dimacs_text_plain _ _ _ H2) as (_ & HA).
  assert (usize_edges c (triples (map zero_based arcs))) as HB.
  { intros u v w Hin. unfold triples in Hin. rewrite map_map in Hin. apply in_map_iff in Hin as (e & E & He). injection E as <- <- <-.
    destruct (HA e He) as (? & ? & ?). lia. }
  pose proof (C87_right_proof c (triples (map zero_based arcs)) (s - 1) (t - 1) HD HU HB) as R.
  destruct (readme_program _ _ _ _) as [[p|]|r|]; auto; rewrite !(known_up c) in R by auto; auto.
  - destruct R as (R1 & R2 & R3 & R4 & R5 & R6). split; auto. split; auto. split; [lia|]. split; [lia|]. split.
    + apply (walk_up c) in R5; auto. rewrite !N.sub_add in R5 by lia. auto.
    + intros ns W Hw. apply (walk_down c) in Hw as (ns' & Hw); eauto.
  - destruct R as (R1 & R2 & R3). split; auto. split; auto. intros ns W Hw. apply (walk_down c) in Hw as (ns' & Hw); eauto.
Qed.
Lemma C90_malformed_proof c b s t :
  (~ (exists ss arcs, file_lines b ss /\ plain_text c ss arcs) -> exists r, plain_program c (contents b) s t = Panic r) /\
  (~ (exists ss arcs, file_lines b ss /\ dimacs_text c ss arcs) -> exists r, dimacs_program c (contents b) s t = Panic r).
Proof.
  split; intros H.
  - unfold plain_program. destruct (nd_cases _ (nd_from_file c (contents b))) as [(g & E)|(r & ->)]; [|exists r; auto].
    exfalso. apply H. apply from_file_spec in E as (ss & arcs & E1 & E2 & _). eauto.
  - unfold dimacs_program. destruct (nd_cases _ (nd_from_dimacs c (contents b))) as [(g & E)|(r & ->)]; [|exists r; auto].
    exfalso. apply H. apply from_dimacs_spec in E as (ss & arcs & E1 & E2 & _). eauto.
Qed.

(** ** No panic on small files *)
Lemma C90_plain_returns_proof c b ss arcs M s t : debug_build c = true -> 500000 <= umax c ->
  file_lines b ss -> plain_text c ss arcs -> plain_text (unchecked c) ss arcs ->
  (forall e, In e arcs -> e_from e < 500 /\ e_to e < 500 /\ e_weight e <= M) ->
  498002 * M <= umax c -> lenN arcs <= umax c / 2 -> known (triples arcs) s -> known (triples arcs) t ->
  exists r, plain_program c (contents b) s t = Ok r /\ plain_program (unchecked c) (contents b) s t = Ok r.
Proof.
  intros HD HU H1 H2 H2' HA HM HN Hs Ht. rewrite (C90_plain_eq_proof c b ss arcs s t H1 H2), (C90_plain_eq_proof (unchecked c) b ss arcs s t H1 H2').
  apply C87_returns_proof with (M := M); auto.
  - intros u v w Hin. unfold triples in Hin. apply in_map_iff in Hin as (e & E & He). injection E as <- <- <-. auto.
  - unfold lenN, triples in *. rewrite map_length. auto.
Qed.
Lemma number_same c w v : number c w v -> number (unchecked c) w v.
Proof. intros H. exact H. Qed.
Lemma arc_line_same c s f t w : arc_line c s f t w -> arc_line (unchecked c) s f t w.
Proof. intros H. exact H. Qed.
Lemma plain_text_same c ss arcs : plain_text c ss arcs -> plain_text (unchecked c) ss arcs.
Proof. induction 1; [constructor|apply plain_arc; auto|apply plain_other; auto]. Qed.
Lemma dimacs_arcs_same c n ss arcs : dimacs_arcs c n ss arcs -> dimacs_arcs (unchecked c) n ss arcs.
Proof. induction 1; [constructor|apply da_comment; auto|apply da_arc; auto]. Qed.
Lemma dimacs_text_same c ss arcs : dimacs_text c ss arcs -> dimacs_text (unchecked c) ss arcs.
Proof.
  intros [(pre & p & post & n & m & H1 & H2 & H3 & H4 & H5)|H]; [left|right; auto].
  exists pre, p, post, n, m. do 3 (split; auto). split; auto. apply dimacs_arcs_same; auto.
Qed.
Lemma C90_returns_proof c b ss arcs M s t : debug_build c = true -> 500000 <= umax c -> file_lines b ss ->
  (forall e, In e arcs -> e_from e < 500 /\ e_to e < 500 /\ e_weight e <= M) ->
  498002 * M <= umax c -> lenN arcs <= umax c / 2 -> known (triples arcs) s -> known (triples arcs) t ->
  (plain_text c ss arcs ->
   exists r, plain_program c (contents b) s t = Ok r /\ plain_program (unchecked c) (contents b) s t = Ok r) /\
  (dimacs_text c ss arcs -> 1 <= s -> 1 <= t ->
   exists r, dimacs_program c (contents b) s t = Ok r /\ dimacs_program (unchecked c) (contents b) s t = Ok r).
Proof.
  intros HD HU H1 HA HM HN Hs Ht. split.
  - intros H2. eapply C90_plain_returns_proof; eauto. apply plain_text_same; auto.
  - intros H2 S1 T1. destruct (dimacs_text_plain _ _ _ H2) as (_ & HI).
    rewrite (C90_dimacs_eq_proof c b ss arcs s t H1 H2), (C90_dimacs_eq_proof (unchecked c) b ss arcs s t H1 (dimacs_text_same _ _ _ H2)).
    apply C87_returns_proof with (M := M); auto.
    + intros u v w Hin. unfold triples in Hin. rewrite map_map in Hin. apply in_map_iff in Hin as (e & E & He). injection E as <- <- <-.
      destruct (HA e He) as (? & ? & ?). lia.
    + unfold lenN, triples in *. rewrite !map_length. auto.
    + apply (known_up c); auto.
    + apply (known_up c); auto.
Qed.
