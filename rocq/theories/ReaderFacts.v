(** * ReaderFacts: the readers accept exactly the texts of SpecText *)
From Verif Require Export TextFacts WriterFacts InputGraphFacts GraphProps.
Open Scope N_scope.

(** ** Nothing diverges *)
Definition nd {A} (m : res A) : Prop := m <> Diverge.
Lemma nd_bind {A B} (m : res A) (f : A -> res B) : nd m -> (forall a, m = Ok a -> nd (f a)) -> nd (bind m f).
Proof. unfold nd. destruct m; cbn [bind]; intros; auto; discriminate. Qed.
Lemma nd_ok {A} (a : A) : nd (Ok a). Proof. discriminate. Qed.
Lemma nd_panic {A} r : nd (@Panic A r). Proof. discriminate. Qed.
Lemma nd_unwrap {A} (o : option A) : nd (unwrap o). Proof. destruct o; discriminate. Qed.
Lemma nd_assert b m : nd (assert b m). Proof. destruct b; discriminate. Qed.
Lemma nd_foldM {S A} (f : S -> A -> res S) l : (forall s a, nd (f s a)) -> forall s, nd (foldM f l s).
Proof.
  intros H. induction l as [|a l IH]; intros s; [apply nd_ok|]. cbn [foldM]. apply nd_bind; auto.
Qed.
Lemma nd_add c g f t w : nd (ig_add_edge c g f t w).
Proof.
  unfold ig_add_edge. destruct (do_add_cases c g f t w false _ eq_refl) as [[_ G]|[(F & Hz & G)|(F & G1 & G2 & [(_ & _ & G)|[(_ & G)|(Hc & m & M1 & M2 & G)]])]];
    rewrite G; discriminate.
Qed.
#[global] Hint Resolve nd_ok nd_panic nd_unwrap nd_assert nd_add : nd.
Ltac nd := repeat first [progress auto with nd | apply nd_bind; [|intros ? _]
  | match goal with |- context [match ?x with _ => _ end] => destruct x end].

Lemma nd_arc c s : nd (read_arc_line c s). Proof. unfold read_arc_line. nd. Qed.
#[global] Hint Resolve nd_arc : nd.
Lemma nd_plain c g s : nd (read_line_plain c g s). Proof. unfold read_line_plain. nd. Qed.
Lemma nd_dimacs c g s : nd (read_line_dimacs c g s). Proof. unfold read_line_dimacs. nd. Qed.
Lemma nd_freeze g : nd (ig_freeze g). Proof. unfold ig_freeze. nd. Qed.
Lemma nd_from_file c f : nd (from_file c f).
Proof.
  unfold from_file, fold_lines. apply nd_bind; [nd|]. intros fd _. apply nd_bind; [|intros; apply nd_freeze].
  destruct (fd_error fd); [apply nd_bind; [|nd]|]; apply nd_foldM; intros; apply nd_plain.
Qed.
Lemma nd_from_dimacs c f : nd (from_dimacs_file c f).
Proof.
  unfold from_dimacs_file, fold_lines. apply nd_bind; [nd|]. intros fd _. apply nd_bind.
  - destruct (fd_error fd); [apply nd_bind; [|nd]|]; apply nd_foldM; intros; apply nd_dimacs.
  - intros d _. apply nd_bind; [nd|]. intros; apply nd_freeze.
Qed.
Lemma nd_cases {A} (m : res A) : nd m -> (exists a, m = Ok a) \/ exists r, m = Panic r.
Proof. unfold nd. destruct m; eauto. congruence. Qed.

(** ** Arc and problem lines *)
Lemma bind_ok {A B} (m : res A) (f : A -> res B) b : bind m f = Ok b <-> exists a, m = Ok a /\ f a = Ok b.
Proof.
  destruct m; cbn [bind]; split; try discriminate; eauto; try (intros (? & ? & ?); discriminate).
  intros (x & [= <-] & ?). auto.
Qed.
Lemma unwrap_ok {A} (o : option A) a : unwrap o = Ok a <-> o = Some a.
Proof. destruct o; simpl; split; congruence. Qed.
Lemma assert_ok b m u : assert b m = Ok u <-> b = true.
Proof. destruct b, u; simpl; split; congruence. Qed.
Lemma hd_error_some {A} (l : list A) a : hd_error l = Some a <-> exists r, l = a :: r.
Proof. destruct l; simpl; split; try discriminate; [intros (? & ?); discriminate|intros [= <-]; eauto|intros (? & [= <- <-]); auto]. Qed.

Lemma read_arc_spec c r f t w : read_arc_line c (str "a " ++ r) = Ok (f, t, w) <-> arc_line c (str "a " ++ r) f t w.
Proof.
  unfold read_arc_line, arc_line. cbv zeta. change (skipn 2 (str "a " ++ r)) with r. split.
  - intros H.
    apply bind_ok in H as (a & Ha & H). apply bind_ok in H as (fv & Hf & H).
    apply bind_ok in H as (b & Hb & H). apply bind_ok in H as (tv & Ht & H).
    apply bind_ok in H as (d & Hd & H). apply bind_ok in H as (wv & Hw & H).
    apply bind_ok in H as (u & Hu & H). injection H as -> -> ->.
    apply unwrap_ok, hd_error_some in Ha, Hb, Hd. apply unwrap_ok, parse_spec in Hf, Ht, Hw. apply assert_ok in Hu.
    destruct Ha as (r1 & E1), Hb as (r2 & E2), Hd as (r3 & E3). rewrite E1 in *. cbn [tl] in *. rewrite E2 in *. cbn [tl] in *.
    rewrite E3 in *. cbn [tl] in *. destruct r3; [|discriminate]. subst. exists r, a, b, d. split; auto. split; auto.
    rewrite words_iff. exact E1.
  - intros (r' & a & b & d & E & HW & Hf & Ht & Hw). apply app_inv_head in E. subst r'.
    rewrite words_iff in HW. rewrite HW. cbn [tl hd_error unwrap bind].
    rewrite <- parse_spec in Hf, Ht, Hw. rewrite Hf, Ht, Hw. reflexivity.
Qed.

Definition read_problem (c : cfg) (s : list N) : res (N * N) :=
  let split0 := split_whitespace (skipn 5 s) in
  a <- unwrap (hd_error split0) ;; nodes <- unwrap (parse_usize c a) ;;
  let split1 := tl split0 in
  b <- unwrap (hd_error split1) ;; edges <- unwrap (parse_usize c b) ;;
  _ <- assert (match tl split1 with [] => true | _ => false end) "Invalid problem line" ;;
  Ok (nodes, edges).
Lemma read_problem_spec c r n m : read_problem c (str "p sp " ++ r) = Ok (n, m) <-> problem_line c (str "p sp " ++ r) n m.
Proof.
  unfold read_problem, problem_line. cbv zeta. change (skipn 5 (str "p sp " ++ r)) with r. split.
  - intros H.
    apply bind_ok in H as (a & Ha & H). apply bind_ok in H as (fv & Hf & H).
    apply bind_ok in H as (b & Hb & H). apply bind_ok in H as (tv & Ht & H).
    apply bind_ok in H as (u & Hu & H). injection H as -> ->.
    apply unwrap_ok, hd_error_some in Ha, Hb. apply unwrap_ok, parse_spec in Hf, Ht. apply assert_ok in Hu.
    destruct Ha as (r1 & E1), Hb as (r2 & E2). rewrite E1 in *. cbn [tl] in *. rewrite E2 in *. cbn [tl] in *.
    destruct r2; [|discriminate]. subst. exists r, a, b. split; auto. split; auto.
    rewrite words_iff. exact E1.
  - intros (r' & a & b & E & HW & Hf & Ht). apply app_inv_head in E. subst r'.
    rewrite words_iff in HW. rewrite HW. cbn [tl hd_error unwrap bind].
    rewrite <- parse_spec in Hf, Ht. rewrite Hf, Ht. reflexivity.
Qed.

Lemma arc_line_fun c s f t w f' t' w' : arc_line c s f t w -> arc_line c s f' t' w' -> f = f' /\ t = t' /\ w = w'.
Proof.
  intros H1 H2. destruct H1 as (r & H1). assert (s = str "a " ++ r) as -> by (destruct H1 as (a & b & d & -> & _); auto).
  assert (read_arc_line c (str "a " ++ r) = Ok (f, t, w)) as E1 by (apply read_arc_spec; exists r; auto).
  apply read_arc_spec in H2. rewrite E1 in H2. injection H2 as -> -> ->. auto.
Qed.
Lemma problem_line_fun c s n m n' m' : problem_line c s n m -> problem_line c s n' m' -> n = n' /\ m = m'.
Proof.
  intros H1 H2. destruct H1 as (r & H1). assert (s = str "p sp " ++ r) as -> by (destruct H1 as (a & b & -> & _); auto).
  assert (read_problem c (str "p sp " ++ r) = Ok (n, m)) as E1 by (apply read_problem_spec; exists r; auto).
  apply read_problem_spec in H2. rewrite E1 in H2. injection H2 as -> ->. auto.
Qed.

(** The three kinds of lines are disjoint. *)
Lemma starts_false p s : starts_with p s = false <-> forall r, s <> p ++ r.
Proof.
  split.
  - intros H r ->. rewrite starts_with_app in H. discriminate.
  - intros H. destruct (starts_with p s) eqn:E; auto. apply starts_with_spec in E as (r & ->). exfalso. apply (H r). auto.
Qed.
Lemma comment_spec s : ((match s with [] => true | _ => false end) || starts_with (str "c") s) = true <-> comment_line s.
Proof.
  unfold comment_line. rewrite orb_true_iff, starts_with_spec. destruct s; split; intros [H|H]; auto; discriminate.
Qed.
Lemma arc_line_shape c s f t w : arc_line c s f t w -> exists r, s = str "a " ++ r.
Proof. intros (r & a & b & d & -> & _). eauto. Qed.
Lemma problem_line_shape c s n m : problem_line c s n m -> exists r, s = str "p sp " ++ r.
Proof. intros (r & a & b & -> & _). eauto. Qed.
Lemma comment_not_arc s r : s = str "a " ++ r -> ~ comment_line s.
Proof. intros -> [H|(q & H)]; discriminate. Qed.
Lemma comment_not_problem s r : s = str "p sp " ++ r -> ~ comment_line s.
Proof. intros -> [H|(q & H)]; discriminate. Qed.
Lemma arc_not_problem s r q : s = str "a " ++ r -> s <> str "p sp " ++ q.
Proof. intros ->. discriminate. Qed.

(** ** Plain files *)
Definition add_ops (es : list Edge) : list ig_op := map (fun e => OpAddEdge (e_from e) (e_to e) (e_weight e)) es.
Lemma run_add c g e es : ig_run c g (add_ops (e :: es)) = ('(g', _) <- ig_add_edge c g (e_from e) (e_to e) (e_weight e) ;; ig_run c g' (add_ops es)).
Proof. unfold add_ops. cbn [map ig_run ig_step]. destruct (ig_add_edge c g (e_from e) (e_to e) (e_weight e)) as [[g' k]| |]; reflexivity. Qed.
Lemma graph_of_ok c es g : graph_of c es = Ok g <-> exists g0, ig_run c ig_new (add_ops es) = Ok g0 /\ ig_freeze g0 = Ok g.
Proof.
  unfold graph_of. fold (add_ops es). rewrite ig_run_app, bind_ok. cbn [ig_run ig_step].
  split; intros (g0 & H1 & H2); exists g0; split; auto.
  - destruct (ig_freeze g0); cbn [bind] in H2; congruence.
  - rewrite H2. reflexivity.
Qed.

Definition decoded (raw s : list N) : Prop := utf8_decode raw = Some s.
Lemma plain_fold c raws : forall g g',
  foldM (read_line_plain c) raws g = Ok g' <->
  exists ss arcs, Forall2 decoded raws ss /\ plain_text c ss arcs /\ ig_run c g (add_ops arcs) = Ok g'.
Proof.
  induction raws as [|raw raws IH]; intros g g'; cbn [foldM].
  - split.
    + intros [= <-]. exists [], []. repeat split; constructor.
    + intros (ss & arcs & H1 & H2 & H3). inversion H1; subst. inversion H2; subst. exact H3.
  - rewrite bind_ok. unfold read_line_plain at 1. split.
    + intros (g1 & H1 & H2). apply bind_ok in H1 as (s & Hs & H1). apply unwrap_ok in Hs.
      apply IH in H2 as (ss & arcs & G1 & G2 & G3). destruct (starts_with (str "a ") s) eqn:Ea.
      * apply starts_with_spec in Ea as (r & ->). apply bind_ok in H1 as ([[f t] w] & Hr & H1). apply read_arc_spec in Hr.
        apply bind_ok in H1 as ([g2 k] & Hk & [= ->]). exists ((str "a " ++ r) :: ss), (mkEdge f t w :: arcs).
        split; [constructor; auto|]. split; [apply plain_arc; auto|]. rewrite run_add. cbn [e_from e_to e_weight]. rewrite Hk. exact G3.
      * injection H1 as ->. exists (s :: ss), arcs. split; [constructor; auto|]. split; auto. apply plain_other; auto. apply starts_false. auto.
    + intros (ss & arcs & H1 & H2 & H3). inversion H1 as [|raw' s raws' ss' Hd HD]; subst. unfold decoded in Hd. rewrite Hd. cbn [unwrap bind].
      inversion H2 as [|s0 ss0 f t w arcs0 Ha Hp|s0 ss0 arcs0 Ha Hp]; subst.
      * destruct (arc_line_shape _ _ _ _ _ Ha) as (r & ->). rewrite starts_with_app. apply read_arc_spec in Ha. rewrite Ha. cbn [bind].
        rewrite run_add in H3. cbn [e_from e_to e_weight] in H3. destruct (ig_add_edge c g f t w) as [[g1 k]| |]; cbn [bind] in *; try discriminate.
        exists g1. split; auto. apply IH. eauto.
      * rewrite (proj2 (starts_false _ _) Ha). exists g. split; auto. apply IH. eauto.
Qed.

Lemma from_file_spec c b g : from_file c (contents b) = Ok g <->
  exists ss arcs, file_lines b ss /\ plain_text c ss arcs /\ graph_of c arcs = Ok g.
Proof.
  unfold from_file, contents, fold_lines. cbn [unwrap bind fd_error fd_bytes]. rewrite bind_ok. split.
  - intros (g0 & H1 & H2). apply plain_fold in H1 as (ss & arcs & G1 & G2 & G3). exists ss, arcs. repeat split; auto.
    apply graph_of_ok. eauto.
  - intros (ss & arcs & G1 & G2 & G3). apply graph_of_ok in G3 as (g0 & G3 & G4). exists g0. split; auto.
    apply plain_fold. eauto.
Qed.

(** ** DIMACS files *)
Lemma dimacs_line_unfold c d s raw : utf8_decode raw = Some s ->
  read_line_dimacs c d raw =
  (if (match s with [] => true | _ => false end) || starts_with (str "c") s then Ok d
   else if starts_with (str "p sp ") s then
     if ds_found d then Panic (PExplicit "There should be only one problem line")
     else '(n, m) <- read_problem c s ;; Ok (mkDS (ds_g d) n m (ds_curr d) true)
   else if starts_with (str "a ") s then
     _ <- assert (ds_found d) "The problem line must be written before the arc lines" ;;
     '(from, to, weight) <- read_arc_line c s ;;
     _ <- assert ((from <=? ds_nodes d) && (to <=? ds_nodes d)) "Invalid nodes in line" ;;
     _ <- assert (ds_curr d <? ds_edges d) "Too many arc lines" ;;
     _ <- assert ((0 <? from) && (0 <? to)) "Invalid arc line" ;;
     '(g', _) <- ig_add_edge c (ds_g d) (from - 1) (to - 1) weight ;;
     Ok (mkDS g' (ds_nodes d) (ds_edges d) (ds_curr d + 1) (ds_found d))
   else Panic (PExplicit "Invalid line")).
Proof.
  intros H. unfold read_line_dimacs. rewrite H. cbn [unwrap bind].
  destruct (_ || _); auto. destruct (starts_with (str "p sp ") s); auto. destruct (ds_found d); auto.
  unfold read_problem. cbv zeta. destruct (hd_error (split_whitespace (skipn 5 s))) as [a|]; cbn [unwrap bind]; auto.
  destruct (parse_usize c a) as [n|]; cbn [unwrap bind]; auto.
  destruct (hd_error (tl (split_whitespace (skipn 5 s)))) as [b|]; cbn [unwrap bind]; auto.
  destruct (parse_usize c b) as [m|]; cbn [unwrap bind]; auto.
  destruct (assert _ _); reflexivity.
Qed.

Lemma dimacs_fold_after c n m raws : forall g k d',
  k <= m ->
  (foldM (read_line_dimacs c) raws (mkDS g n m k true) = Ok d' <->
   exists ss arcs g', Forall2 decoded raws ss /\ dimacs_arcs c n ss arcs /\ k + lenN arcs <= m /\
     ig_run c g (add_ops (map zero_based arcs)) = Ok g' /\ d' = mkDS g' n m (k + lenN arcs) true).
Proof.
  induction raws as [|raw raws IH]; intros g k d' Hk; cbn [foldM].
  - split.
    + intros [= <-]. exists [], [], g. unfold lenN; simpl. rewrite N.add_0_r. repeat split; auto; constructor.
    + intros (ss & arcs & g' & H1 & H2 & H3 & H4 & ->). inversion H1; subst. inversion H2; subst. unfold lenN; simpl.
      rewrite N.add_0_r. simpl in H4. congruence.
  - rewrite bind_ok. split.
    + intros (d1 & H1 & H2).
      destruct (utf8_decode raw) as [s|] eqn:Hs.
      2: { unfold read_line_dimacs in H1. rewrite Hs in H1. discriminate. }
      rewrite (dimacs_line_unfold c _ s raw Hs) in H1. cbn [ds_found ds_g ds_nodes ds_edges ds_curr] in H1.
      destruct (_ || _) eqn:Ec.
      { injection H1 as <-. apply comment_spec in Ec. apply IH in H2 as (ss & arcs & g' & G1 & G2 & G3 & G4 & G5); auto.
        exists (s :: ss), arcs, g'. split; [constructor; auto|]. split; [apply da_comment; auto|]. auto. }
      destruct (starts_with (str "p sp ") s) eqn:Ep; [discriminate|].
      destruct (starts_with (str "a ") s) eqn:Ea; [|discriminate]. cbn [assert bind] in H1.
      apply starts_with_spec in Ea as (r & ->). apply bind_ok in H1 as ([[f t] w] & Hr & H1). apply read_arc_spec in Hr.
      apply bind_ok in H1 as (u1 & A1 & H1). apply assert_ok in A1. apply bind_ok in H1 as (u2 & A2 & H1). apply assert_ok in A2.
      apply bind_ok in H1 as (u3 & A3 & H1). apply assert_ok in A3. apply bind_ok in H1 as ([g1 k1] & A4 & [= <-]).
      rewrite andb_true_iff, !N.leb_le in A1. rewrite andb_true_iff, !N.ltb_lt in A3. apply N.ltb_lt in A2.
      apply IH in H2 as (ss & arcs & g' & G1 & G2 & G3 & G4 & G5); [|lia].
      exists ((str "a " ++ r) :: ss), (mkEdge f t w :: arcs), g'. split; [constructor; auto|].
      split; [apply da_arc; auto; lia|]. rewrite lenN_cons. split; [lia|]. split.
      * cbn [map]. rewrite run_add. unfold zero_based at 1 2 3. cbn [e_from e_to e_weight]. rewrite A4. exact G4.
      * rewrite G5. f_equal. lia.
    + intros (ss & arcs & g' & H1 & H2 & H3 & H4 & ->). inversion H1 as [|raw' s raws' ss' Hd HD]; subst. unfold decoded in Hd.
      inversion H2 as [|s0 ss0 arcs0 Ha Hp|s0 ss0 f t w arcs0 Ha Hf Ht Hp]; subst.
      * exists (mkDS g n m k true). split.
        -- rewrite (dimacs_line_unfold c _ s raw Hd), (proj2 (comment_spec s) Ha). reflexivity.
        -- apply IH; auto. exists ss', arcs, g'. auto.
      * rewrite lenN_cons in *. cbn [map] in H4. rewrite run_add in H4. unfold zero_based at 1 2 3 in H4. cbn [e_from e_to e_weight] in H4.
        destruct (ig_add_edge c g (f - 1) (t - 1) w) as [[g1 k1]| |] eqn:E4; cbn [bind] in H4; try discriminate.
        exists (mkDS g1 n m (k + 1) true). split.
        -- rewrite (dimacs_line_unfold c _ s raw Hd). destruct (arc_line_shape _ _ _ _ _ Ha) as (r & ->).
           destruct (_ || starts_with (str "c") _) eqn:Ec; [apply comment_spec in Ec; apply (comment_not_arc _ r eq_refl) in Ec; tauto|].
           destruct (starts_with (str "p sp ") _) eqn:Ep; [apply starts_with_spec in Ep as (q & Ep); exfalso; apply (arc_not_problem _ r q eq_refl Ep)|].
           rewrite starts_with_app. cbn [ds_found assert bind]. apply read_arc_spec in Ha. rewrite Ha. cbn [bind ds_nodes ds_curr ds_edges ds_g].
           replace ((f <=? n) && (t <=? n)) with true by (symmetry; rewrite andb_true_iff, !N.leb_le; lia).
           replace (k <? m) with true by (symmetry; apply N.ltb_lt; lia).
           replace ((0 <? f) && (0 <? t)) with true by (symmetry; rewrite andb_true_iff, !N.ltb_lt; lia). cbn [assert bind].
           rewrite E4. reflexivity.
        -- apply IH; [lia|]. exists ss', arcs0, g'. split; auto. split; auto. split; [lia|]. split; auto. f_equal. lia.
Qed.

Lemma dimacs_fold_before c raws : forall g d',
  foldM (read_line_dimacs c) raws (mkDS g 0 0 0 false) = Ok d' <->
  exists ss, Forall2 decoded raws ss /\
   ((exists pre p post n m arcs g', ss = pre ++ p :: post /\ (forall s, In s pre -> comment_line s) /\
      problem_line c p n m /\ dimacs_arcs c n post arcs /\ lenN arcs <= m /\
      ig_run c g (add_ops (map zero_based arcs)) = Ok g' /\ d' = mkDS g' n m (lenN arcs) true) \/
    ((forall s, In s ss -> comment_line s) /\ d' = mkDS g 0 0 0 false)).
Proof.
  induction raws as [|raw raws IH]; intros g d'; cbn [foldM].
  - split.
    + intros [= <-]. exists []. split; [constructor|]. right. split; auto. intros s [].
    + intros (ss & H1 & H2). inversion H1; subst. destruct H2 as [(pre & p & post & _ & _ & _ & _ & H & _)|(_ & ->)]; auto.
      destruct pre; discriminate.
  - rewrite bind_ok. split.
    + intros (d1 & H1 & H2).
      destruct (utf8_decode raw) as [s|] eqn:Hs.
      2: { unfold read_line_dimacs in H1. rewrite Hs in H1. discriminate. }
      rewrite (dimacs_line_unfold c _ s raw Hs) in H1. cbn [ds_found ds_g ds_nodes ds_edges ds_curr] in H1.
      destruct (_ || _) eqn:Ec.
      { injection H1 as <-. apply comment_spec in Ec. apply IH in H2 as (ss & G1 & G2). exists (s :: ss). split; [constructor; auto|].
        destruct G2 as [(pre & p & post & n & m & arcs & g' & -> & K1 & K)|(K1 & K2)].
        - left. exists (s :: pre), p, post, n, m, arcs, g'. split; auto. split; auto. intros x [<-|Hx]; auto.
        - right. split; auto. intros x [<-|Hx]; auto. }
      destruct (starts_with (str "p sp ") s) eqn:Ep.
      * apply starts_with_spec in Ep as (r & ->). apply bind_ok in H1 as ([n m] & Hr & [= <-]). apply read_problem_spec in Hr.
        apply dimacs_fold_after in H2 as (ss & arcs & g' & G1 & G2 & G3 & G4 & G5); [|lia].
        exists ((str "p sp " ++ r) :: ss). split; [constructor; auto|]. left. exists [], (str "p sp " ++ r), ss, n, m, arcs, g'.
        repeat split; auto. intros s [].
      * destruct (starts_with (str "a ") s) eqn:Ea; discriminate.
    + intros (ss & H1 & H2). inversion H1 as [|raw' s raws' ss' Hd HD]; subst. unfold decoded in Hd.
      assert (comment_line s -> read_line_dimacs c (mkDS g 0 0 0 false) raw = Ok (mkDS g 0 0 0 false)) as HC.
      { intros Ha. rewrite (dimacs_line_unfold c _ s raw Hd), (proj2 (comment_spec s) Ha). reflexivity. }
      destruct H2 as [([|s0 pre] & p & post & n & m & arcs & g' & E & K1 & K2 & K3 & K4 & K5 & K6)|(K1 & K2)].
      * injection E as -> ->. exists (mkDS g n m 0 true). split.
        -- rewrite (dimacs_line_unfold c _ p raw Hd). destruct (problem_line_shape _ _ _ _ K2) as (r & ->).
           destruct (_ || starts_with (str "c") _) eqn:Ec; [apply comment_spec in Ec; apply (comment_not_problem _ r eq_refl) in Ec; tauto|].
           rewrite starts_with_app. cbn [ds_found]. apply read_problem_spec in K2. rewrite K2. reflexivity.
        -- apply dimacs_fold_after; [lia|]. exists post, arcs, g'. auto.
      * injection E as -> ->. exists (mkDS g 0 0 0 false). split; [apply HC; apply K1; simpl; auto|]. apply IH.
        exists (pre ++ p :: post). split; auto. left. exists pre, p, post, n, m, arcs, g'.
        split; auto. split; [intros; apply K1; simpl; auto|]. auto.
      * exists (mkDS g 0 0 0 false). split; [apply HC; apply K1; simpl; auto|]. apply IH.
        exists ss'. split; auto. right. split; auto. intros; apply K1; simpl; auto.
Qed.

Lemma from_dimacs_spec c b g : from_dimacs_file c (contents b) = Ok g <->
  exists ss arcs, file_lines b ss /\ dimacs_text c ss arcs /\ graph_of c (map zero_based arcs) = Ok g.
Proof.
  unfold from_dimacs_file, contents, fold_lines. cbn [unwrap bind fd_error fd_bytes]. rewrite bind_ok. split.
  - intros (d & H1 & H2). apply bind_ok in H2 as (u & Hu & H2). apply assert_ok, N.eqb_eq in Hu.
    apply dimacs_fold_before in H1 as (ss & G1 & [(pre & p & post & n & m & arcs & g' & G2 & G3 & G4 & G5 & G6 & G7 & ->)|(G2 & ->)]).
    + exists ss, arcs. split; auto. split; [|apply graph_of_ok; eauto]. left. exists pre, p, post, n, m. auto.
    + exists ss, []. split; auto. split; [right; auto|]. apply graph_of_ok. exists ig_new. auto.
  - intros (ss & arcs & G1 & G2 & G3). apply graph_of_ok in G3 as (g0 & G3 & G4).
    destruct G2 as [(pre & p & post & n & m & E & K1 & K2 & K3 & K4)|(K1 & ->)].
    + exists (mkDS g0 n m (lenN arcs) true). split.
      * apply dimacs_fold_before. exists ss. split; auto. left. exists pre, p, post, n, m, arcs, g0.
        do 4 (split; auto). split; [lia|auto].
      * cbn [ds_curr ds_edges ds_g]. rewrite (proj2 (N.eqb_eq _ _) K4). exact G4.
    + exists (mkDS g0 0 0 0 false). simpl in G3. injection G3 as <-. split; [|exact G4]. apply dimacs_fold_before.
      exists ss. auto.
Qed.
