(** * FileTrunc: files cut off at some byte, and what an accepted DIMACS file looks like *)
From Verif Require Export FileProps.
From Coq Require Import PeanoNat.
Open Scope N_scope.

Lemma app_eq_app {A} (x y : list A) : forall a b, a ++ b = x ++ y ->
  (exists z, a = x ++ z /\ y = z ++ b) \/ (exists z, z <> [] /\ x = a ++ z /\ b = z ++ y).
Proof.
  induction x as [|u x IH]; intros a b E.
  - left. exists a. auto.
  - destruct a as [|v a].
    + right. exists (u :: x). split; [discriminate|]. auto.
    + injection E as -> E. apply IH in E as [(z & -> & ->)|(z & Hz & -> & ->)]; [left|right]; exists z; auto.
Qed.

Lemma prefix_unlines ls : forall p q, p ++ q = unlines ls ->
  (exists ls1 ls2, ls = ls1 ++ ls2 /\ p = unlines ls1) \/
  (exists ls1 l1 l2 ls2, ls = ls1 ++ (l1 ++ l2) :: ls2 /\ l1 <> [] /\ p = unlines ls1 ++ l1).
Proof.
  induction ls as [|l ls IH]; intros p q E.
  - apply app_eq_nil in E as [-> _]. left. exists [], []. auto.
  - unfold unlines in E. cbn [flat_map] in E. fold (unlines ls) in E. apply app_eq_app in E as [(z & -> & E)|(z & Hz & E & ->)].
    + symmetry in E. apply IH in E as [(ls1 & ls2 & -> & ->)|(ls1 & l1 & l2 & ls2 & -> & Hl & ->)].
      * left. exists (l :: ls1), ls2. auto.
      * right. exists (l :: ls1), l1, l2, ls2. split; auto. split; auto. unfold unlines. cbn [flat_map]. rewrite <- !app_assoc. reflexivity.
    + destruct p as [|x p]; [left; exists [], (l :: ls); auto|].
      symmetry in E. apply app_eq_app in E as [(y & E & E2)|(y & Hy & E & E2)].
      * destruct y as [|y0 y].
        -- rewrite app_nil_r in E. right. exists [], l, [], ls. rewrite app_nil_r. split; auto. rewrite E. split; [subst; discriminate|auto].
        -- cbn [app] in E2. injection E2 as <- E2. symmetry in E2. apply app_eq_nil in E2 as [_ ->]. congruence.
      * right. exists [], (x :: p), y, ls. rewrite E. split; auto. split; auto. discriminate.
Qed.

Lemma prefix_lines ls p q : (forall l, In l ls -> plain_line l) -> p ++ q = unlines ls ->
  exists ls', file_lines p ls' /\ (forall ss, file_lines p ss -> ss = ls') /\
  ((exists ls2, ls = ls' ++ ls2 /\ p = unlines ls') \/
   (exists ls1 l1 l2 ls2, ls = ls1 ++ (l1 ++ l2) :: ls2 /\ l1 <> [] /\ ls' = ls1 ++ [l1])).
Proof.
  intros HP E. apply prefix_unlines in E as [(ls1 & ls2 & E & ->)|(ls1 & l1 & l2 & ls2 & E & Hl & ->)].
  - exists ls1. assert (forall ss, file_lines (unlines ls1) ss <-> ss = ls1) as HF.
    { assert (forall l, In l ls1 -> plain_line l) by (intros; apply HP; rewrite E; apply in_or_app; auto).
      apply file_lines_plain; auto. rewrite <- (app_nil_r (unlines ls1)), lines_unlines by auto. apply app_nil_r. }
    split; [apply HF; auto|]. split; [apply HF|]. left. eauto.
  - exists (ls1 ++ [l1]). assert (plain_line l1) as H1.
    { intros x Hx. apply (HP (l1 ++ l2)); [rewrite E; apply in_or_app; simpl; auto|apply in_or_app; auto]. }
    assert (forall l, In l ls1 -> plain_line l) as H2 by (intros; apply HP; rewrite E; apply in_or_app; auto).
    assert (forall ss, file_lines (unlines ls1 ++ l1) ss <-> ss = ls1 ++ [l1]) as HF.
    { apply file_lines_plain.
      - rewrite lines_unlines by auto. rewrite line_last; auto.
      - intros l Hl1. apply in_app_or in Hl1 as [Hl1|[<-|[]]]; auto. }
    split; [apply HF; auto|]. split; [apply HF|]. right. exists ls1, l1, l2, ls2. auto.
Qed.

(** ** Numbers cut off *)
Lemma number_digits c w v : (forall d, In d w -> 48 <= d <= 57) -> number c w v -> v = val w 0.
Proof.
  intros H (_ & ds & (H1 & H2 & ->) & [->| ->]); auto.
Qed.
Lemma dec_prefix w d q : dec w = d ++ q -> d <> [] -> 1 <= w ->
  1 <= val d 0 <= w /\ (q = [] -> val d 0 = w) /\ (q <> [] -> val d 0 < w).
Proof.
  intros E Hd Hw. destruct (dec_spec w) as (_ & H2 & H3 & H4). destruct d as [|x d]; [congruence|].
  rewrite E in *. assert (1 <= val (x :: d) 0) as H1.
  { destruct (H4 x (d ++ q) eq_refl) as [Hr|Hx].
    - apply app_eq_nil in Hr as [-> ->]. cbn [app] in H3. rewrite H3. auto.
    - change (val (x :: d) 0) with (val d (0 * 10 + (x - 48))). pose proof (val_ge d (0 * 10 + (x - 48))). lia. }
  rewrite val_app in H3. destruct q as [|y q].
  - change (val [] (val (x :: d) 0)) with (val (x :: d) 0) in H3. repeat split; auto; try lia. congruence.
  - assert (val (x :: d) 0 < w); [|repeat split; auto; try lia; discriminate]. rewrite <- H3.
    change (val (y :: q) (val (x :: d) 0)) with (val q (val (x :: d) 0 * 10 + (y - 48))).
    pose proof (val_ge q (val (x :: d) 0 * 10 + (y - 48))). lia.
Qed.
Lemma dec_zero_prefix w d q : dec w = d ++ q -> d <> [] -> val d 0 = 0 -> w = 0 /\ q = [].
Proof.
  intros E Hd Hv. destruct (N.eq_dec w 0) as [->|Hw].
  - split; auto. destruct d as [|x d]; [congruence|]. change (dec 0) with [48] in E. injection E as _ E. symmetry in E. apply app_eq_nil in E as [_ ->]. auto.
  - destruct (dec_prefix w d q E Hd); lia.
Qed.

(** the words of a prefix of a line *)
Lemma split_one r : (forall x, In x r -> is_whitespace x = false) -> (r = [] /\ split_whitespace r = []) \/ split_whitespace r = [r].
Proof.
  intros H. destruct r as [|x r]; [left; auto|]. right. apply words_iff, words_one; auto. discriminate.
Qed.
Lemma split_prefix n r l2 rest : r ++ l2 = dec n ++ 32 :: rest ->
  (exists r', r = dec n ++ 32 :: r' /\ r' ++ l2 = rest /\ split_whitespace r = dec n :: split_whitespace r') \/
  (lenN (split_whitespace r) <= 1).
Proof.
  intros E. apply app_eq_app in E as [(z & -> & E)|(z & Hz & E & _)].
  - destruct z as [|x z].
    + right. rewrite app_nil_r. destruct (split_one (dec n)) as [(_ & ->)| ->]; [apply dec_not_ws|unfold lenN; simpl; lia|unfold lenN; simpl; lia].
    + cbn [app] in E. injection E as <- ->. left. exists z. split; auto. split; auto. apply words_iff. apply words_space; [apply dec_nonempty|apply dec_not_ws|].
      apply split_words.
  - right. destruct (split_one r) as [(_ & ->)| ->]; try (unfold lenN; simpl; lia).
    intros x Hx. apply (dec_not_ws n). rewrite E. apply in_or_app; auto.
Qed.
Lemma split_prefix_last n r l2 : r ++ l2 = dec n -> (r = [] /\ split_whitespace r = []) \/ split_whitespace r = [r].
Proof.
  intros E. apply split_one. intros x Hx. apply (dec_not_ws n). rewrite <- E. apply in_or_app; auto.
Qed.

Lemma arc_prefix c f t w l1 l2 f' t' w' : arc_body f t w = l1 ++ l2 -> arc_line c l1 f' t' w' ->
  f' = f /\ t' = t /\ exists d, d <> [] /\ dec w = d ++ l2 /\ w' = val d 0.
Proof.
  intros E (r & a & b & d & -> & HW & Hf & Ht & Hw). unfold arc_body in E. rewrite <- app_assoc in E. apply app_inv_head in E. symmetry in E.
  apply words_iff in HW. apply split_prefix in E as [(r1 & -> & E & HS)|HS]; [|rewrite HW in HS; unfold lenN in HS; simpl in HS; lia].
  rewrite HS in HW. injection HW as <- HW.
  apply split_prefix in E as [(r2 & -> & E & HS2)|HS2]; [|rewrite HW in HS2; unfold lenN in HS2; simpl in HS2; lia].
  rewrite HS2 in HW. injection HW as <- HW.
  destruct (split_prefix_last _ _ _ E) as [(-> & HS3)|HS3]; rewrite HS3 in HW; [discriminate|]. injection HW as <-.
  apply number_digits in Hf, Ht, Hw; try apply dec_spec.
  - split; [rewrite Hf; apply dec_spec|]. split; [rewrite Ht; apply dec_spec|]. exists r2. split; [|auto].
    intros ->. discriminate.
  - intros x Hx. apply (proj1 (proj2 (dec_spec w))). rewrite <- E. apply in_or_app; auto.
Qed.
Lemma problem_prefix c n m l1 l2 n' m' : problem_body n m = l1 ++ l2 -> problem_line c l1 n' m' ->
  n' = n /\ exists d, d <> [] /\ dec m = d ++ l2 /\ m' = val d 0.
Proof.
  intros E (r & a & b & -> & HW & Hf & Ht). unfold problem_body in E. rewrite <- app_assoc in E. apply app_inv_head in E. symmetry in E.
  apply words_iff in HW. apply split_prefix in E as [(r1 & -> & E & HS)|HS]; [|rewrite HW in HS; unfold lenN in HS; simpl in HS; lia].
  rewrite HS in HW. injection HW as <- HW.
  destruct (split_prefix_last _ _ _ E) as [(-> & HS3)|HS3]; rewrite HS3 in HW; [discriminate|]. injection HW as <-.
  apply number_digits in Hf, Ht; try apply dec_spec.
  - split; [rewrite Hf; apply dec_spec|]. exists r1. split; [|auto]. intros ->. discriminate.
  - intros x Hx. apply (proj1 (proj2 (dec_spec m))). rewrite <- E. apply in_or_app; auto.
Qed.

(** ** Inversion of texts *)
Lemma plain_text_app c s1 s2 arcs : plain_text c (s1 ++ s2) arcs ->
  exists a1 a2, arcs = a1 ++ a2 /\ plain_text c s1 a1 /\ plain_text c s2 a2.
Proof.
  revert arcs. induction s1 as [|s s1 IH]; intros arcs H.
  - exists [], arcs. split; auto. split; [constructor|auto].
  - cbn [app] in H. inversion H; subst.
    + match goal with G : plain_text c (s1 ++ s2) _ |- _ => apply IH in G; destruct G as (a1 & a2 & -> & G1 & G2) end. exists (mkEdge f t w :: a1), a2. split; auto. split; auto. constructor; auto.
    + match goal with G : plain_text c (s1 ++ s2) _ |- _ => apply IH in G; destruct G as (a1 & a2 & -> & G1 & G2) end. exists a1, a2. split; auto. split; auto. apply plain_other; auto.
Qed.
Lemma dimacs_arcs_app c n s1 s2 arcs : dimacs_arcs c n (s1 ++ s2) arcs ->
  exists a1 a2, arcs = a1 ++ a2 /\ dimacs_arcs c n s1 a1 /\ dimacs_arcs c n s2 a2.
Proof.
  revert arcs. induction s1 as [|s s1 IH]; intros arcs H.
  - exists [], arcs. split; auto. split; [constructor|auto].
  - cbn [app] in H. inversion H; subst.
    + match goal with G : dimacs_arcs c n (s1 ++ s2) _ |- _ => apply IH in G; destruct G as (a1 & a2 & -> & G1 & G2) end. exists a1, a2. split; auto. split; auto. apply da_comment; auto.
    + match goal with G : dimacs_arcs c n (s1 ++ s2) _ |- _ => apply IH in G; destruct G as (a1 & a2 & -> & G1 & G2) end. exists (mkEdge f t w :: a1), a2. split; auto. split; auto. apply da_arc; auto.
Qed.

(** ** Plain files cut off *)
Lemma graph_of_fun c es g g' : graph_of c es = Ok g -> graph_of c es = Ok g' -> g' = g.
Proof. congruence. Qed.

Lemma map_app_inv {A B} (f : A -> B) l : forall l1 l2, map f l = l1 ++ l2 -> exists a b, l = a ++ b /\ l1 = map f a /\ l2 = map f b.
Proof.
  induction l as [|x l IH]; intros l1 l2 E.
  - simpl in E. symmetry in E. apply app_eq_nil in E as [-> ->]. exists [], []. auto.
  - destruct l1 as [|y l1].
    + exists [], (x :: l). auto.
    + simpl in E. injection E as <- E. apply IH in E as (a & b & -> & -> & ->). exists (x :: a), b. auto.
Qed.

Lemma arc_of_plain l es : In l (map arc_of es) -> plain_line l.
Proof. intros Hl. apply in_map_iff in Hl as (e & <- & _). intros x. apply arc_body_plain. Qed.

Lemma plain_truncated c g p q g' : file_ok c g -> plain_file (ig_edges g) = p ++ q -> from_file c (contents p) = Ok g' ->
  exists es1 es2,
    (ig_edges g = es1 ++ es2 /\ graph_of c es1 = Ok g') \/
    (exists e w', ig_edges g = es1 ++ e :: es2 /\ 1 <= w' <= e_weight e /\
       graph_of c (es1 ++ [mkEdge (e_from e) (e_to e) w']) = Ok g').
Proof.
  intros Hg E HR. apply from_file_spec in HR as (ss & arcs & HL & HT & HG).
  rewrite plain_file_lines in E. symmetry in E. apply prefix_lines in E as (ls' & _ & HU & HC); [|intros l; apply arc_of_plain].
  apply HU in HL. subst ls'. clear HU.
  assert (forall es1, (forall e, In e es1 -> In e (ig_edges g)) -> plain_text c (map arc_of es1) es1) as HA.
  { intros es1 Hin. apply plain_text_arcs. intros e He. apply Hin in He. destruct (fo_edge _ _ Hg e He) as (_ & H1 & H2 & H3). pose proof (fo_nodes _ _ Hg). lia. }
  destruct HC as [(ls2 & E & _)|(ls1 & l1 & l2 & ls2 & E & Hl & ->)].
  - apply map_app_inv in E as (a & b & E & -> & ->). exists a, b. left. split; auto.
    rewrite (plain_text_fun c (map arc_of a) a arcs); auto. apply HA. intros e He. rewrite E. apply in_or_app; auto.
  - apply map_app_inv in E as (a & b & E & -> & E2). destruct b as [|e b]; [discriminate|]. injection E2 as E2 _.
    assert (plain_text c (map arc_of a) a) as HTa by (apply HA; intros x Hx; rewrite E; apply in_or_app; auto).
    apply plain_text_app in HT as (a1 & a2 & -> & T1 & T2).
    rewrite <- (plain_text_fun c _ _ _ HTa T1) in *. inversion T2 as [|? ? f t w arcs Harc Hnil|? ? arcs Hno Hnil]; subst; inversion Hnil; subst.
    + exists a, b. right. destruct (arc_prefix c (e_from e) (e_to e) (e_weight e) l1 l2 f t w) as (-> & -> & d & Hd & Ed & ->); auto.
      exists e, (val d 0). split; auto. split; auto. apply (dec_prefix _ _ _ Ed Hd).
      destruct (fo_edge _ _ Hg e) as (Hacc & _); [rewrite E; apply in_or_app; simpl; auto|]. apply acceptable_spec in Hacc. tauto.
    + exists a, (e :: b). left. rewrite app_nil_r in HG. split; [|auto]. exact E.
Qed.

(** ** DIMACS files cut off *)
Lemma comment_not_prefix_p n m l1 l2 : problem_body n m = l1 ++ l2 -> l1 <> [] -> ~ comment_line l1.
Proof.
  intros E H [->|(r & ->)]; [congruence|]. discriminate E.
Qed.
Lemma comment_not_prefix_a f t w l1 l2 : arc_body f t w = l1 ++ l2 -> l1 <> [] -> ~ comment_line l1.
Proof.
  intros E H [->|(r & ->)]; [congruence|]. discriminate E.
Qed.
Lemma graph_nil c : graph_of c [] = Ok (mkInputGraph [] 0 true).
Proof. reflexivity. Qed.

Lemma dimacs_truncated c g p q g' : file_ok c g -> dimacs_file (ig_num_nodes g) (ig_edges g) = p ++ q ->
  from_dimacs_file c (contents p) = Ok g' ->
  p = [] \/ g' = g \/
  exists es1 e w', ig_edges g = es1 ++ [e] /\ 1 <= w' < e_weight e /\
    graph_of c (es1 ++ [mkEdge (e_from e) (e_to e) w']) = Ok g'.
Proof.
  intros Hg E HR. apply from_dimacs_spec in HR as (ss & arcs & HL & HT & HG).
  pose proof (fo_nodes _ _ Hg) as Hn. pose proof (fo_cap _ _ Hg) as Hc.
  assert (umax c / 2 <= umax c) as H2 by (apply N.div_le_upper_bound; lia).
  set (n := ig_num_nodes g) in *. set (m := lenN (ig_edges g)) in *.
  assert (problem_line c (problem_body n m) n m) as HP by (apply problem_body_line; lia).
  assert (forall e, In e (ig_edges g) -> 1 <= e_from (one_based e) <= n /\ 1 <= e_to (one_based e) <= n /\ e_weight (one_based e) <= umax c) as HE.
  { intros e He. destruct (fo_edge _ _ Hg e He) as (_ & H4 & H5 & H3). cbn [one_based e_from e_to e_weight]. subst n. lia. }
  rewrite dimacs_file_lines in E. fold m in E. symmetry in E. apply prefix_lines in E as (ls' & _ & HU & HC).
  2: { intros l [<-|Hl]; [intros x; apply problem_body_plain|]. eapply arc_of_plain; eauto. }
  apply HU in HL. subst ls'. clear HU.
  destruct HC as [(ls2 & E & EP)|(ls1 & l1 & l2 & ls2 & E & Hl & ->)].
  - destruct ss as [|s ss]; [left; auto|]. injection E as <- E. right. left.
    apply map_app_inv in E as (a & b & E & -> & ->). apply map_app_inv in E as (a' & b' & E & -> & ->).
    assert (dimacs_arcs c n (map arc_of (map one_based a')) (map one_based a')) as HA.
    { apply dimacs_arcs_text; auto. intros e He. apply in_map_iff in He as (e' & <- & He). apply HE. rewrite E. apply in_or_app; auto. }
    destruct HT as [(pre & pl & post & n' & m' & E2 & K1 & K2 & K3 & K4)|(K1 & ->)].
    2: { exfalso. apply (comment_not_prefix_p n m (problem_body n m) []); [rewrite app_nil_r; auto| |apply K1; simpl; auto]. discriminate. }
    destruct pre as [|s pre].
    2: { exfalso. injection E2 as <- _. apply (comment_not_prefix_p n m (problem_body n m) []); [rewrite app_nil_r; auto| |apply K1; simpl; auto]. discriminate. }
    injection E2 as <- <-. destruct (problem_line_fun _ _ _ _ _ _ HP K2) as [<- <-].
    rewrite <- (dimacs_arcs_fun _ _ _ _ _ HA K3) in *. rewrite zero_one in HG.
    assert (b' = []) as ->.
    { unfold m in K4. rewrite E, lenN_app in K4. unfold lenN in K4. rewrite map_length in K4. destruct b'; auto. simpl in K4. lia. }
    rewrite app_nil_r in E. rewrite <- E in HG. pose proof (file_ok_graph _ _ Hg). congruence.
  - right. destruct ls1 as [|s ls1].
    + left. injection E as E <-. cbn [app] in HT.
      destruct HT as [([|s pre] & pl & post & n' & m' & E2 & K1 & K2 & K3 & K4)|(K1 & ->)].
      * injection E2 as <- <-. inversion K3; subst arcs. destruct (problem_prefix c n m l1 l2 n' m' E K2) as (_ & d & Hd & Ed & Em).
        rewrite <- K4 in Em. destruct (dec_zero_prefix m d l2 Ed Hd (eq_sym Em)) as (Hm & _). unfold m in Hm.
        destruct (ig_edges g) as [|e0 es0] eqn:Eg; [|rewrite lenN_cons in Hm; lia].
        pose proof (file_ok_graph _ _ Hg) as HX. rewrite Eg in HX. simpl in HG. congruence.
      * injection E2 as _ E2. destruct pre; discriminate.
      * exfalso. apply (comment_not_prefix_p n m l1 l2 E Hl). apply K1. simpl; auto.
    + injection E as <- E. apply map_app_inv in E as (a & b & E & -> & E2). apply map_app_inv in E as (a' & b' & E & -> & ->).
      destruct b' as [|e b']; [discriminate|]. cbn [map] in E2. injection E2 as E2 _. symmetry in E2. unfold arc_of in E2.
      assert (dimacs_arcs c n (map arc_of (map one_based a')) (map one_based a')) as HA.
      { apply dimacs_arcs_text; auto. intros x Hx. apply in_map_iff in Hx as (e' & <- & He). apply HE. rewrite E. apply in_or_app; auto. }
      cbn [app] in HT.
      destruct HT as [(pre & pl & post & n' & m' & E3 & K1 & K2 & K3 & K4)|(K1 & ->)].
      2: { exfalso. apply (comment_not_prefix_p n m (problem_body n m) []); [rewrite app_nil_r; auto| |apply K1; simpl; auto]. discriminate. }
      destruct pre as [|s pre].
      2: { exfalso. injection E3 as <- _. apply (comment_not_prefix_p n m (problem_body n m) []); [rewrite app_nil_r; auto| |apply K1; simpl; auto]. discriminate. }
      injection E3 as <- <-. destruct (problem_line_fun _ _ _ _ _ _ HP K2) as [<- <-].
      apply dimacs_arcs_app in K3 as (a1 & a2 & -> & T1 & T2). rewrite <- (dimacs_arcs_fun _ _ _ _ _ HA T1) in *.
      inversion T2 as [|? ? ? Hcom Hnil|? ? f t w ? Harc Hf Ht Hnil]; subst.
      { exfalso. apply (comment_not_prefix_a _ _ _ _ _ E2 Hl). auto. }
      inversion Hnil; subst. destruct (arc_prefix c _ _ _ l1 l2 f t w E2) as (-> & -> & d & Hd & Ed & ->); auto.
      assert (b' = []) as ->.
      { unfold m in K4. rewrite E, !lenN_app in K4. unfold lenN in K4. rewrite map_length in K4. destruct b'; auto. simpl in K4. lia. }
      rewrite map_app, zero_one in HG. cbn [map] in HG. unfold zero_based in HG. unfold one_based in HG, Ed. cbn [e_from e_to e_weight] in HG, Ed.
      rewrite !N.add_sub in HG.
      destruct (fo_edge _ _ Hg e) as (Hacc & _); [rewrite E; apply in_or_app; simpl; auto|]. apply acceptable_spec in Hacc.
      destruct (dec_prefix _ _ _ Ed Hd) as (D1 & D2 & D3); [tauto|].
      destruct (N.eq_dec (val d 0) (e_weight e)) as [Hv|Hv].
      * left. rewrite Hv in HG. replace (mkEdge (e_from e) (e_to e) (e_weight e)) with e in HG by (destruct e; auto). rewrite <- E in HG.
        pose proof (file_ok_graph _ _ Hg). congruence.
      * right. exists a', e, (val d 0). split; auto. split; [lia|]. exact HG.
Qed.

(** ** What an accepted DIMACS file looks like *)
Lemma dimacs_arcs_lines c n ss arcs : dimacs_arcs c n ss arcs ->
  lenN (filter (starts_with (str "a ")) ss) = lenN arcs /\
  (forall s, In s ss -> comment_line s \/ exists f t w, arc_line c s f t w /\ 1 <= f <= n /\ 1 <= t <= n).
Proof.
  induction 1 as [|s ss arcs Hc H [IH1 IH2]|s ss f t w arcs Ha Hf Ht H [IH1 IH2]].
  - split; auto. intros s [].
  - cbn [filter]. replace (starts_with (str "a ") s) with false.
    + split; auto. intros x [<-|Hx]; auto.
    + symmetry. apply starts_false. intros r E. eapply comment_not_arc; eauto.
  - cbn [filter]. destruct (arc_line_shape _ _ _ _ _ Ha) as (r & E). rewrite E at 1. rewrite starts_with_app, !lenN_cons, IH1.
    split; auto. intros x [<-|Hx]; auto. right. exists f, t, w. auto.
Qed.
Lemma comments_no_arcs ss : (forall s, In s ss -> comment_line s) -> filter (starts_with (str "a ")) ss = [].
Proof.
  induction ss as [|s ss IH]; intros H; auto. cbn [filter]. replace (starts_with (str "a ") s) with false; [apply IH; intros; apply H; simpl; auto|].
  symmetry. apply starts_false. intros r E. eapply comment_not_arc; [exact E|]. apply H; simpl; auto.
Qed.
Lemma arc_not_problem_line c s f t w n m : arc_line c s f t w -> problem_line c s n m -> False.
Proof.
  intros H1 H2. destruct (arc_line_shape _ _ _ _ _ H1) as (r & E1). destruct (problem_line_shape _ _ _ _ H2) as (q & E2).
  eapply arc_not_problem; eauto.
Qed.
Lemma comment_not_problem_line c s n m : comment_line s -> problem_line c s n m -> False.
Proof. intros H1 H2. destruct (problem_line_shape _ _ _ _ H2) as (q & E2). eapply comment_not_problem; eauto. Qed.
Lemma comment_not_arc_line c s f t w : comment_line s -> arc_line c s f t w -> False.
Proof. intros H1 H2. destruct (arc_line_shape _ _ _ _ _ H2) as (q & E2). eapply comment_not_arc; eauto. Qed.

Lemma dimacs_text_lines c ss arcs : dimacs_text c ss arcs ->
  (forall s, In s ss -> comment_line s \/ (exists n m, problem_line c s n m) \/ exists f t w, arc_line c s f t w) /\
  (forall i j s s' n m n' m', nth_error ss i = Some s -> nth_error ss j = Some s' ->
     problem_line c s n m -> problem_line c s' n' m' -> i = j) /\
  (forall i s f t w, nth_error ss i = Some s -> arc_line c s f t w ->
     exists j p n m, (j < i)%nat /\ nth_error ss j = Some p /\ problem_line c p n m /\ 1 <= f <= n /\ 1 <= t <= n) /\
  (forall s n m, In s ss -> problem_line c s n m -> lenN (filter (starts_with (str "a ")) ss) = m).
Proof.
  intros [(pre & p & post & n & m & -> & K1 & K2 & K3 & K4)|(K1 & ->)].
  - apply dimacs_arcs_lines in K3 as [L1 L2].
    assert (forall i s n m, nth_error (pre ++ p :: post) i = Some s -> problem_line c s n m -> i = List.length pre /\ s = p) as HP.
    { intros i s n' m' Hi Hp. destruct (Nat.lt_trichotomy i (List.length pre)) as [Hlt|[->|Hgt]].
      - rewrite nth_error_app1 in Hi by auto. apply nth_error_In in Hi. exfalso. eapply comment_not_problem_line; eauto.
      - rewrite nth_error_app2, Nat.sub_diag in Hi by auto. injection Hi as ->. auto.
      - rewrite nth_error_app2 in Hi by lia. destruct (i - List.length pre)%nat as [|k] eqn:Ek; [lia|]. cbn [nth_error] in Hi.
        apply nth_error_In in Hi. exfalso. destruct (L2 _ Hi) as [Hc|(f & t & w & Ha & _)].
        + eapply comment_not_problem_line; eauto.
        + eapply arc_not_problem_line; eauto. }
    split; [|split; [|split]].
    + intros s Hs. apply in_app_or in Hs as [Hs|[<-|Hs]]; auto.
      * right. left. eauto.
      * destruct (L2 _ Hs) as [Hc|(f & t & w & Ha & _)]; auto. right. right. eauto.
    + intros i j s s' a b a' b' Hi Hj Hp Hp'. destruct (HP _ _ _ _ Hi Hp) as [-> _]. destruct (HP _ _ _ _ Hj Hp') as [-> _]. auto.
    + intros i s f t w Hi Ha. exists (List.length pre), p, n, m. destruct (Nat.lt_trichotomy i (List.length pre)) as [Hlt|[->|Hgt]].
      * rewrite nth_error_app1 in Hi by auto. apply nth_error_In in Hi. exfalso. eapply comment_not_arc_line; eauto.
      * rewrite nth_error_app2, Nat.sub_diag in Hi by auto. injection Hi as ->. exfalso. eapply arc_not_problem_line; eauto.
      * split; auto. split; [rewrite nth_error_app2, Nat.sub_diag by auto; auto|]. split; auto.
        rewrite nth_error_app2 in Hi by lia. destruct (i - List.length pre)%nat as [|k] eqn:Ek; [lia|]. cbn [nth_error] in Hi.
        apply nth_error_In in Hi. destruct (L2 _ Hi) as [Hc|(f' & t' & w' & Ha' & B1 & B2)].
        -- exfalso. eapply comment_not_arc_line; eauto.
        -- destruct (arc_line_fun _ _ _ _ _ _ _ _ Ha Ha') as (-> & -> & _). auto.
    + intros s n' m' Hs Hp. apply In_nth_error in Hs as (i & Hi). destruct (HP _ _ _ _ Hi Hp) as [_ ->].
      destruct (problem_line_fun _ _ _ _ _ _ K2 Hp) as [_ <-].
      rewrite filter_app, comments_no_arcs by auto. cbn [app filter].
      destruct (problem_line_shape _ _ _ _ K2) as (r & E). replace (starts_with (str "a ") p) with false; [rewrite L1; auto|].
      symmetry. apply starts_false. intros q Eq. eapply arc_not_problem; eauto.
  - split; [auto|]. split; [|split].
    + intros i j s s' n m n' m' Hi _ Hp _. apply nth_error_In in Hi. exfalso. eapply comment_not_problem_line; eauto.
    + intros i s f t w Hi Ha. apply nth_error_In in Hi. exfalso. eapply comment_not_arc_line; eauto.
    + intros s n m Hs Hp. exfalso. eapply comment_not_problem_line; eauto.
Qed.

Lemma file_lines_fun b s1 s2 : file_lines b s1 -> file_lines b s2 -> s1 = s2.
Proof.
  unfold file_lines. generalize (text_lines b). intros l H. revert s2. induction H as [|r s l ss Hr H IH]; intros s2 H2; inversion H2; subst; auto.
  f_equal; auto. congruence.
Qed.

Lemma app_cons_unique {A} (P : A -> Prop) (a a' : list A) x x' b b' : a ++ x :: b = a' ++ x' :: b' ->
  (forall y, In y a -> ~ P y) -> (forall y, In y a' -> ~ P y) -> P x -> P x' -> a = a' /\ x = x' /\ b = b'.
Proof.
  revert a'. induction a as [|y a IH]; intros a' E H1 H2 Hx Hx'.
  - destruct a' as [|y' a']; injection E as E1 E2; auto. exfalso. apply (H2 x); subst; simpl; auto.
  - destruct a' as [|y' a']; injection E as E1 E2.
    + exfalso. apply (H1 x'); subst; simpl; auto.
    + subst y'. destruct (IH a' E2) as (-> & -> & ->); auto; intros; [apply H1|apply H2]; simpl; auto.
Qed.

Lemma dimacs_cut c ss k arcs arcs' : dimacs_text c ss arcs -> dimacs_text c (firstn k ss) arcs' ->
  arcs' = arcs \/ ((forall s, In s (firstn k ss) -> comment_line s) /\ arcs' = []).
Proof.
  intros H1 [(pre' & p' & post' & n' & m' & E' & K1' & K2' & K3' & K4')|(K1' & ->)]; [|right; auto].
  left. pose proof (firstn_skipn k ss) as Ess. rewrite E' in Ess. revert Ess. generalize (skipn k ss) as sk. intros sk Ess.
  destruct H1 as [(pre & p & post & n & m & E & K1 & K2 & K3 & K4)|(K1 & ->)].
  2: { exfalso. apply (comment_not_problem_line c p' n' m'); auto. apply K1. rewrite <- Ess. apply in_or_app. left. apply in_or_app. simpl; auto. }
  rewrite E in Ess. rewrite <- app_assoc in Ess. cbn [app] in Ess.
  apply (app_cons_unique (fun s => exists n m, problem_line c s n m)) in Ess as (Ea & Eb & Ec); eauto.
  - rewrite <- Ec, <- Eb in *. destruct (problem_line_fun _ _ _ _ _ _ K2 K2') as [-> ->].
    apply dimacs_arcs_app in K3 as (a1 & a2 & -> & T1 & T2). rewrite (dimacs_arcs_fun _ _ _ _ _ K3' T1) in *.
    rewrite lenN_app, <- K4' in K4. destruct a2; [rewrite app_nil_r; auto|]. rewrite lenN_cons in K4. lia.
  - intros y Hy (a & b & Hp). eapply comment_not_problem_line; eauto.
  - intros y Hy (a & b & Hp). eapply comment_not_problem_line; eauto.
Qed.

(** ** The theorems of PropFile *)
Lemma C22_proof : forall c ops g dv old,
  (debug_build c = true \/ forall e, In e (accepted ops) -> e_from e < umax c /\ e_to e < umax c) ->
  frozen_graph c ops g -> reliable dv ->
  exists b, to_file dv old g = (Some b, Ok IoOk) /\ b = plain_file (ig_edges g) /\
    from_file c (contents b) = Ok g.
Proof.
  intros c ops g dv old Hids HF HR. exists (plain_file (ig_edges g)).
  destruct (to_file dv old g) as [file r] eqn:E. pose proof HF as (_ & _ & Hfr).
  destruct (to_file_spec dv old g file r Hfr E) as (_ & _ & _ & H). destruct (H HR) as [-> ->].
  split; auto. split; auto. apply read_plain_file. eapply frozen_file_ok; eauto.
Qed.
Lemma C23_proof : forall c ops g dv old,
  (debug_build c = true \/ forall e, In e (accepted ops) -> e_from e < umax c /\ e_to e < umax c) ->
  frozen_graph c ops g -> reliable dv ->
  exists b, to_dimacs_file c dv old g = (Some b, Ok IoOk) /\ b = dimacs_file (ig_num_nodes g) (ig_edges g) /\
    from_dimacs_file c (contents b) = Ok g.
Proof.
  intros c ops g dv old Hids HF HR. exists (dimacs_file (ig_num_nodes g) (ig_edges g)).
  destruct (to_dimacs_file c dv old g) as [file r] eqn:E. pose proof HF as (_ & _ & Hfr).
  assert (file_ok c g) as Hg by (eapply frozen_file_ok; eauto).
  destruct (to_dimacs_spec c dv old g file r Hg Hfr E) as (_ & _ & _ & H). destruct (H HR) as [-> ->].
  split; auto. split; auto. apply read_dimacs_file. auto.
Qed.
Lemma fold_lines_error {S} (f : S -> list N -> res S) b s : (forall s a, nd (f s a)) ->
  exists r, fold_lines f (mkFileData b true) s = Panic r.
Proof.
  intros H. unfold fold_lines. cbn [fd_error fd_bytes]. pose proof (nd_foldM f (text_lines (complete_part b)) H s) as HN.
  destruct (foldM f (text_lines (complete_part b)) s); cbn [bind]; eauto. exfalso. apply HN; auto.
Qed.
Lemma C24_panics_proof : forall c file,
  ((exists g, from_dimacs_file c file = Ok g) \/ exists r, from_dimacs_file c file = Panic r) /\
  (file = None -> exists r, from_dimacs_file c file = Panic r) /\
  (forall b, file = Some (mkFileData b true) -> exists r, from_dimacs_file c file = Panic r).
Proof.
  intros c file. split; [apply nd_cases, nd_from_dimacs|]. split.
  - intros ->. eexists. reflexivity.
  - intros b ->. unfold from_dimacs_file. cbn [unwrap bind].
    destruct (fold_lines_error (read_line_dimacs c) b (mkDS ig_new 0 0 0 false)) as (r & ->); [intros; apply nd_dimacs|]. cbn [bind]. eauto.
Qed.
Lemma C41_panics_proof : forall c file,
  ((exists g, from_file c file = Ok g) \/ exists r, from_file c file = Panic r) /\
  (file = None -> exists r, from_file c file = Panic r) /\
  (forall b, file = Some (mkFileData b true) -> exists r, from_file c file = Panic r).
Proof.
  intros c file. split; [apply nd_cases, nd_from_file|]. split.
  - intros ->. eexists. reflexivity.
  - intros b ->. unfold from_file. cbn [unwrap bind].
    destruct (fold_lines_error (read_line_plain c) b ig_new) as (r & ->); [intros; apply nd_plain|]. cbn [bind]. eauto.
Qed.
Lemma C24_rejects_proof : forall c b g ss,
  from_dimacs_file c (contents b) = Ok g -> file_lines b ss ->
  (forall s, In s ss -> comment_line s \/ (exists n m, problem_line c s n m) \/ exists f t w, arc_line c s f t w) /\
  (forall i j s s' n m n' m', nth_error ss i = Some s -> nth_error ss j = Some s' ->
     problem_line c s n m -> problem_line c s' n' m' -> i = j) /\
  (forall i s f t w, nth_error ss i = Some s -> arc_line c s f t w ->
     exists j p n m, (j < i)%nat /\ nth_error ss j = Some p /\ problem_line c p n m /\ 1 <= f <= n /\ 1 <= t <= n) /\
  (forall s n m, In s ss -> problem_line c s n m -> lenN (filter (starts_with (str "a ")) ss) = m).
Proof.
  intros c b g ss HR HL. apply from_dimacs_spec in HR as (ss' & arcs & HL' & HT & _).
  rewrite (file_lines_fun _ _ _ HL HL'). eapply dimacs_text_lines; eauto.
Qed.
Lemma C24_cut_proof : forall c b g ss k b' g',
  from_dimacs_file c (contents b) = Ok g -> file_lines b ss ->
  file_lines b' (firstn k ss) -> from_dimacs_file c (contents b') = Ok g' ->
  g' = g \/ ((forall s, In s (firstn k ss) -> comment_line s) /\ g' = mkInputGraph [] 0 true).
Proof.
  intros c b g ss k b' g' HR HL HL' HR'. apply from_dimacs_spec in HR as (s1 & arcs & H1 & HT & HG).
  apply from_dimacs_spec in HR' as (s2 & arcs' & H2 & HT' & HG').
  rewrite (file_lines_fun _ _ _ H1 HL) in HT. rewrite (file_lines_fun _ _ _ H2 HL') in HT'.
  destruct (dimacs_cut _ _ _ _ _ HT HT') as [->|(K & ->)]; [left; congruence|]. right. split; auto.
  rewrite graph_nil in HG'. congruence.
Qed.

Lemma run_nodes_le c n es : forall g g', ig_num_nodes g <= n -> n <= umax c ->
  (forall e, In e es -> e_from e < n /\ e_to e < n) -> ig_run c g (add_ops es) = Ok g' -> ig_num_nodes g' <= n.
Proof.
  induction es as [|e es IH]; intros g g' Hg Hn He HR.
  - simpl in HR. injection HR as <-. auto.
  - rewrite run_add in HR. apply bind_ok in HR as ([g1 k] & HA & HR). eapply IH; [|exact Hn| |exact HR]; [|intros; apply He; simpl; auto].
    destruct (He e (or_introl eq_refl)) as (H1 & H2). unfold ig_add_edge in HA.
    destruct (do_add_cases _ _ _ _ _ _ _ HA) as [[_ G]|[(F & Hz & G)|(F & G1 & G2 & [(_ & _ & G)|[(_ & G)|(Hc & m & M1 & M2 & G)]])]]; try discriminate.
    + injection G as -> _. auto.
    + injection G as -> _. cbn [ig_num_nodes]. rewrite M1 by lia. lia.
Qed.
Lemma dimacs_arcs_bound c n ss arcs : dimacs_arcs c n ss arcs -> forall e, In e arcs -> 1 <= e_from e <= n /\ 1 <= e_to e <= n.
Proof. induction 1; intros e He; [destruct He|auto|]. destruct He as [<-|He]; auto. Qed.
Lemma C25_proof : forall c b g ss s n m,
  from_dimacs_file c (contents b) = Ok g -> file_lines b ss -> In s ss -> problem_line c s n m ->
  ig_num_nodes g <= n.
Proof.
  intros c b g ss s n m HR HL Hs Hp. apply from_dimacs_spec in HR as (s1 & arcs & H1 & HT & HG).
  rewrite (file_lines_fun _ _ _ H1 HL) in HT. apply graph_of_ok in HG as (g0 & HG & HF).
  unfold ig_freeze in HF. destruct (ig_frozen g0); [discriminate|]. injection HF as <-. cbn [ig_num_nodes].
  destruct HT as [(pre & p & post & n' & m' & -> & K1 & K2 & K3 & K4)|(K1 & ->)].
  2: { exfalso. eapply comment_not_problem_line; eauto. }
  assert (n' = n) as ->.
  { apply in_app_or in Hs as [Hs|[<-|Hs]].
    - exfalso. eapply comment_not_problem_line; eauto.
    - apply (problem_line_fun _ _ _ _ _ _ K2 Hp).
    - exfalso. destruct (proj2 (dimacs_arcs_lines _ _ _ _ K3) _ Hs) as [Hc|(f & t & w & Ha & _)];
        [eapply comment_not_problem_line|eapply arc_not_problem_line]; eauto. }
  assert (n <= umax c) as Hn by (destruct K2 as (r & a & d & _ & _ & (Hn & _) & _); auto).
  apply (run_nodes_le c n (map zero_based arcs) ig_new); auto; [apply N.le_0_l|].
  intros e He. apply in_map_iff in He as (e' & <- & He). pose proof (dimacs_arcs_bound _ _ _ _ K3 e' He). unfold zero_based; simpl. lia.
Qed.
Lemma dimacs_arcs_from c n ss arcs : dimacs_arcs c n ss arcs -> forall e, In e arcs ->
  exists l, In l ss /\ arc_line c l (e_from e) (e_to e) (e_weight e).
Proof.
  induction 1 as [|s ss arcs Hc H IH|s ss f t w arcs Ha Hf Ht H IH]; intros e He; [destruct He| |].
  - destruct (IH e He) as (l & H1 & H2). exists l. simpl; auto.
  - destruct He as [<-|He]; [exists s; simpl; auto|]. destruct (IH e He) as (l & H1 & H2). exists l. simpl; auto.
Qed.
Lemma dimacs_arcs_to c n ss arcs : dimacs_arcs c n ss arcs -> forall l f t w, In l ss -> arc_line c l f t w ->
  In (mkEdge f t w) arcs.
Proof.
  induction 1 as [|s ss arcs Hc H IH|s ss f0 t0 w0 arcs Ha Hf Ht H IH]; intros l f t w Hl HA; [destruct Hl| |].
  - destruct Hl as [->|Hl]; [exfalso; eapply comment_not_arc_line; eauto|eauto].
  - destruct Hl as [->|Hl]; [|right; eauto]. destruct (arc_line_fun _ _ _ _ _ _ _ _ Ha HA) as (-> & -> & ->). left; auto.
Qed.
Lemma accepted_adds es e : In e (accepted (add_ops es ++ [OpFreeze])) <-> In e es /\ acceptable e = true.
Proof.
  unfold accepted. rewrite filter_In. rewrite flat_map_app. simpl. rewrite app_nil_r.
  assert (flat_map requested (add_ops es) = es) as ->; [|tauto].
  induction es as [|[f t w] es IH]; simpl; auto. f_equal. auto.
Qed.
Lemma C25_exact_proof : forall c b g ss s n m,
  from_dimacs_file c (contents b) = Ok g -> file_lines b ss -> In s ss -> problem_line c s n m -> 1 <= n ->
  (ig_num_nodes g = n <->
   exists l f t w, In l ss /\ arc_line c l f t w /\ f <> t /\ 1 <= w /\ (f = n \/ t = n)).
Proof.
  intros c b g ss s n m HR HL Hs Hp Hn1. pose proof (C25_proof c b g ss s n m HR HL Hs Hp) as Hle.
  apply from_dimacs_spec in HR as (s1 & arcs & H1 & HT & HG).
  rewrite (file_lines_fun _ _ _ H1 HL) in HT.
  destruct HT as [(pre & p & post & n' & m' & -> & K1 & K2 & K3 & K4)|(K1 & ->)].
  2: { exfalso. eapply comment_not_problem_line; eauto. }
  assert (n' = n) as ->.
  { apply in_app_or in Hs as [Hs|[<-|Hs]].
    - exfalso. eapply comment_not_problem_line; eauto.
    - apply (problem_line_fun _ _ _ _ _ _ K2 Hp).
    - exfalso. destruct (proj2 (dimacs_arcs_lines _ _ _ _ K3) _ Hs) as [Hc|(f & t & w & Ha & _)];
        [eapply comment_not_problem_line|eapply arc_not_problem_line]; eauto. }
  assert (n <= umax c) as Hn by (destruct K2 as (r & a & d & _ & _ & (Hn & _) & _); auto).
  pose proof (dimacs_arcs_bound _ _ _ _ K3) as HB.
  unfold graph_of in HG. fold (add_ops (map zero_based arcs)) in HG.
  destruct (run_inv _ _ _ HG) as [_ HN]. destruct HN as [N1 N2].
  { right. intros e He. apply accepted_adds in He as [He _]. apply in_map_iff in He as (e' & <- & He).
    specialize (HB _ He). unfold zero_based; simpl. lia. }
  split.
  - intros HE. destruct N2 as [N2|(e & He & N2)]; [lia|].
    apply accepted_adds in He as [He Hacc]. apply in_map_iff in He as (e' & <- & He).
    destruct (dimacs_arcs_from _ _ _ _ K3 _ He) as (l & Hl & HA). specialize (HB _ He).
    apply acceptable_spec in Hacc. unfold zero_based in *; simpl in *.
    exists l, (e_from e'), (e_to e'), (e_weight e'). split; [apply in_or_app; simpl; auto|]. split; auto.
    split; [intros HX; rewrite HX in Hacc; tauto|]. split; [tauto|]. lia.
  - intros (l & f & t & w & Hl & HA & Hne & Hw & Hft).
    assert (In (mkEdge f t w) arcs) as HI.
    { apply in_app_or in Hl as [Hl|[<-|Hl]].
      - exfalso. eapply comment_not_arc_line; eauto.
      - exfalso. eapply arc_not_problem_line; eauto.
      - eapply dimacs_arcs_to; eauto. }
    specialize (HB _ HI). simpl in HB.
    destruct (N1 (zero_based (mkEdge f t w))) as [G1 G2].
    { apply accepted_adds. split; [apply in_map; auto|]. apply acceptable_spec. unfold zero_based; simpl. lia. }
    unfold zero_based in *; simpl in *. lia.
Qed.
Lemma C25_refuted_proof : exists b g ss s n m,
  from_dimacs_file (mkCfg 18446744073709551615 true) (contents b) = Ok g /\ file_lines b ss /\ In s ss /\ problem_line (mkCfg 18446744073709551615 true) s n m /\
  ig_num_nodes g <> n.
Proof.
  set (c := mkCfg 18446744073709551615 true).
  exists (unlines [problem_body 5 1; arc_body 1 2 3]), (mkInputGraph [mkEdge 0 1 3] 2 true), [problem_body 5 1; arc_body 1 2 3], (problem_body 5 1), 5, 1.
  split; [vm_compute; reflexivity|]. split; [repeat constructor|]. split; [simpl; auto|].
  split; [apply problem_body_line; discriminate|discriminate].
Qed.
Lemma C26_prefix_proof : forall c ops g dv old,
  (debug_build c = true \/ forall e, In e (accepted ops) -> e_from e < umax c /\ e_to e < umax c) ->
  frozen_graph c ops g ->
  (let '(file, r) := to_file dv old g in
   (r = Ok IoOk \/ r = Ok IoErr) /\
   (dv_create_ok dv = false -> file = old /\ r = Ok IoErr) /\
   (dv_create_ok dv = true -> exists b q, file = Some b /\ plain_file (ig_edges g) = b ++ q /\
      (r = Ok IoOk -> lenN q <= 8192) /\ (reliable dv -> q = [] /\ r = Ok IoOk))) /\
  (let '(file, r) := to_dimacs_file c dv old g in
   (r = Ok IoOk \/ r = Ok IoErr) /\
   (dv_create_ok dv = false -> file = old /\ r = Ok IoErr) /\
   (dv_create_ok dv = true -> exists b q, file = Some b /\ dimacs_file (ig_num_nodes g) (ig_edges g) = b ++ q /\
      (r = Ok IoOk -> lenN q <= 8192) /\ (reliable dv -> q = [] /\ r = Ok IoOk))).
Proof.
  intros c ops g dv old Hids HF. pose proof HF as (_ & _ & Hfr).
  assert (file_ok c g) as Hg by (eapply frozen_file_ok; eauto).
  assert (forall (b q x : list N), x = b ++ q -> x = b -> q = []) as HQ.
  { intros b q x -> E. assert (List.length (b ++ q) = List.length b) as HL by congruence. rewrite app_length in HL. destruct q; auto. simpl in HL. lia. }
  split.
  - destruct (to_file dv old g) as [file r] eqn:E. destruct (to_file_spec dv old g file r Hfr E) as (H1 & H2 & H3 & H4).
    split; auto. split; auto. intros Hc. destruct (H3 Hc) as (b & q & -> & Ebq & Hq). exists b, q. split; auto. split; auto. split; auto.
    intros HR. destruct (H4 HR) as [Eb ->]. split; auto. injection Eb as Eb. eapply HQ; eauto.
  - destruct (to_dimacs_file c dv old g) as [file r] eqn:E. destruct (to_dimacs_spec c dv old g file r Hg Hfr E) as (H1 & H2 & H3 & H4).
    split; auto. split; auto. intros Hc. destruct (H3 Hc) as (b & q & -> & Ebq & Hq). exists b, q. split; auto. split; auto. split; auto.
    intros HR. destruct (H4 HR) as [Eb ->]. split; auto. injection Eb as Eb. eapply HQ; eauto.
Qed.
Lemma C26_plain_proof : forall c ops g p q g',
  (debug_build c = true \/ forall e, In e (accepted ops) -> e_from e < umax c /\ e_to e < umax c) ->
  frozen_graph c ops g -> plain_file (ig_edges g) = p ++ q -> from_file c (contents p) = Ok g' ->
  exists es1 es2,
    (ig_edges g = es1 ++ es2 /\ graph_of c es1 = Ok g') \/
    (exists e w', ig_edges g = es1 ++ e :: es2 /\ 1 <= w' <= e_weight e /\
       graph_of c (es1 ++ [mkEdge (e_from e) (e_to e) w']) = Ok g').
Proof. intros c ops g p q g' Hids HF. apply plain_truncated. eapply frozen_file_ok; eauto. Qed.
Lemma C26_dimacs_proof : forall c ops g p q g',
  (debug_build c = true \/ forall e, In e (accepted ops) -> e_from e < umax c /\ e_to e < umax c) ->
  frozen_graph c ops g -> dimacs_file (ig_num_nodes g) (ig_edges g) = p ++ q ->
  from_dimacs_file c (contents p) = Ok g' ->
  p = [] \/ g' = g \/
  exists es1 e w', ig_edges g = es1 ++ [e] /\ 1 <= w' < e_weight e /\
    graph_of c (es1 ++ [mkEdge (e_from e) (e_to e) w']) = Ok g'.
Proof. intros c ops g p q g' Hids HF. apply dimacs_truncated. eapply frozen_file_ok; eauto. Qed.
Lemma C26_truncation_proof : let c := mkCfg 18446744073709551615 true in
  (exists ops g p q g', frozen_graph c ops g /\ plain_file (ig_edges g) = p ++ q /\
     from_file c (contents p) = Ok g' /\ g' <> g) /\
  (exists ops g p q g', frozen_graph c ops g /\ p <> [] /\ dimacs_file (ig_num_nodes g) (ig_edges g) = p ++ q /\
     from_dimacs_file c (contents p) = Ok g' /\ g' <> g).
Proof.
  cbv zeta. set (c := mkCfg 18446744073709551615 true).
  assert (frozen_graph c [OpAddEdge 0 1 12; OpFreeze] (mkInputGraph [mkEdge 0 1 12] 2 true)) as HF.
  { split; [|split; vm_compute; reflexivity]. intros o Ho.
    repeat (destruct Ho as [<-|Ho]; [cbn; repeat split; discriminate|]). destruct Ho. }
  split.
  - exists [OpAddEdge 0 1 12; OpFreeze], (mkInputGraph [mkEdge 0 1 12] 2 true), (str "a 0 1 1"), (str "2" ++ [10]), (mkInputGraph [mkEdge 0 1 1] 2 true).
    split; auto. split; [vm_compute; reflexivity|]. split; [vm_compute; reflexivity|]. discriminate.
  - exists [OpAddEdge 0 1 12; OpFreeze], (mkInputGraph [mkEdge 0 1 12] 2 true), (str "p sp 2 1" ++ 10 :: str "a 1 2 1"), (str "2" ++ [10]), (mkInputGraph [mkEdge 0 1 1] 2 true).
    split; auto. split; [discriminate|]. split; [vm_compute; reflexivity|]. split; [vm_compute; reflexivity|]. discriminate.
Qed.

Lemma C19_files_proof : forall c ops g dv old,
  ig_run c ig_new ops = Ok g -> frozen_after ops = false -> dv_create_ok dv = true ->
  to_file dv old g = (Some [], Panic (PExplicit msg_not_frozen)) /\
  to_dimacs_file c dv old g = (Some [], Panic (PExplicit msg_not_frozen)).
Proof.
  intros c ops g dv old HR HF Hd. destruct (run_inv _ _ _ HR) as [[H1 _ _ _ _] _]. rewrite HF in H1.
  unfold to_file, to_dimacs_file, ig_get_edges, ig_get_num_nodes, ig_check_frozen, with_writer. rewrite H1, Hd. cbn [bind].
  unfold bw_drop, bw_flush_buf. cbn [bw_sched bw_file bw_buf]. destruct (dv_sched dv); auto.
Qed.

(** *** Files for another platform *)
Definition fits (c : cfg) (g : InputGraph) : Prop :=
  ig_num_nodes g <= umax c /\ lenN (ig_edges g) <= umax c / 2 /\ forall e, In e (ig_edges g) -> e_weight e <= umax c.
Lemma file_ok_fits c c' g : file_ok c g -> fits c' g -> file_ok c' g.
Proof.
  intros [H1 H2 H3 H4 H5] (F1 & F2 & F3). constructor; auto. intros e He. specialize (H2 e He). specialize (F3 e He). tauto.
Qed.
Lemma C42_proof : forall c c' ops g,
  (debug_build c = true \/ forall e, In e (accepted ops) -> e_from e < umax c /\ e_to e < umax c) ->
  frozen_graph c ops g ->
  ig_num_nodes g <= umax c' -> lenN (ig_edges g) <= umax c' / 2 -> (forall e, In e (ig_edges g) -> e_weight e <= umax c') ->
  from_file c' (contents (plain_file (ig_edges g))) = Ok g /\
  from_dimacs_file c' (contents (dimacs_file (ig_num_nodes g) (ig_edges g))) = Ok g.
Proof.
  intros c c' ops g Hids HF F1 F2 F3. assert (file_ok c' g) as Hg.
  { eapply file_ok_fits; [eapply frozen_file_ok; eauto|]. repeat split; auto. }
  split; [apply read_plain_file|apply read_dimacs_file]; auto.
Qed.

Lemma arc_body_number c f t w f' t' w' : arc_line c (arc_body f t w) f' t' w' -> f <= umax c /\ t <= umax c /\ w <= umax c.
Proof.
  intros (r & a & b & d & E & HW & (Hf & Hf2) & (Ht & Ht2) & (Hw & Hw2)). apply app_inv_head in E. subst r.
  assert (words (dec f ++ 32 :: dec t ++ 32 :: dec w) [dec f; dec t; dec w]) as HW'.
  { apply words_space; [apply dec_nonempty|apply dec_not_ws|]. apply words_space; [apply dec_nonempty|apply dec_not_ws|].
    apply words_one; [apply dec_nonempty|apply dec_not_ws]. }
  apply words_iff in HW, HW'. rewrite HW' in HW. injection HW as <- <- <-.
  assert (forall x v, v <= umax c -> (exists ds, denotes ds v /\ (dec x = ds \/ dec x = 43 :: ds)) -> x <= umax c) as HX.
  { intros x v Hv Hd. assert (v = x); [|subst; auto]. rewrite <- (proj1 (proj2 (proj2 (dec_spec x)))).
    apply (number_digits c); [apply dec_spec|]. split; auto. }
  split; [apply (HX f f')|split; [apply (HX t t')|apply (HX w w')]]; auto.
Qed.
Lemma C42_overflow_proof : forall c' g e,
  In e (ig_edges g) -> (umax c' < e_from e \/ umax c' < e_to e \/ umax c' < e_weight e) ->
  (exists r, from_file c' (contents (plain_file (ig_edges g))) = Panic r) /\
  (exists r, from_dimacs_file c' (contents (dimacs_file (ig_num_nodes g) (ig_edges g))) = Panic r).
Proof.
  intros c' g e He Hbig. split.
  - destruct (nd_cases _ (nd_from_file c' (contents (plain_file (ig_edges g))))) as [(g' & HR)|]; auto. exfalso.
    apply from_file_spec in HR as (ss & arcs & HL & HT & _).
    assert (ss = map arc_of (ig_edges g)) as ->.
    { eapply file_lines_plain; [| |exact HL].
      - rewrite plain_file_lines, <- (app_nil_r (unlines _)), lines_unlines; [apply app_nil_r|]. intros l. apply arc_of_plain.
      - intros l. apply arc_of_plain. }
    apply in_split in He as (e1 & e2 & E). rewrite E, map_app in HT. apply plain_text_app in HT as (a1 & a2 & _ & _ & HT). cbn [map] in HT.
    inversion HT as [|? ? ? ? ? ? Ha|? ? ? Hno]; subst.
    + apply arc_body_number in Ha. lia.
    + apply (Hno (skipn 2 (arc_of e))). reflexivity.
  - destruct (nd_cases _ (nd_from_dimacs c' (contents (dimacs_file (ig_num_nodes g) (ig_edges g))))) as [(g' & HR)|]; auto. exfalso.
    apply from_dimacs_spec in HR as (ss & arcs & HL & HT & _).
    assert (forall l, In l (problem_body (ig_num_nodes g) (lenN (ig_edges g)) :: map arc_of (map one_based (ig_edges g))) -> plain_line l) as HP.
    { intros l [<-|Hl]; [intros x; apply problem_body_plain|]. eapply arc_of_plain; eauto. }
    assert (ss = problem_body (ig_num_nodes g) (lenN (ig_edges g)) :: map arc_of (map one_based (ig_edges g))) as ->.
    { eapply file_lines_plain; [|exact HP|exact HL]. rewrite dimacs_file_lines, <- (app_nil_r (unlines _)), lines_unlines; auto. apply app_nil_r. }
    assert (In (arc_of (one_based e)) (problem_body (ig_num_nodes g) (lenN (ig_edges g)) :: map arc_of (map one_based (ig_edges g)))) as Hin.
    { right. apply in_map, in_map. auto. }
    destruct (proj1 (dimacs_text_lines _ _ _ HT) _ Hin) as [[Hc|(r & Hc)]|[(n & m & Hp)|(f & t & w & Ha)]]; try discriminate.
    + destruct (problem_line_shape _ _ _ _ Hp) as (r & Hr). discriminate.
    + apply arc_body_number in Ha. unfold one_based in Ha. cbn [e_from e_to e_weight] in Ha. lia.
Qed.

(** the arcs of a DIMACS text are determined by it *)
Lemma first_problem c pre : forall pre' p p' post post' n m n' m',
  pre ++ p :: post = pre' ++ p' :: post' -> (forall s, In s pre -> comment_line s) -> (forall s, In s pre' -> comment_line s) ->
  problem_line c p n m -> problem_line c p' n' m' -> p = p' /\ post = post'.
Proof.
  induction pre as [|s pre IH]; intros pre' p p' post post' n m n' m' E H1 H2 P1 P2; destruct pre' as [|s' pre']; simpl in E.
  - injection E as -> ->. auto.
  - injection E as -> E. exfalso. eapply comment_not_problem_line; [apply H2; left; reflexivity|exact P1].
  - injection E as -> E. exfalso. eapply comment_not_problem_line; [apply H1; left; reflexivity|exact P2].
  - injection E as -> E. eapply IH; eauto; intros x Hx; [apply H1|apply H2]; right; exact Hx.
Qed.
Lemma dimacs_text_fun c ss a b : dimacs_text c ss a -> dimacs_text c ss b -> a = b.
Proof.
  intros [(pre & p & post & n & m & -> & H1 & P1 & A1 & _)|[H1 ->]] [(pre' & p' & post' & n' & m' & E & H2 & P2 & A2 & _)|[H2 ->]]; auto.
  - destruct (first_problem c pre pre' p p' post post' n m n' m' E H1 H2 P1 P2) as [-> ->].
    destruct (problem_line_fun _ _ _ _ _ _ P1 P2) as [-> ->]. eapply dimacs_arcs_fun; eauto.
  - exfalso. eapply comment_not_problem_line; [|exact P1]. apply H2. apply in_or_app. right. left. reflexivity.
  - exfalso. subst ss. eapply comment_not_problem_line; [|exact P2]. apply H1. apply in_or_app. right. left. reflexivity.
Qed.
