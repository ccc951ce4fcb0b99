(** * PrepFacts: specification of the operations of the preparation graph *)
From Verif Require Export PathFacts PrepGraph.

Definition outs (g : PrepGraph) (u : N) : list Arc :=
  match getN (pg_out g) u with Some l => l | None => [] end.
Definition ins (g : PrepGraph) (u : N) : list Arc :=
  match getN (pg_in g) u with Some l => l | None => [] end.

(** well-formed adjacency lists with weights of at least [lo] *)
Record pg_wfl {lo : N} (n : N) (g : PrepGraph) : Prop := mk_pg_wf {
  wf_n : pg_num_nodes g = n;
  wf_lo : lenN (pg_out g) = n;
  wf_li : lenN (pg_in g) = n;
  wf_sym : forall u v w c, In (mkArc v w c) (outs g u) <-> In (mkArc u w c) (ins g v);
  wf_ndo : forall u, NoDup (map a_adj (outs g u));
  wf_ndi : forall u, NoDup (map a_adj (ins g u));
  wf_arc : forall u v w c, In (mkArc v w c) (outs g u) -> v < n /\ u <> v /\ lo <= w
}.
Notation pg_wf := (@pg_wfl 1).

(** all weights are at most [M] *)
Definition pg_bnd (M : N) (g : PrepGraph) : Prop :=
  forall u v w c, In (mkArc v w c) (outs g u) -> w <= M.

(** the edge relation of the graph *)
Definition arel (g : PrepGraph) (u v w : N) : Prop := exists c, In (mkArc v w c) (outs g u).

Lemma outs_get g u : u < lenN (pg_out g) -> getN (pg_out g) u = Some (outs g u).
Proof. intros H; unfold outs. destruct (getN_lt _ _ H) as [x ->]; auto. Qed.
Lemma ins_get g u : u < lenN (pg_in g) -> getN (pg_in g) u = Some (ins g u).
Proof. intros H; unfold ins. destruct (getN_lt _ _ H) as [x ->]; auto. Qed.
Lemma outs_idx {lo} n g u : @pg_wfl lo n g -> u < n -> idx (pg_out g) u = Ok (outs g u).
Proof. intros W H. apply idx_Some, outs_get. rewrite (wf_lo _ _ W); auto. Qed.
Lemma ins_idx {lo} n g u : @pg_wfl lo n g -> u < n -> idx (pg_in g) u = Ok (ins g u).
Proof. intros W H. apply idx_Some, ins_get. rewrite (wf_li _ _ W); auto. Qed.
Lemma outs_src {lo} n g u v w c : @pg_wfl lo n g -> In (mkArc v w c) (outs g u) -> u < n.
Proof.
  intros W H. unfold outs in H. destruct (getN (pg_out g) u) eqn:E; [|destruct H].
  apply getN_Some_lt in E. rewrite (wf_lo _ _ W) in E; auto.
Qed.

Lemma NoDup_adj_inj l a b :
  NoDup (map a_adj l) -> In a l -> In b l -> a_adj a = a_adj b -> a = b.
Proof.
  induction l as [|x t IH]; simpl; intros Hn Ha Hb E; [tauto|].
  inversion Hn as [|? ? Hx Ht]; subst.
  destruct Ha as [->|Ha], Hb as [->|Hb]; auto.
  - exfalso; apply Hx. rewrite E. apply in_map; auto.
  - exfalso; apply Hx. rewrite <- E. apply in_map; auto.
Qed.

Lemma arc_eta a : a = mkArc (a_adj a) (a_weight a) (a_center a).
Proof. destruct a; reflexivity. Qed.

(** ** find_arc *)
Lemma find_arc_None adj l i : find_arc adj l i = None -> forall a, In a l -> a_adj a <> adj.
Proof.
  revert i; induction l as [|x t IH]; simpl; intros i H a Ha; [tauto|].
  destruct (N.eqb_spec (a_adj x) adj); [discriminate|].
  destruct Ha as [<-|Ha]; eauto.
Qed.
Lemma find_arc_Some adj l i k a : find_arc adj l i = Some (k, a) ->
  i <= k /\ getN l (k - i) = Some a /\ a_adj a = adj.
Proof.
  revert i; induction l as [|x t IH]; simpl; intros i H; [discriminate|].
  destruct (N.eqb_spec (a_adj x) adj).
  - injection H as -> ->. repeat split; auto; try lia. rewrite N.sub_diag. reflexivity.
  - apply IH in H as (H1 & H2 & H3). repeat split; auto; try lia.
    destruct (N.eqb_spec (k - i) 0); [lia|].
    replace (N.pred (k - i)) with (k - (i + 1)) by lia. auto.
Qed.

Lemma In_set_adj l k a y x : NoDup (map a_adj l) -> getN l k = Some a -> a_adj y = a_adj a ->
  In x (setN l k y) <-> x = y \/ (In x l /\ a_adj x <> a_adj a).
Proof.
  intros Hn Hk Hy. destruct (setN_Permutation l k a y Hk) as (l1 & l2 & -> & ->).
  rewrite map_app in Hn. simpl in Hn. pose proof (NoDup_remove_2 _ _ _ Hn) as Hr.
  rewrite in_app_iff in Hr. rewrite !in_app_iff; simpl. split.
  - intros [H|[H|H]]; auto; right; split; auto; intros E; apply Hr; rewrite <- E;
      [left|right]; apply in_map; auto.
  - intros [->|[[H|[->|H]] Hneq]]; auto. congruence.
Qed.
Lemma map_set_adj l k a y : getN l k = Some a -> a_adj y = a_adj a ->
  map a_adj (setN l k y) = map a_adj l.
Proof.
  intros Hk Hy. destruct (setN_Permutation l k a y Hk) as (l1 & l2 & -> & ->).
  rewrite !map_app; simpl; congruence.
Qed.

Lemma outs_set g out' in' n u l v :
  u < lenN (pg_out g) -> out' = setN (pg_out g) u l ->
  outs (mkPrepGraph out' in' n) v = if v =? u then l else outs g v.
Proof.
  intros Hu ->. unfold outs; simpl. rewrite getN_setN.
  rewrite (N.eqb_sym u v). destruct (N.eqb_spec v u); simpl; auto.
  destruct (N.ltb_spec u (lenN (pg_out g))); [auto|lia].
Qed.
Lemma ins_set g out' in' n u l v :
  u < lenN (pg_in g) -> in' = setN (pg_in g) u l ->
  ins (mkPrepGraph out' in' n) v = if v =? u then l else ins g v.
Proof.
  intros Hu ->. unfold ins; simpl. rewrite getN_setN.
  rewrite (N.eqb_sym u v). destruct (N.eqb_spec v u); simpl; auto.
  destruct (N.ltb_spec u (lenN (pg_in g))); [auto|lia].
Qed.

(** ** add_edge_or_shortcut *)
Lemma add_edge_spec {lo} n g from to w c :
  @pg_wfl lo n g -> from < n -> to < n -> from <> to -> lo <= w ->
  (forall a, In a (outs g from) -> a_adj a <> to) ->
  exists g', pg_add_edge_or_shortcut g from to w c = Ok g' /\ @pg_wfl lo n g' /\
    (forall u, outs g' u = if u =? from then outs g from ++ [mkArc to w c] else outs g u) /\
    (forall v, ins g' v = if v =? to then ins g to ++ [mkArc from w c] else ins g v).
Proof.
  intros W Hf Ht Hne Hw Hnew.
  assert (forall a, In a (ins g to) -> a_adj a <> from) as Hnew'.
  { intros a Ha E. destruct a as [u w' c']; simpl in E; subst u.
    apply (wf_sym _ _ W) in Ha. apply Hnew in Ha. apply Ha; reflexivity. }
  pose proof (wf_lo _ _ W) as Hlo. pose proof (wf_li _ _ W) as Hli.
  eexists. split.
  { unfold pg_add_edge_or_shortcut, pg_assert_valid_node_id.
    rewrite (wf_n _ _ W). destruct (N.leb_spec n to); [lia|]. simpl.
    rewrite (outs_idx _ _ _ W Hf). simpl. rewrite upd_eq by (rewrite Hlo; auto). simpl.
    rewrite (ins_idx _ _ _ W Ht). simpl. rewrite upd_eq by (rewrite Hli; auto). simpl.
    reflexivity. }
  set (g' := mkPrepGraph _ _ _).
  assert (forall u, outs g' u = if u =? from then outs g from ++ [mkArc to w c] else outs g u) as Ho.
  { intros u. unfold g'. eapply outs_set; [rewrite Hlo; auto|reflexivity]. }
  assert (forall v, ins g' v = if v =? to then ins g to ++ [mkArc from w c] else ins g v) as Hi.
  { intros v. unfold g'. eapply ins_set; [rewrite Hli; auto|reflexivity]. }
  split; [|split; auto]. constructor.
  - reflexivity.
  - unfold g'; simpl. rewrite lenN_setN; auto.
  - unfold g'; simpl. rewrite lenN_setN; auto.
  - intros u v w' c'. rewrite Ho, Hi.
    destruct (N.eqb_spec u from) as [->|Hu]; destruct (N.eqb_spec v to) as [->|Hv];
      rewrite ?in_app_iff; simpl.
    + rewrite (wf_sym _ _ W). intuition congruence.
    + rewrite (wf_sym _ _ W). intuition congruence.
    + rewrite (wf_sym _ _ W). intuition congruence.
    + apply (wf_sym _ _ W).
  - intros u. rewrite Ho. destruct (N.eqb_spec u from) as [->|Hu]; [|apply (wf_ndo _ _ W)].
    rewrite map_app; simpl. eapply Permutation_NoDup; [apply Permutation_cons_append|].
    constructor; [|apply (wf_ndo _ _ W)]. rewrite in_map_iff. intros (a & E & Ha).
    apply Hnew in Ha; auto.
  - intros u. rewrite Hi. destruct (N.eqb_spec u to) as [->|Hu]; [|apply (wf_ndi _ _ W)].
    rewrite map_app; simpl. eapply Permutation_NoDup; [apply Permutation_cons_append|].
    constructor; [|apply (wf_ndi _ _ W)]. rewrite in_map_iff. intros (a & E & Ha).
    apply Hnew' in Ha; auto.
  - intros u v w' c'. rewrite Ho. destruct (N.eqb_spec u from) as [->|Hu].
    + rewrite in_app_iff; simpl. intros [H|[[= <- <- <-]|[]]]; auto.
      apply (wf_arc _ _ W) in H; auto.
    + apply (wf_arc _ _ W).
Qed.

(** ** add_or_reduce_edge *)
Lemma add_or_reduce_spec {lo} n g from to w c :
  @pg_wfl lo n g -> from < n -> to < n -> from <> to -> lo <= w ->
  exists g', pg_add_or_reduce_edge g from to w c = Ok g' /\ @pg_wfl lo n g' /\
    (forall u, u <> from -> outs g' u = outs g u) /\
    (forall v, v <> to -> ins g' v = ins g v) /\
    (forall u v w' c', In (mkArc v w' c') (outs g' u) ->
        In (mkArc v w' c') (outs g u) \/ (u = from /\ v = to /\ w' = w /\ c' = c)) /\
    (forall u v w1 c1, In (mkArc v w1 c1) (outs g u) ->
        exists w2 c2, In (mkArc v w2 c2) (outs g' u) /\ w2 <= w1) /\
    (exists w2 c2, In (mkArc to w2 c2) (outs g' from) /\ w2 <= w).
Proof.
  intros W Hf Ht Hne Hw.
  pose proof (wf_lo _ _ W) as Hlo. pose proof (wf_li _ _ W) as Hli.
  unfold pg_add_or_reduce_edge, pg_reduce_edge. rewrite (outs_idx _ _ _ W Hf). simpl.
  destruct (find_arc to (outs g from) 0) as [[k a]|] eqn:Ef.
  - apply find_arc_Some in Ef as (_ & Hk & Ha). rewrite N.sub_0_r in Hk.
    pose proof (getN_In _ _ _ Hk) as Hin. destruct a as [a0 wa ca]; simpl in *; subst a0.
    destruct (N.leb_spec wa w) as [Hle|Hgt]; simpl.
    + exists g. do 4 (split; auto). repeat split; auto.
      * intros; eexists; eexists; split; eauto; lia.
      * exists wa, ca; split; auto.
    + rewrite (ins_idx _ _ _ W Ht). simpl.
      assert (In (mkArc from wa ca) (ins g to)) as Hin' by (apply (wf_sym _ _ W); auto).
      assert (existsb (fun e => a_adj e =? from) (ins g to) = true) as ->.
      { apply existsb_exists. eexists; split; eauto. simpl. apply N.eqb_refl. }
      eexists. split; [reflexivity|]. set (g' := mkPrepGraph _ _ _).
      set (insf := fun e => if a_adj e =? from then mkArc (a_adj e) w c else e).
      assert (forall u, outs g' u = if u =? from then setN (outs g from) k (mkArc to w c)
                                    else outs g u) as Ho.
      { intros u. unfold g'. eapply outs_set; [rewrite Hlo; auto|reflexivity]. }
      assert (forall v, ins g' v = if v =? to then map insf (ins g to) else ins g v) as Hi.
      { intros v. unfold g'. eapply ins_set; [rewrite Hli; auto|reflexivity]. }
      assert (forall x, In x (setN (outs g from) k (mkArc to w c)) <->
                x = mkArc to w c \/ (In x (outs g from) /\ a_adj x <> to)) as HoI.
      { intros x. apply (In_set_adj _ _ _ _ x (wf_ndo _ _ W from) Hk). reflexivity. }
      assert (forall x, In x (map insf (ins g to)) <->
                x = mkArc from w c \/ (In x (ins g to) /\ a_adj x <> from)) as HiI.
      { intros x. rewrite in_map_iff. split.
        - intros (y & <- & Hy). unfold insf. destruct (N.eqb_spec (a_adj y) from) as [E|E];
            [left; congruence|right; auto].
        - intros [->|[Hx Hnx]].
          + exists (mkArc from wa ca). unfold insf; simpl. rewrite N.eqb_refl. auto.
          + exists x. unfold insf. destruct (N.eqb_spec (a_adj x) from); [congruence|auto]. }
      assert (@pg_wfl lo n g') as W'.
      { constructor.
        - unfold g'; simpl. apply (wf_n _ _ W).
        - unfold g'; simpl. rewrite lenN_setN; auto.
        - unfold g'; simpl. rewrite lenN_setN; auto.
        - intros u v w' c'. rewrite Ho, Hi.
          destruct (N.eqb_spec u from) as [->|Hu]; destruct (N.eqb_spec v to) as [->|Hv];
            rewrite ?HoI, ?HiI; simpl; rewrite <- ?(wf_sym _ _ W); intuition congruence.
        - intros u. rewrite Ho. destruct (N.eqb_spec u from); [|apply (wf_ndo _ _ W)].
          erewrite map_set_adj; [apply (wf_ndo _ _ W)|eauto|reflexivity].
        - intros u. rewrite Hi. destruct (N.eqb_spec u to); [|apply (wf_ndi _ _ W)].
          rewrite map_map. erewrite map_ext; [apply (wf_ndi _ _ W)|].
          intros e0. unfold insf. destruct (a_adj e0 =? from); reflexivity.
        - intros u v w' c'. rewrite Ho. destruct (N.eqb_spec u from) as [->|Hu].
          + rewrite HoI. intros [[= -> -> ->]|[H _]]; auto. apply (wf_arc _ _ W) in H; auto.
          + apply (wf_arc _ _ W). }
      split; auto. split; [|split; [|split; [|split]]].
      * intros u Hu. rewrite Ho. destruct (N.eqb_spec u from); [congruence|auto].
      * intros u Hu. rewrite Hi. destruct (N.eqb_spec u to); [congruence|auto].
      * intros u v w' c'. rewrite Ho. destruct (N.eqb_spec u from) as [->|Hu]; auto.
        rewrite HoI. intros [[= -> -> ->]|[H _]]; auto.
      * intros u v w1 c1 H1. rewrite Ho. destruct (N.eqb_spec u from) as [->|Hu].
        -- destruct (N.eq_dec v to) as [->|Hv].
           ++ exists w, c. rewrite HoI. split; auto.
              assert (mkArc to w1 c1 = mkArc to wa ca) as [= -> ->].
              { apply (NoDup_adj_inj (outs g from)); auto. apply (wf_ndo _ _ W). }
              lia.
           ++ exists w1, c1. rewrite HoI. split; [right; auto|lia].
        -- exists w1, c1; split; auto; lia.
      * exists w, c. rewrite Ho, N.eqb_refl, HoI. split; auto. lia.
  - pose proof (find_arc_None _ _ _ Ef) as Hnew. simpl.
    destruct (add_edge_spec n g from to w c W Hf Ht Hne Hw Hnew) as (g' & -> & W' & Ho & Hi).
    exists g'. split; auto. split; auto. split; [|split; [|split; [|split]]].
    + intros u Hu. rewrite Ho. destruct (N.eqb_spec u from); [congruence|auto].
    + intros u Hu. rewrite Hi. destruct (N.eqb_spec u to); [congruence|auto].
    + intros u v w' c'. rewrite Ho. destruct (N.eqb_spec u from) as [->|Hu]; auto.
      rewrite in_app_iff; simpl. intros [H|[[= <- <- <-]|[]]]; auto.
    + intros u v w1 c1 H1. exists w1, c1. split; [|lia]. rewrite Ho.
      destruct (N.eqb_spec u from) as [->|Hu]; auto. apply in_app_iff; auto.
    + exists w, c. rewrite Ho, N.eqb_refl, in_app_iff; simpl. split; auto. lia.
Qed.

(** ** disconnect *)
Definition without (x : N) (l : list Arc) : list Arc :=
  filter (fun e => negb (a_adj e =? x)) l.

Lemma without_In x l a : In a (without x l) <-> In a l /\ a_adj a <> x.
Proof.
  unfold without. rewrite filter_In. destruct (N.eqb_spec (a_adj a) x); simpl; intuition congruence.
Qed.
Lemma without_id x l : (forall a, In a l -> a_adj a <> x) -> without x l = l.
Proof.
  induction l as [|a t IH]; intros H; simpl; auto.
  destruct (N.eqb_spec (a_adj a) x) as [E|E]; simpl.
  - exfalso; eapply H; [left; reflexivity|auto].
  - f_equal; apply IH; intros; apply H; right; auto.
Qed.
Lemma without_len x l a : NoDup (map a_adj l) -> In a l -> a_adj a = x ->
  lenN (without x l) + 1 = lenN l.
Proof.
  induction l as [|b t IH]; intros Hn Ha E; [destruct Ha|].
  simpl in Hn. inversion Hn as [|? ? Hb Ht]; subst. simpl.
  destruct (N.eqb_spec (a_adj b) (a_adj a)) as [E|E]; simpl.
  - rewrite lenN_cons. fold (without (a_adj a) t). rewrite without_id; auto.
    intros a' Ha' E'. apply Hb. rewrite E, <- E'. apply in_map; auto.
  - rewrite !lenN_cons. fold (without (a_adj a) t). clear Hn. destruct Ha as [->|Ha]; [congruence|].
    pose proof (IH Ht Ha eq_refl). lia.
Qed.
Lemma without_NoDup x l : NoDup (map a_adj l) -> NoDup (map a_adj (without x l)).
Proof.
  induction l as [|b t IH]; simpl; intros Hn; auto.
  inversion Hn as [|? ? Hb Ht]; subst. destruct (N.eqb_spec (a_adj b) x); simpl; auto.
  constructor; auto. rewrite in_map_iff. intros (a & E & Ha). apply without_In in Ha as [Ha _].
  apply Hb. rewrite <- E. apply in_map; auto.
Qed.

Lemma remove_adj_ok l x a : NoDup (map a_adj l) -> In a l -> a_adj a = x ->
  remove_edge_with_adj_node l x = Ok (without x l).
Proof.
  intros Hn Ha E. unfold remove_edge_with_adj_node. fold (without x l).
  pose proof (without_len x l a Hn Ha E) as Hl. unfold assert. rewrite Hl, N.eqb_refl. reflexivity.
Qed.

Lemma without_twice x l : without x (without x l) = without x l.
Proof. apply without_id. intros a Ha. apply without_In in Ha; tauto. Qed.

Lemma disconnect_spec {lo} n g x :
  @pg_wfl lo n g -> x < n ->
  exists g', pg_disconnect g x = Ok g' /\ @pg_wfl lo n g' /\
    (forall u, outs g' u = if u =? x then [] else without x (outs g u)) /\
    (forall u, ins g' u = if u =? x then [] else without x (ins g u)).
Proof.
  intros W Hx. pose proof (wf_lo _ _ W) as Hlo. pose proof (wf_li _ _ W) as Hli.
  unfold pg_disconnect. rewrite (outs_idx _ _ _ W Hx). simpl.
  (* first loop *)
  set (I1 := fun (k : N) (g1 : PrepGraph) =>
    pg_num_nodes g1 = n /\ pg_out g1 = pg_out g /\ lenN (pg_in g1) = n /\
    (forall u, ins g1 u = if existsb (fun j => match getN (outs g x) j with
                                               | Some a => a_adj a =? u | None => false end)
                               (rangeN 0 k)
                          then without x (ins g u) else ins g u)).
  assert (wp (fun _ => False)
    (foldM (fun g0 i => outs0 <- idx (pg_out g0) x ;; a <- idx outs0 i ;;
             pg_remove_in_edge g0 (a_adj a) x) (rangeN 0 (lenN (outs g x))) g)
    (I1 (lenN (outs g x)))) as H1.
  { apply wp_foldM_range; [lia| |].
    - unfold I1. rewrite rangeN_nil by lia. simpl. rewrite (wf_n _ _ W). auto.
    - intros i g1 Hi (Hn1 & Ho1 & Hl1 & Hi1). rewrite Ho1.
      rewrite (outs_idx _ _ _ W Hx). cbn [bind].
      destruct (getN_lt (outs g x) i) as [a Ha]; [lia|]. rewrite (idx_Some _ _ _ Ha). cbn [bind].
      pose proof (getN_In _ _ _ Ha) as Hin. destruct a as [v w c]; cbn [a_adj].
      pose proof (wf_arc _ _ W _ _ _ _ Hin) as (Hv & Hxv & _).
      unfold pg_remove_in_edge. rewrite (idx_Some _ _ _ (ins_get g1 v ltac:(lia))). cbn [bind].
      assert (ins g1 v = ins g v) as E1.
      { rewrite Hi1. destruct (existsb _ _) eqn:Ee; auto. exfalso.
        apply existsb_exists in Ee as (j & Hj & Hj2). apply rangeN_In in Hj.
        destruct (getN (outs g x) j) as [b|] eqn:Eb; [|discriminate].
        apply N.eqb_eq in Hj2.
        (* two positions with the same adjacent node *)
        pose proof (wf_ndo _ _ W x) as Hnd.
        assert (getN (map a_adj (outs g x)) j = Some v) as G1 by (rewrite getN_map, Eb; simpl; congruence).
        assert (getN (map a_adj (outs g x)) i = Some v) as G2 by (rewrite getN_map, Ha; simpl; congruence).
        rewrite getN_nth in G1, G2.
        assert (N.to_nat j = N.to_nat i) as E.
        { eapply NoDup_nth_error; eauto; [|congruence]. apply nth_error_Some; congruence. }
        lia. }
      rewrite E1.
      assert (In (mkArc x w c) (ins g v)) as Hin2 by (apply (wf_sym _ _ W); auto).
      rewrite (remove_adj_ok _ x _ (wf_ndi _ _ W v) Hin2 eq_refl). cbn [bind wp].
      unfold I1; cbn [pg_num_nodes pg_out pg_in]. repeat split; auto.
      { rewrite lenN_setN; auto. }
      intros u. erewrite ins_set; [|rewrite Hl1; eauto|reflexivity].
      rewrite rangeN_snoc by lia. rewrite existsb_app. simpl. rewrite Ha. simpl.
      rewrite orb_false_r. rewrite (N.eqb_sym v u). destruct (N.eqb_spec u v) as [->|Hu].
      + rewrite orb_true_r; auto.
      + rewrite orb_false_r; auto. }
  destruct (foldM _ _ g) as [g1| |] eqn:Ef1; cbn [wp] in H1; try tauto. clear Ef1.
  destruct H1 as (Hn1 & Ho1 & Hl1 & Hi1).
  assert (forall u, ins g1 u = without x (ins g u)) as Hi1'.
  { intros u. rewrite Hi1. destruct (existsb _ _) eqn:Ee; auto. symmetry. apply without_id.
    intros a Ha Ea. destruct a as [x' w c]; simpl in Ea; subst x'.
    apply (wf_sym _ _ W) in Ha. apply In_getN in Ha as (j & Hj & Hj2).
    assert (existsb (fun j => match getN (outs g x) j with
                              | Some a => a_adj a =? u | None => false end)
              (rangeN 0 (lenN (outs g x))) = true) as Ht; [|congruence].
    apply existsb_exists. exists j. rewrite rangeN_In, Hj2. split; [lia|]. apply N.eqb_refl. }
  clear Hi1 I1. cbn [bind].
  assert (ins g1 x = ins g x) as Eix.
  { rewrite Hi1'. apply without_id. intros a Ha Ea. destruct a as [u w c]; simpl in Ea; subst u.
    apply (wf_sym _ _ W) in Ha. apply (wf_arc _ _ W) in Ha as (_ & Hne & _); congruence. }
  rewrite (idx_Some _ _ _ (ins_get g1 x ltac:(lia))). cbn [bind].
  rewrite Eix.
  set (I2 := fun (k : N) (g2 : PrepGraph) =>
    pg_num_nodes g2 = n /\ pg_in g2 = pg_in g1 /\ lenN (pg_out g2) = n /\
    (forall u, outs g2 u = if existsb (fun j => match getN (ins g x) j with
                                               | Some a => a_adj a =? u | None => false end)
                               (rangeN 0 k)
                          then without x (outs g u) else outs g u)).
  assert (wp (fun _ => False)
    (foldM (fun g0 i => ins0 <- idx (pg_in g0) x ;; a <- idx ins0 i ;;
             pg_remove_out_edge g0 (a_adj a) x) (rangeN 0 (lenN (ins g x))) g1)
    (I2 (lenN (ins g x)))) as H2.
  { apply wp_foldM_range; [lia| |].
    - unfold I2. rewrite rangeN_nil by lia. simpl. repeat split; auto.
      + rewrite Ho1; auto.
      + intros u. unfold outs. rewrite Ho1; auto.
    - intros i g2 Hi (Hn2 & Hin2 & Hl2 & Ho2). rewrite Hin2.
      rewrite (idx_Some _ _ _ (ins_get g1 x ltac:(lia))). cbn [bind]. rewrite Eix.
      destruct (getN_lt (ins g x) i) as [a Ha]; [lia|]. rewrite (idx_Some _ _ _ Ha). cbn [bind].
      pose proof (getN_In _ _ _ Ha) as Hin. destruct a as [v w c]; cbn [a_adj].
      assert (In (mkArc x w c) (outs g v)) as Hin3 by (apply (wf_sym _ _ W); auto).
      pose proof (wf_arc _ _ W _ _ _ _ Hin3) as (_ & Hxv & _).
      pose proof (outs_src _ _ _ _ _ _ W Hin3) as Hv.
      unfold pg_remove_out_edge. rewrite (idx_Some _ _ _ (outs_get g2 v ltac:(lia))). cbn [bind].
      assert (outs g2 v = outs g v) as E1.
      { rewrite Ho2. destruct (existsb _ _) eqn:Ee; auto. exfalso.
        apply existsb_exists in Ee as (j & Hj & Hj2). apply rangeN_In in Hj.
        destruct (getN (ins g x) j) as [b|] eqn:Eb; [|discriminate].
        apply N.eqb_eq in Hj2.
        pose proof (wf_ndi _ _ W x) as Hnd.
        assert (getN (map a_adj (ins g x)) j = Some v) as G1 by (rewrite getN_map, Eb; simpl; congruence).
        assert (getN (map a_adj (ins g x)) i = Some v) as G2 by (rewrite getN_map, Ha; simpl; congruence).
        rewrite getN_nth in G1, G2.
        assert (N.to_nat j = N.to_nat i) as E.
        { eapply NoDup_nth_error; eauto; [|congruence]. apply nth_error_Some; congruence. }
        lia. }
      rewrite E1.
      rewrite (remove_adj_ok _ x _ (wf_ndo _ _ W v) Hin3 eq_refl). cbn [bind wp].
      unfold I2; cbn [pg_num_nodes pg_out pg_in]. repeat split; auto.
      { rewrite lenN_setN; auto. }
      intros u. erewrite outs_set; [|rewrite Hl2; eauto|reflexivity].
      rewrite rangeN_snoc by lia. rewrite existsb_app. simpl. rewrite Ha. simpl.
      rewrite orb_false_r. rewrite (N.eqb_sym v u). destruct (N.eqb_spec u v) as [->|Hu].
      + rewrite orb_true_r; auto.
      + rewrite orb_false_r; auto. }
  destruct (foldM _ _ g1) as [g2| |] eqn:Ef2; cbn [wp] in H2; try tauto. clear Ef2.
  destruct H2 as (Hn2 & Hin2 & Hl2 & Ho2).
  assert (forall u, outs g2 u = without x (outs g u)) as Ho2'.
  { intros u. rewrite Ho2. destruct (existsb _ _) eqn:Ee; auto. symmetry. apply without_id.
    intros a Ha Ea. destruct a as [x' w c]; simpl in Ea; subst x'.
    apply (wf_sym _ _ W) in Ha. apply In_getN in Ha as (j & Hj & Hj2).
    assert (existsb (fun j => match getN (ins g x) j with
                              | Some a => a_adj a =? u | None => false end)
              (rangeN 0 (lenN (ins g x))) = true) as Ht; [|congruence].
    apply existsb_exists. exists j. rewrite rangeN_In, Hj2. split; [lia|]. apply N.eqb_refl. }
  assert (forall u, ins g2 u = without x (ins g u)) as Hi2'.
  { intros u. unfold ins at 1. rewrite Hin2. apply Hi1'. }
  cbn [bind]. rewrite upd_eq by (rewrite Hin2; lia). cbn [bind]. rewrite upd_eq by lia. cbn [bind].
  eexists; split; [reflexivity|]. set (g' := mkPrepGraph _ _ _).
  assert (forall u, outs g' u = if u =? x then [] else without x (outs g u)) as Ho.
  { intros u. unfold g'. erewrite outs_set; [|rewrite Hl2; eauto|reflexivity]. rewrite Ho2'; auto. }
  assert (forall u, ins g' u = if u =? x then [] else without x (ins g u)) as Hi.
  { intros u. unfold g'. erewrite ins_set; [|rewrite Hin2, Hl1; eauto|reflexivity]. rewrite Hi2'; auto. }
  split; [|split; auto]. constructor.
  - unfold g'; simpl; auto.
  - unfold g'; simpl. rewrite lenN_setN; auto.
  - unfold g'; simpl. rewrite lenN_setN, Hin2; auto.
  - intros u v w c. rewrite Ho, Hi.
    destruct (N.eqb_spec u x) as [->|Hu]; destruct (N.eqb_spec v x) as [->|Hv];
      rewrite ?without_In; simpl; rewrite ?(wf_sym _ _ W); intuition congruence.
  - intros u. rewrite Ho. destruct (u =? x); [constructor|]. apply without_NoDup, (wf_ndo _ _ W).
  - intros u. rewrite Hi. destruct (u =? x); [constructor|]. apply without_NoDup, (wf_ndi _ _ W).
  - intros u v w c. rewrite Ho. destruct (N.eqb_spec u x); [intros []|].
    rewrite without_In. intros [H _]. apply (wf_arc _ _ W) in H; auto.
Qed.
