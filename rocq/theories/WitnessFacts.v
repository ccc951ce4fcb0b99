(** * WitnessFacts: the witness search finds only real paths, and terminates *)
From Verif Require Export PrepFacts FlagFacts Heap Witness.

(** edges that avoid [x] *)
Definition arelx (g : PrepGraph) (x : N) (u v w : N) : Prop :=
  arel g u v w /\ u <> x /\ v <> x.
(** there is a path from [u] to [v] of weight at most [W] that avoids [x] *)
Definition reach (g : PrepGraph) (x u v W : N) : Prop :=
  exists W', W' <= W /\ path (arelx g x) u v W'.

(** [g'] has an edge of at most the same weight for each edge of [g] *)
Definition pg_le (g g' : PrepGraph) : Prop :=
  forall u v w, arel g u v w -> exists w', arel g' u v w' /\ w' <= w.

Lemma reach_mono g g' x u v W W' : pg_le g g' -> reach g x u v W -> W <= W' -> reach g' x u v W'.
Proof.
  intros Hle (W1 & Hw & Hp) HW.
  destruct (path_mono (arelx g x) (arelx g' x) u v W1) as (W2 & H2 & Hp2); auto.
  - intros a b w (Ha & H1 & H2). destruct (Hle _ _ _ Ha) as (w' & Ha' & Hw').
    exists w'; split; auto. apply path_one; split; auto.
  - exists W2; split; auto; lia.
Qed.
Lemma reach_refl g x u W : reach g x u u W.
Proof. exists 0; split; [lia|constructor]. Qed.
Lemma reach_step g x s u v W w : reach g x s u W -> arelx g x u v w -> reach g x s v (W + w).
Proof. intros (W' & H1 & H2) Ha. exists (W' + w). split; [lia|]. eapply path_snoc; eauto. Qed.
Lemma pg_le_refl g : pg_le g g.
Proof. intros u v w H; exists w; split; auto; lia. Qed.
Lemma pg_le_trans g1 g2 g3 : pg_le g1 g2 -> pg_le g2 g3 -> pg_le g1 g3.
Proof.
  intros H1 H2 u v w H. destruct (H1 _ _ _ H) as (w2 & Ha & Hw).
  destruct (H2 _ _ _ Ha) as (w3 & Hb & Hw3). exists w3; split; auto; lia.
Qed.

(** ** Labels *)
Definition wl (ws : WitnessSearch) (v : N) : option WData := view (ws_flags ws) (ws_data ws) v.
Definition wset (ws : WitnessSearch) (v : N) : bool :=
  match wl ws v with Some d => wd_settled d | None => false end.

Record ws_base (n : N) (ws : WitnessSearch) : Prop := mk_ws_base {
  wb_n : ws_num_nodes ws = n;
  wb_d : lenN (ws_data ws) = n;
  wb_f : vf_inv n (ws_flags ws)
}.

Lemma ws_new_base c n : ws_base n (ws_new c n).
Proof.
  constructor; simpl; auto.
  - apply lenN_repeat.
  - apply vf_new_ok.
Qed.

Definition same_ctl (ws ws' : WitnessSearch) : Prop :=
  ws_heap ws' = ws_heap ws /\ ws_start ws' = ws_start ws /\ ws_avoid ws' = ws_avoid ws.

Lemma update_node_ok n ws v w : ws_base n ws -> v < n ->
  exists ws', ws_update_node ws v w = Ok ws' /\ ws_base n ws' /\ same_ctl ws ws' /\
    (forall u, wl ws' u = if u =? v then Some (mkWData false w) else wl ws u).
Proof.
  intros [Hn Hd Hf] Hv. unfold ws_update_node.
  destruct (vf_set_valid_ok n _ v Hf Hv) as (f' & -> & Hf' & Hvb). simpl.
  rewrite upd_eq by lia. simpl. eexists; split; [reflexivity|].
  split; [constructor; simpl; auto; rewrite lenN_setN; auto|].
  split; [repeat split|].
  intros u. unfold wl, view; simpl. rewrite Hvb, getN_setN. rewrite (N.eqb_sym v u).
  destruct (N.eqb_spec u v) as [->|]; simpl; auto.
  destruct (N.ltb_spec v (lenN (ws_data ws))); [auto|lia].
Qed.
Lemma wp_and {A} P (m : res A) (Q Q' : A -> Prop) : wp P m Q -> wp P m Q' -> wp P m (fun a => Q a /\ Q' a).
Proof. destruct m; simpl; auto. Qed.
Lemma update_node_settled ws v w ws' : ws_update_node ws v w = Ok ws' -> ws_settled ws' = ws_settled ws.
Proof.
  unfold ws_update_node. intros Hu. apply bind_Ok in Hu as (f & _ & Hu). apply bind_Ok in Hu as (d & _ & Hu).
  injection Hu as <-. reflexivity.
Qed.
Lemma settle_settled ws v ws' : ws_settle ws v = Ok ws' -> ws_settled ws' = ws_settled ws + 1.
Proof.
  unfold ws_settle. intros Hu. apply bind_Ok in Hu as (f & _ & Hu). apply bind_Ok in Hu as (d & _ & Hu).
  injection Hu as <-. reflexivity.
Qed.
Lemma is_settled_ok n ws v : ws_base n ws -> v < n -> ws_is_settled ws v = Ok (wset ws v).
Proof.
  intros [Hn Hd Hf] Hv. unfold ws_is_settled. rewrite (vf_is_valid_ok n _ _ Hf Hv). simpl.
  unfold wset, wl, view. destruct (vfb _ v); auto.
  destruct (getN_lt (ws_data ws) v) as [d Hd']; [lia|]. rewrite (idx_Some _ _ _ Hd'), Hd'. auto.
Qed.
Lemma get_current_weight_ok c n ws v : ws_base n ws -> v < n ->
  ws_get_current_weight c ws v =
  Ok (match wl ws v with Some d => wd_weight d | None => umax c end).
Proof.
  intros [Hn Hd Hf] Hv. unfold ws_get_current_weight. rewrite (vf_is_valid_ok n _ _ Hf Hv). simpl.
  unfold wl, view. destruct (vfb _ v); auto.
  destruct (getN_lt (ws_data ws) v) as [d Hd']; [lia|]. rewrite (idx_Some _ _ _ Hd'), Hd'. auto.
Qed.
Lemma settle_ok n ws v : ws_base n ws -> v < n ->
  exists ws', ws_settle ws v = Ok ws' /\ ws_base n ws' /\ same_ctl ws ws' /\
    (forall u, wl ws' u = if u =? v then option_map (fun d => mkWData true (wd_weight d)) (wl ws v)
                          else wl ws u).
Proof.
  intros [Hn Hd Hf] Hv. unfold ws_settle.
  destruct (getN_lt (ws_data ws) v) as [d Hd']; [lia|]. rewrite (idx_Some _ _ _ Hd'). simpl.
  rewrite upd_eq by lia. simpl. eexists; split; [reflexivity|].
  split; [constructor; simpl; auto; rewrite lenN_setN; auto|].
  split; [repeat split|].
  intros u. unfold wl, view; simpl. rewrite getN_setN. rewrite (N.eqb_sym v u).
  destruct (N.eqb_spec u v) as [->|]; simpl; auto.
  destruct (N.ltb_spec v (lenN (ws_data ws))); [|lia]. rewrite Hd'. destruct (vfb _ v); auto.
Qed.

(** ** Remaining work *)
Fixpoint udeg (f : N -> bool) (l : list (list Arc)) (i : N) : nat :=
  match l with
  | [] => 0
  | a :: t => (if f i then 0 else List.length a) + udeg f t (i + 1)
  end.
Lemma udeg_ext f f' l i : (forall v, f v = f' v) -> udeg f l i = udeg f' l i.
Proof. intros H; revert i; induction l; intros i; simpl; auto. rewrite H, IHl; auto. Qed.
Lemma udeg_le f l i : (udeg f l i <= List.length (concat l))%nat.
Proof.
  revert i; induction l as [|a t IH]; intros i; simpl; auto. rewrite app_length.
  specialize (IH (i + 1)). destruct (f i); lia.
Qed.
Lemma udeg_settle_aux f f' l i v : (forall u, u <> v -> f' u = f u) -> v < i ->
  udeg f' l i = udeg f l i.
Proof.
  intros H; revert i; induction l as [|a t IH]; intros i Hi; simpl; auto.
  rewrite H by lia. rewrite IH by lia. auto.
Qed.
Lemma udeg_settle f f' l i v a : (forall u, u <> v -> f' u = f u) -> f v = false -> f' v = true ->
  i <= v -> getN l (v - i) = Some a -> (udeg f' l i + List.length a)%nat = udeg f l i.
Proof.
  intros H Hf Hf'; revert i; induction l as [|b t IH]; intros i Hi Hg; simpl in *; [discriminate|].
  destruct (N.eqb_spec (v - i) 0) as [E|E].
  - assert (v = i) by lia. subst i. injection Hg as ->. rewrite Hf, Hf'.
    rewrite (udeg_settle_aux f f' t (v + 1) v) by (auto; lia). lia.
  - rewrite (H i) by lia. specialize (IH (i + 1)). rewrite <- IH; [lia|lia|].
    rewrite <- Hg. f_equal; lia.
Qed.

Section Witness.
  Variables (c : cfg) (H : heap_ops) (hinv : list HeapItem -> Prop).
  Hypothesis HL : heap_laws H hinv.
  Hypothesis Hdbg : debug_build c = true.
  Variables (n : N) (allow : Prop).
  Hypothesis Hn : n <= umax c.

  (** The state of a witness search from [s] avoiding [x] in the graph [g]. *)
  Record ws_inv (g : PrepGraph) (s x : N) (ws : WitnessSearch) : Prop := mk_ws_inv {
    wi_base : ws_base n ws;
    wi_heap : hinv (ws_heap ws);
    wi_start : ws_start ws = s;
    wi_avoid : ws_avoid ws = x;
    wi_s : s < n;
    wi_sx : s <> x;
    wi_label : forall v d, wl ws v = Some d -> reach g x s v (wd_weight d);
    wi_max : forall v d, wl ws v = Some d -> wd_weight d <= umax c;
    wi_items : forall h, In h (ws_heap ws) ->
      hi_node h < n /\ hi_node h <> x /\ reach g x s (hi_node h) (hi_weight h) /\
      exists d, wl ws (hi_node h) = Some d /\ wd_weight d <= hi_weight h;
    wi_mono : forall v d h, wl ws v = Some d -> wd_settled d = true -> In h (ws_heap ws) ->
      wd_weight d <= hi_weight h
  }.

  Lemma ws_inv_le g g' s x ws : pg_le g g' -> ws_inv g s x ws -> ws_inv g' s x ws.
  Proof.
    intros Hle [Hb Hh Hs Ha Hsn Hsx Hl Hmx Hi Hm]. constructor; auto.
    - intros v d Hv. eapply reach_mono; eauto. lia.
    - intros h Hh'. destruct (Hi h Hh') as (H1 & H2 & H3 & H4). repeat split; auto.
      eapply reach_mono; eauto. lia.
  Qed.

  (** The part of the state that makes the search find every path of the graph [gb]; the nodes in
      [P] need not be in the heap. *)
  Record ws_cmp (gb : PrepGraph) (s x : N) (P : N -> Prop) (ws : WitnessSearch) : Prop := mk_ws_cmp {
    wc_zero : exists d, wl ws s = Some d /\ wd_weight d = 0;
    wc_relaxed : forall v d u w, wl ws v = Some d -> wd_settled d = true -> arelx gb x v u w ->
      umax c <= wd_weight d + w \/ exists d', wl ws u = Some d' /\ wd_weight d' <= wd_weight d + w;
    wc_queued : forall v d, wl ws v = Some d -> wd_settled d = false -> ~ P v ->
      In (mkHeapItem (wd_weight d) v) (ws_heap ws);
    wc_count : exists L, NoDup L /\ lenN L = ws_settled ws /\
      forall v, In v L -> v < n /\ v <> x /\ wset ws v = true
  }.

  Lemma cmp_count gb s x P ws : ws_cmp gb s x P ws -> x < n -> ws_settled ws < n.
  Proof.
    intros C Hx. destruct (wc_count _ _ _ _ _ C) as (L & Hnd & <- & HL').
    assert (lenN (x :: L) <= n) as G.
    { apply NoDup_bounded_len.
      - constructor; auto. intros Hin. apply HL' in Hin. tauto.
      - intros y [<-|Hy]; auto. apply HL' in Hy. tauto. }
    rewrite lenN_cons in G. lia.
  Qed.

  Lemma cmp_path gb s x ws v W : ws_cmp gb s x (fun _ => False) ws -> path (arelx gb x) s v W -> W < umax c ->
    (exists d, wl ws v = Some d /\ wd_weight d <= W) \/ (exists h, In h (ws_heap ws) /\ hi_weight h <= W).
  Proof.
    intros C Hp. assert (forall u v W, path (arelx gb x) u v W -> forall W0, W0 + W < umax c ->
      (exists d, wl ws u = Some d /\ wd_weight d <= W0) ->
      (exists d, wl ws v = Some d /\ wd_weight d <= W0 + W) \/ (exists h, In h (ws_heap ws) /\ hi_weight h <= W0 + W)) as G.
    { clear Hp. intros u0 v0 W1 Hp. induction Hp as [u|u y v' w W' Hr Hp IH]; intros W0 Hlt (d & Hd & Hle).
      - left. exists d. split; auto. lia.
      - destruct (wd_settled d) eqn:Es.
        + destruct (wc_relaxed _ _ _ _ _ C _ _ _ _ Hd Es Hr) as [G|(d' & Hd' & Hle')]; [lia|].
          rewrite N.add_assoc. apply IH; [lia|]. exists d'. split; auto. lia.
        + right. exists (mkHeapItem (wd_weight d) u). split; [apply (wc_queued _ _ _ _ _ C); auto|]. simpl. lia. }
    intros HW. apply (G s v W Hp 0); [lia|]. destruct (wc_zero _ _ _ _ _ C) as (d & Hd & E). exists d. split; auto. lia.
  Qed.

  Definition mu (g : PrepGraph) (ws : WitnessSearch) : nat :=
    List.length (ws_heap ws) + udeg (wset ws) (pg_out g) 0.

  Lemma wl_set_heap ws h v : wl (ws_set_heap ws h) v = wl ws v.
  Proof. reflexivity. Qed.
  Lemma ws_base_set_heap ws h : ws_base n ws -> ws_base n (ws_set_heap ws h).
  Proof. intros [? ? ?]; constructor; auto. Qed.

  Lemma relax_spec g gr s x B curr target limit ws1 arcs :
    pg_wf n g -> pg_bnd B g ->
    (forall v w, arel g (hi_node curr) v w -> arel gr (hi_node curr) v w) ->
    (umax c < hi_weight curr + B -> allow) ->
    ws_inv gr s x ws1 ->
    hi_node curr < n -> hi_node curr <> x ->
    reach gr x s (hi_node curr) (hi_weight curr) ->
    (forall h, In h (ws_heap ws1) -> hi_weight curr <= hi_weight h) ->
    (forall v d, wl ws1 v = Some d -> wd_settled d = true -> wd_weight d <= hi_weight curr) ->
    (exists d, wl ws1 (hi_node curr) = Some d /\ wd_weight d <= hi_weight curr) ->
    wset ws1 (hi_node curr) = false ->
    outs g (hi_node curr) = arcs ->
    forall found,
    wp (lim allow) (foldM (ws_relax c H curr target limit) arcs (ws1, found))
      (fun '(ws2, _) => ws_inv gr s x ws2 /\
         (forall v, wset ws2 v = wset ws1 v) /\
         (forall h, In h (ws_heap ws2) -> hi_weight curr <= hi_weight h) /\
         (exists d, wl ws2 (hi_node curr) = Some d /\ wd_weight d <= hi_weight curr) /\
         (List.length (ws_heap ws2) <= List.length (ws_heap ws1) + List.length arcs)%nat).
  Proof.
    intros W HB Hgr Hov Hinv Hcn Hcx Hcr Hmin Hset Hlab Huns Harcs found.
    destruct HL as (_ & Hpush & _).
    eapply wp_mono.
    - apply wp_foldM with (I := fun pre '(ws2, _) => ws_inv gr s x ws2 /\
         (forall v, wset ws2 v = wset ws1 v) /\
         (forall h, In h (ws_heap ws2) -> hi_weight curr <= hi_weight h) /\
         (forall v d, wl ws2 v = Some d -> wd_settled d = true -> wd_weight d <= hi_weight curr) /\
         (exists d, wl ws2 (hi_node curr) = Some d /\ wd_weight d <= hi_weight curr) /\
         (List.length (ws_heap ws2) <= List.length (ws_heap ws1) + List.length pre)%nat).
      + split; auto. split; auto. split; auto. split; auto. split; auto. simpl; lia.
      + intros pre a post (ws2, fnd) E (I & Hst & Hge & Hse & Hla & Hlen).
        assert (In a (outs g (hi_node curr))) as Hin.
        { rewrite Harcs, E. apply in_app_iff; right; left; auto. }
        destruct a as [v w ctr]. pose proof (wf_arc _ _ W _ _ _ _ Hin) as (Hv & Hne & Hw).
        unfold ws_relax. simpl. destruct (N.eqb_spec v (ws_avoid ws2)) as [Ev|Ev].
        { simpl. split; auto. split; auto. split; auto. split; auto. split; auto.
          rewrite app_length; simpl; lia. }
        rewrite (wi_avoid _ _ _ _ I) in Ev.
        apply wp_bind, wp_uadd; auto.
        { intros Ho. apply Hov. specialize (HB _ _ _ _ Hin). lia. }
        intros Hsum. rewrite (get_current_weight_ok c n _ _ (wi_base _ _ _ _ I) Hv). simpl.
        destruct (N.ltb_spec (hi_weight curr + w)
                    match wl ws2 v with Some d => wd_weight d | None => umax c end) as [Hlt|Hge'].
        2:{ simpl. split; auto. split; auto. split; auto. split; auto. split; auto.
            rewrite app_length; simpl; lia. }
        assert (wset ws2 v = false) as Hvs.
        { unfold wset. destruct (wl ws2 v) as [d|] eqn:Ed; auto.
          destruct (wd_settled d) eqn:Es; auto. specialize (Hse _ _ Ed Es). lia. }
        destruct (update_node_ok n ws2 v (hi_weight curr + w) (wi_base _ _ _ _ I) Hv)
          as (ws3 & -> & Hb3 & (Hh3 & Hs3 & Ha3) & Hl3). simpl.
        destruct (Hpush (ws_heap ws3) (mkHeapItem (hi_weight curr + w) v)) as (Hinv' & Hperm).
        { rewrite Hh3. apply (wi_heap _ _ _ _ I). }
        assert (reach gr x s v (hi_weight curr + w)) as Hrv.
        { eapply reach_step; eauto. split; [apply Hgr; exists ctr; auto|split; auto]. }
        assert (forall h, In h (hp_push H (ws_heap ws3) (mkHeapItem (hi_weight curr + w) v)) <->
                  h = mkHeapItem (hi_weight curr + w) v \/ In h (ws_heap ws2)) as HinP.
        { intros h. rewrite <- Hh3. split; intros Hx.
          - eapply Permutation_in in Hx; [|exact Hperm]. destruct Hx; auto.
          - eapply Permutation_in; [apply Permutation_sym, Hperm|]. destruct Hx as [->|]; [left|right]; auto. }
        split; [|split; [|split; [|split; [|split]]]].
        * constructor; simpl; auto.
          -- apply ws_base_set_heap; auto.
          -- rewrite Hs3; apply (wi_start _ _ _ _ I).
          -- rewrite Ha3; apply (wi_avoid _ _ _ _ I).
          -- apply (wi_s _ _ _ _ I).
          -- apply (wi_sx _ _ _ _ I).
          -- intros u d. rewrite wl_set_heap, Hl3. destruct (N.eqb_spec u v) as [->|Hu].
             ++ intros [= <-]. auto.
             ++ apply (wi_label _ _ _ _ I).
          -- intros u d. rewrite wl_set_heap, Hl3. destruct (N.eqb_spec u v) as [->|Hu].
             ++ intros [= <-]. auto.
             ++ apply (wi_max _ _ _ _ I).
          -- intros h Hh. apply HinP in Hh as [->|Hh]; simpl.
             ++ repeat split; auto. eexists; rewrite wl_set_heap, Hl3, N.eqb_refl; split; [eauto|simpl; lia].
             ++ destruct (wi_items _ _ _ _ I h Hh) as (H1 & H2 & H3 & d & H4 & H5).
                repeat split; auto. rewrite wl_set_heap, Hl3. destruct (N.eqb_spec (hi_node h) v) as [Eu|Hu].
                ** eexists; split; [reflexivity|]. simpl. rewrite <- Eu in Hlt.
                   rewrite H4 in Hlt. lia.
                ** eauto.
          -- intros u d h. rewrite wl_set_heap, Hl3. destruct (N.eqb_spec u v) as [->|Hu].
             ++ intros [= <-]; simpl; discriminate.
             ++ intros Hd Hs Hh. apply HinP in Hh as [->|Hh]; simpl.
                ** specialize (Hse _ _ Hd Hs). lia.
                ** eapply (wi_mono _ _ _ _ I); eauto.
        * intros u. rewrite <- Hst. unfold wset at 1. rewrite wl_set_heap, Hl3.
          destruct (N.eqb_spec u v) as [->|Hu]; simpl; auto.
        * intros h Hh. simpl in Hh. apply HinP in Hh as [->|Hh]; simpl; [lia|auto].
        * intros u d. rewrite wl_set_heap, Hl3. destruct (N.eqb_spec u v) as [->|Hu]; [|apply Hse].
          intros [= <-]; simpl; discriminate.
        * rewrite wl_set_heap, Hl3. destruct (N.eqb_spec (hi_node curr) v) as [Eu|Hu]; auto.
          congruence.
        * simpl. apply Permutation_length in Hperm. simpl in Hperm. rewrite Hperm.
          rewrite Hh3. rewrite app_length; simpl. lia.
    - intros (ws2, fnd) (H1 & H2 & H3 & _ & H5 & H6). auto.
  Qed.

  Lemma relax_cmp g gr gb s x B curr target limit ws1 arcs :
    pg_wf n g -> pg_bnd B g -> pg_le gb g ->
    (umax c < hi_weight curr + B -> allow) ->
    ws_inv gr s x ws1 -> ws_cmp gb s x (eq (hi_node curr)) ws1 ->
    hi_node curr < n -> hi_node curr <> x ->
    (forall v d, wl ws1 v = Some d -> wd_settled d = true -> wd_weight d <= hi_weight curr) ->
    outs g (hi_node curr) = arcs ->
    wp (lim allow) (foldM (ws_relax c H curr target limit) arcs (ws1, false))
      (fun '(ws2, found) => ws_cmp gb s x (eq (hi_node curr)) ws2 /\
         wl ws2 (hi_node curr) = wl ws1 (hi_node curr) /\
         (forall u w, arelx gb x (hi_node curr) u w ->
            umax c <= hi_weight curr + w \/ exists d, wl ws2 u = Some d /\ wd_weight d <= hi_weight curr + w) /\
         (found = true -> exists d, wl ws2 target = Some d /\ wd_weight d <= limit)).
  Proof.
    intros W HB Hle Hov Hinv HC Hcn Hcx Hset Harcs. destruct HL as (_ & Hpush & _).
    eapply wp_mono.
    - apply wp_foldM with (I := fun pre '(ws2, found) => ws_base n ws2 /\ hinv (ws_heap ws2) /\ ws_avoid ws2 = x /\
         (forall v d, wl ws2 v = Some d -> wd_settled d = true -> wd_weight d <= hi_weight curr) /\
         ws_cmp gb s x (eq (hi_node curr)) ws2 /\ wl ws2 (hi_node curr) = wl ws1 (hi_node curr) /\
         (forall a, In a pre -> a_adj a <> x ->
            umax c <= hi_weight curr + a_weight a \/
            exists d, wl ws2 (a_adj a) = Some d /\ wd_weight d <= hi_weight curr + a_weight a) /\
         (found = true -> exists d, wl ws2 target = Some d /\ wd_weight d <= limit)).
      + repeat (split; [first [apply (wi_base _ _ _ _ Hinv)|apply (wi_heap _ _ _ _ Hinv)|apply (wi_avoid _ _ _ _ Hinv)|auto]|]).
        * intros a [].
        * discriminate.
      + intros pre a post (ws2, fnd) E (I1 & I2 & I3 & I4 & C & I5 & I6 & I7).
        assert (In a (outs g (hi_node curr))) as Hin.
        { rewrite Harcs, E. apply in_app_iff; right; left; auto. }
        destruct a as [v w ctr]. pose proof (wf_arc _ _ W _ _ _ _ Hin) as (Hv & Hne & Hw).
        unfold ws_relax. simpl. destruct (N.eqb_spec v (ws_avoid ws2)) as [Ev|Ev].
        { simpl. do 6 (split; [auto|]). split; [|auto]. intros a Ha Hax. apply in_app_iff in Ha as [Ha|[<-|[]]]; auto.
          simpl in Hax. congruence. }
        rewrite I3 in Ev.
        apply wp_bind, wp_uadd; auto.
        { intros Ho. apply Hov. specialize (HB _ _ _ _ Hin). lia. }
        intros Hsum. rewrite (get_current_weight_ok c n _ _ I1 Hv). simpl.
        destruct (N.ltb_spec (hi_weight curr + w)
                    match wl ws2 v with Some d => wd_weight d | None => umax c end) as [Hlt|Hge'].
        2:{ simpl. do 6 (split; [auto|]). split; [|auto]. intros a Ha Hax. apply in_app_iff in Ha as [Ha|[<-|[]]]; auto.
            simpl. destruct (wl ws2 v) as [d|]; [right; exists d; auto|left; auto]. }
        assert (wset ws2 v = false) as Hvs.
        { unfold wset. destruct (wl ws2 v) as [d|] eqn:Ed; auto.
          destruct (wd_settled d) eqn:Es; auto. specialize (I4 _ _ Ed Es). lia. }
        destruct (update_node_ok n ws2 v (hi_weight curr + w) I1 Hv)
          as (ws3 & Hup & Hb3 & (Hh3 & Hs3 & Ha3) & Hl3). rewrite Hup. simpl.
        apply update_node_settled in Hup.
        destruct (Hpush (ws_heap ws3) (mkHeapItem (hi_weight curr + w) v)) as (Hinv' & Hperm).
        { rewrite Hh3. auto. }
        assert (forall h, h = mkHeapItem (hi_weight curr + w) v \/ In h (ws_heap ws2) ->
                  In h (hp_push H (ws_heap ws3) (mkHeapItem (hi_weight curr + w) v))) as HinP.
        { intros h Hh. eapply Permutation_in; [apply Permutation_sym, Hperm|]. rewrite Hh3.
          destruct Hh as [->|]; [left|right]; auto. }
        set (ws4 := ws_set_heap ws3 _).
        assert (forall u, wl ws4 u = if u =? v then Some (mkWData false (hi_weight curr + w)) else wl ws2 u) as Hl4
          by (intros u; apply Hl3).
        assert (forall u B', (exists d, wl ws2 u = Some d /\ wd_weight d <= B') ->
                  exists d, wl ws4 u = Some d /\ wd_weight d <= B') as Hdec.
        { intros u B' (d & Hd & HB'). rewrite Hl4. destruct (N.eqb_spec u v) as [->|]; [|eauto].
          eexists; split; [reflexivity|]. simpl. rewrite Hd in Hlt. lia. }
        split; [apply ws_base_set_heap; auto|]. split; [auto|]. split; [simpl; congruence|].
        split; [|split; [|split; [|split]]].
        * intros u d. rewrite Hl4. destruct (N.eqb_spec u v) as [->|]; [|apply I4]. intros [= <-]; discriminate.
        * constructor.
          -- destruct (wc_zero _ _ _ _ _ C) as (d & Hd & Hz). rewrite Hl4. destruct (N.eqb_spec s v) as [->|]; [|eauto].
             rewrite Hd in Hlt. lia.
          -- intros u d y w' Hd Hs Hr. rewrite Hl4 in Hd. destruct (N.eqb_spec u v) as [->|].
             { injection Hd as <-. discriminate. }
             destruct (wc_relaxed _ _ _ _ _ C _ _ _ _ Hd Hs Hr) as [G|G]; auto.
          -- intros u d Hd Hs Hne'. apply HinP. rewrite Hl4 in Hd. destruct (N.eqb_spec u v) as [->|].
             ++ injection Hd as <-. left. reflexivity.
             ++ right. apply (wc_queued _ _ _ _ _ C); auto.
          -- destruct (wc_count _ _ _ _ _ C) as (L & L1 & L2 & L3). exists L. split; auto. split; [simpl; congruence|].
             intros u Hu. destruct (L3 u Hu) as (L4 & L5 & L6). split; auto. split; auto. unfold wset. rewrite Hl4.
             destruct (N.eqb_spec u v) as [->|]; [congruence|exact L6].
        * rewrite Hl4. destruct (N.eqb_spec (hi_node curr) v); [congruence|auto].
        * intros a Ha Hax. apply in_app_iff in Ha as [Ha|[<-|[]]].
          -- destruct (I6 a Ha Hax); auto.
          -- right. simpl. rewrite Hl4, N.eqb_refl. eexists; split; [reflexivity|]. simpl. lia.
        * destruct (N.eqb_spec v target) as [->|]; simpl.
          -- destruct (N.leb_spec (hi_weight curr + w) limit); [|auto].
             intros _. rewrite Hl4, N.eqb_refl. eexists; split; [reflexivity|]. simpl. lia.
          -- auto.
    - intros (ws2, fnd) (I1 & I2 & I3 & I4 & C & I5 & I6 & I7). split; auto. split; auto. split; auto.
      intros u w ((k & Ha) & _ & Hux). destruct (Hle (hi_node curr) u w) as (w' & (k' & Ha') & Hw'); [exists k; auto|].
      rewrite Harcs in Ha'. destruct (I6 _ Ha' Hux) as [G|(d & Hd & G)]; simpl in *.
      + left. lia.
      + right. exists d. split; auto. lia.
  Qed.

  Lemma heap_pop_spec h : hinv h -> h <> [] ->
    exists x h', hp_pop H h = Some (x, h') /\ hp_peek H h = Some x /\ hinv h' /\
      Permutation h (x :: h') /\ (forall y, In y h -> hi_weight x <= hi_weight y).
  Proof.
    intros Hi Hne. destruct HL as (_ & _ & Hnone & Hsome & Hpeek).
    specialize (Hnone h Hi). specialize (Hpeek h Hi).
    destruct (hp_pop H h) as [[x h']|] eqn:E; [|exfalso; apply Hne, Hnone; auto].
    destruct (Hsome h x h' Hi E) as (H1 & H2 & H3). exists x, h'. rewrite Hpeek; simpl.
    repeat split; auto. intros y Hy. apply H3 in Hy. unfold heap_item_le, heap_item_cmp in Hy.
    destruct (N.compare_spec (hi_weight y) (hi_weight x)); simpl in Hy; try lia; try discriminate.
  Qed.

  (** Unless the number of settled nodes is limited, the search ends because there is no path of at
      most the given weight, or because one was found. *)
  Definition ws_done (target limit maxs : N) (ws : WitnessSearch) : Prop :=
    ws_settled ws < maxs -> (forall h, In h (ws_heap ws) -> limit < hi_weight h) \/
                 (exists d, wl ws target = Some d /\ wd_weight d <= limit).

  Lemma ws_loop_spec g gr gb s x B target limit maxs fuel : forall ws,
    pg_wf n g -> pg_bnd B g -> pg_le gb g -> x < n ->
    (umax c < limit + B -> allow) ->
    (forall u v w, u <> s \/ wset ws s = false -> arel g u v w -> arel gr u v w) ->
    ws_inv gr s x ws -> ws_cmp gb s x (fun _ => False) ws -> (mu g ws < fsize fuel)%nat ->
    wp (lim allow) (ws_loop fuel c H ws g target limit maxs)
       (fun ws' => ws_inv gr s x ws' /\ ws_cmp gb s x (fun _ => False) ws' /\ ws_done target limit maxs ws' /\
          (forall v, wset ws v = true -> wset ws' v = true)).
  Proof.
    induction fuel as [|rest IH]; [|specialize (IH tt)]; intros ws W HB Hle Hx Hov Hgr I C Hf; cbn [fsize] in Hf; [lia|]. cbn [ws_loop].
    destruct (ws_heap ws) as [|h0 hs] eqn:Eh.
    { simpl. split; auto. split; auto. split; [|auto]. intros _. left. rewrite Eh. intros h []. }
    rewrite <- Eh in *. destruct (N.leb_spec maxs (ws_settled ws)).
    { simpl. split; auto. split; auto. split; [|auto]. intros Hm. lia. }
    destruct (heap_pop_spec (ws_heap ws)) as (curr & h' & -> & -> & Hh' & Hperm & Hmin).
    { apply (wi_heap _ _ _ _ I). } { congruence. }
    destruct (N.ltb_spec limit (hi_weight curr)) as [|Hlim].
    { simpl. split; auto. split; auto. split; [|auto]. intros _. left. intros h Hh. specialize (Hmin h Hh). lia. }
    assert (In curr (ws_heap ws)) as Hcin.
    { eapply Permutation_in; [apply Permutation_sym, Hperm|left; auto]. }
    assert (forall h, In h h' -> In h (ws_heap ws)) as Hsub.
    { intros h Hh. eapply Permutation_in; [apply Permutation_sym, Hperm|right; auto]. }
    destruct (wi_items _ _ _ _ I curr Hcin) as (Hcn & Hcx & Hcr & Hlab).
    assert (ws_inv gr s x (ws_set_heap ws h')) as I1.
    { destruct I. constructor; simpl; auto.
      - apply ws_base_set_heap; auto.
      - intros h Hh. apply wi_items0. auto.
      - intros v d h Hd Hs Hh. eapply wi_mono0; eauto. }
    assert (List.length (ws_heap ws) = S (List.length h')) as Elen.
    { apply Permutation_length in Hperm. simpl in Hperm. auto. }
    rewrite (is_settled_ok n _ _ (wi_base _ _ _ _ I1) Hcn). cbn [bind].
    assert (forall v d, wl ws v = Some d -> wd_settled d = false ->
              In (mkHeapItem (wd_weight d) v) (curr :: h')) as Hq.
    { intros v d Hd Hs. eapply Permutation_in; [exact Hperm|]. apply (wc_queued _ _ _ _ _ C); auto. }
    destruct Hlab as (dc & Hdc & Hdcw).
    destruct (wset (ws_set_heap ws h') (hi_node curr)) eqn:Eset.
    { apply (IH (ws_set_heap ws h')); auto.
      - destruct C as [C1 C2 C3 C4]. constructor; auto.
        intros v d Hd Hs _. destruct (Hq v d Hd Hs) as [E|E]; auto. exfalso.
        unfold wset in Eset. rewrite E in Eset. simpl in Eset. change (wl (ws_set_heap ws h') v) with (wl ws v) in Eset.
        change (wl ws v = Some d) in Hd. rewrite Hd in Eset. congruence.
      - unfold mu in *. simpl. rewrite (udeg_ext _ (wset ws)) by reflexivity. lia. }
    assert (wd_weight dc = hi_weight curr) as Edc.
    { assert (wd_settled dc = false) as Es.
      { unfold wset in Eset. change (wl (ws_set_heap ws h')) with (wl ws) in Eset. rewrite Hdc in Eset. auto. }
      pose proof (Hmin _ (wc_queued _ _ _ _ _ C _ _ Hdc Es (fun H => H))) as G. simpl in G. lia. }
    assert (ws_cmp gb s x (eq (hi_node curr)) (ws_set_heap ws h')) as C1.
    { destruct C as [C1 C2 C3 C4]. constructor; auto.
      intros v d Hd Hs Hne. destruct (Hq v d Hd Hs) as [E|E]; auto. exfalso. apply Hne. rewrite E. reflexivity. }
    rewrite (outs_idx _ _ _ W Hcn). cbn [bind].
    eapply wp_bind_mono.
    { apply wp_and.
      - eapply relax_spec with (B := B) (g := g) (gr := gr) (s := s); eauto.
        + intros v w Har. apply Hgr; auto. destruct (N.eq_dec (hi_node curr) s) as [<-|]; auto.
        + intros Ho. apply Hov. lia.
        + intros v d Hd Hs. eapply (wi_mono _ _ _ _ I); eauto.
      - eapply relax_cmp with (B := B) (gb := gb) (g := g) (gr := gr) (s := s); eauto.
        + intros Ho. apply Hov. lia.
        + intros v d Hd Hs. eapply (wi_mono _ _ _ _ I); eauto. }
    intros (ws2, fnd) ((I2 & Hst2 & Hge2 & (d2 & Hd2 & Hdw2) & Hlen2) & (C2 & Hlc & Hrel & Hfnd)).
    change (wl (ws_set_heap ws h')) with (wl ws) in Hlc.
    assert (d2 = dc) by congruence. subst d2.
    destruct (settle_ok n ws2 (hi_node curr) (wi_base _ _ _ _ I2) Hcn)
      as (ws3 & Hse3 & Hb3 & (Hh3 & Hs3 & Ha3) & Hl3). rewrite Hse3. cbn [bind].
    apply settle_settled in Hse3.
    rewrite Hd2 in Hl3. simpl in Hl3.
    assert (forall u B', (exists d, wl ws2 u = Some d /\ wd_weight d <= B') ->
              exists d, wl ws3 u = Some d /\ wd_weight d <= B') as Hkeep.
    { intros u B' (d & Hd & HB'). rewrite Hl3. destruct (N.eqb_spec u (hi_node curr)) as [->|]; [|eauto].
      eexists; split; [reflexivity|]. simpl. congruence. }
    assert (ws_cmp gb s x (fun _ => False) ws3) as C3.
    { constructor.
      - destruct (wc_zero _ _ _ _ _ C2) as (d & Hd & Hz). rewrite Hl3. destruct (N.eqb_spec s (hi_node curr)) as [E|]; [|eauto].
        eexists; split; [reflexivity|]. simpl. congruence.
      - intros v d u w Hd Hs Hr. rewrite Hl3 in Hd. destruct (N.eqb_spec v (hi_node curr)) as [->|].
        + injection Hd as <-. simpl. rewrite Edc. destruct (Hrel u w Hr); auto.
        + destruct (wc_relaxed _ _ _ _ _ C2 _ _ _ _ Hd Hs Hr); auto.
      - intros v d Hd Hs _. rewrite Hh3. rewrite Hl3 in Hd. destruct (N.eqb_spec v (hi_node curr)) as [->|].
        + injection Hd as <-. discriminate.
        + apply (wc_queued _ _ _ _ _ C2); auto.
      - destruct (wc_count _ _ _ _ _ C2) as (L & L1 & L2 & L3). exists (hi_node curr :: L).
        assert (wset ws2 (hi_node curr) = false) as Hns by (rewrite Hst2; exact Eset).
        split; [constructor; auto; intros Hin; apply L3 in Hin as (_ & _ & Hin); congruence|].
        split; [rewrite lenN_cons; lia|]. intros v [<-|Hv].
        + split; auto. split; auto. unfold wset. rewrite Hl3, N.eqb_refl. reflexivity.
        + destruct (L3 v Hv) as (L4 & L5 & L6). split; auto. split; auto. unfold wset. rewrite Hl3.
          destruct (N.eqb_spec v (hi_node curr)); [congruence|exact L6]. }
    assert (ws_inv gr s x ws3) as I3.
    { constructor; auto.
      - rewrite Hh3; apply (wi_heap _ _ _ _ I2).
      - rewrite Hs3; apply (wi_start _ _ _ _ I2).
      - rewrite Ha3; apply (wi_avoid _ _ _ _ I2).
      - apply (wi_s _ _ _ _ I).
      - apply (wi_sx _ _ _ _ I).
      - intros v d. rewrite Hl3. destruct (N.eqb_spec v (hi_node curr)) as [->|Hv].
        + intros [= <-]. simpl. apply (wi_label _ _ _ _ I2 _ _ Hd2).
        + apply (wi_label _ _ _ _ I2).
      - intros v d. rewrite Hl3. destruct (N.eqb_spec v (hi_node curr)) as [->|Hv].
        + intros [= <-]. simpl. apply (wi_max _ _ _ _ I2 _ _ Hd2).
        + apply (wi_max _ _ _ _ I2).
      - intros h Hh. rewrite Hh3 in Hh.
        destruct (wi_items _ _ _ _ I2 h Hh) as (H1 & H2 & H3 & d & H4 & H5).
        repeat split; auto. rewrite Hl3. destruct (N.eqb_spec (hi_node h) (hi_node curr)) as [Ev|Hv].
        + eexists; split; [reflexivity|]. simpl. rewrite Ev in H4. congruence.
        + eauto.
      - intros v d h. rewrite Hl3, Hh3. destruct (N.eqb_spec v (hi_node curr)) as [->|Hv].
        + intros [= <-] _ Hh. simpl. specialize (Hge2 h Hh). lia.
        + apply (wi_mono _ _ _ _ I2). }
    assert (forall v, wset ws v = true -> wset ws3 v = true) as Hset3.
    { intros v Hv. unfold wset. rewrite Hl3. destruct (N.eqb_spec v (hi_node curr)); auto.
      change (wset ws2 v = true). rewrite Hst2. exact Hv. }
    destruct (fnd || (hi_node curr =? target)) eqn:Efin.
    { simpl. split; auto. split; auto. split; [|auto]. intros _. right. apply orb_true_iff in Efin as [->|Et].
      - apply Hkeep. auto.
      - apply N.eqb_eq in Et. rewrite <- Et. apply Hkeep. exists dc. split; auto. lia. }
    eapply wp_mono; [apply IH; auto|].
    { intros u v w Hu Har. apply Hgr; auto. destruct Hu as [Hu|Hu]; auto. right.
      destruct (wset ws s) eqn:Es; auto. apply Hset3 in Es. congruence. }
    2:{ intros ws' (J1 & J2 & J3 & J4). auto 6. }
    unfold mu in *. rewrite Hh3. simpl in Hlen2.
    assert (udeg (wset ws3) (pg_out g) 0 + List.length (outs g (hi_node curr)) =
            udeg (wset ws) (pg_out g) 0)%nat as Hu.
    { apply udeg_settle with (v := hi_node curr); auto; try lia.
      - intros u Hu. transitivity (wset ws2 u); [|rewrite Hst2; auto].
        unfold wset. rewrite Hl3. destruct (N.eqb_spec u (hi_node curr)); [congruence|auto].
      - unfold wset. rewrite Hl3, N.eqb_refl. auto.
      - rewrite N.sub_0_r. apply outs_get. rewrite (wf_lo _ _ W). auto. }
    lia.
  Qed.

  Lemma ws_init_spec g gb s x ws :
    ws_base n ws -> s < n -> s <> x ->
    exists ws', ws_init c H ws s x = Ok ws' /\ ws_inv g s x ws' /\ ws_cmp gb s x (fun _ => False) ws'.
  Proof.
    intros [Hn' Hd Hf] Hs Hsx. destruct HL as (Hnil & Hpush & _).
    unfold ws_init, INVALID_NODE.
    destruct (N.eqb_spec s (umax c)) as [|_]; [lia|]. simpl.
    destruct (N.eqb_spec s x) as [|_]; [lia|]. simpl.
    destruct (vf_invalidate_ok n _ Hf) as (Hf' & Hvb).
    set (ws1 := mkWS _ _ _ _ _ _ _).
    assert (ws_base n ws1) as B1 by (constructor; auto).
    destruct (update_node_ok n ws1 s 0 B1 Hs) as (ws2 & -> & B2 & (Hh2 & Hs2 & Ha2) & Hl2).
    simpl. eexists; split; [reflexivity|]. rewrite Hh2. simpl.
    destruct (Hpush [] (mkHeapItem 0 s) Hnil) as (Hi & Hp).
    assert (forall u, wl ws1 u = None) as Hn1.
    { intros u. unfold wl, view, ws1; simpl. rewrite Hvb; auto. }
    set (ws3 := mkWS _ _ _ _ _ _ _).
    assert (forall u, wl ws3 u = if u =? s then Some (mkWData false 0) else None) as Hl3.
    { intros u. change (wl ws3 u) with (wl ws2 u). rewrite Hl2, Hn1. reflexivity. }
    split.
    2:{ constructor.
        - eexists; rewrite Hl3, N.eqb_refl; split; reflexivity.
        - intros v d u w. rewrite Hl3. destruct (N.eqb_spec v s); [|discriminate]. intros [= <-]; discriminate.
        - intros v d. rewrite Hl3. destruct (N.eqb_spec v s) as [->|]; [|discriminate]. intros [= <-] _ _. simpl.
          eapply Permutation_in; [apply Permutation_sym, Hp|left; reflexivity].
        - exists []. split; [constructor|]. split; [reflexivity|]. intros v []. }
    constructor; auto.
    - destruct B2; constructor; auto.
    - intros v d. rewrite Hl3. destruct (N.eqb_spec v s) as [->|]; [|discriminate].
      intros _. apply reach_refl.
    - intros v d. rewrite Hl3. destruct (N.eqb_spec v s) as [->|]; [|discriminate].
      intros [= <-]. simpl. lia.
    - intros h Hh. simpl in Hh. eapply Permutation_in in Hh; [|exact Hp].
      destruct Hh as [<-|[]]. simpl. repeat split; auto; [apply reach_refl|].
      eexists; rewrite Hl3, N.eqb_refl; split; [eauto|simpl; lia].
    - intros v d h. rewrite Hl3. destruct (N.eqb_spec v s) as [->|]; [|discriminate].
      intros [= <-]; discriminate.
  Qed.

  Lemma find_max_weight_spec g gr gb s x B target limit maxs ws :
    pg_wf n g -> pg_bnd B g -> pg_le gb g -> x < n ->
    (umax c < limit + B -> allow) ->
    (forall u v w, u <> s \/ wset ws s = false -> arel g u v w -> arel gr u v w) ->
    ws_inv gr s x ws -> ws_cmp gb s x (fun _ => False) ws -> target < n -> target <> x ->
    wp (lim allow) (ws_find_max_weight c H ws g target limit maxs)
      (fun '(ws', mw) => (ws_inv gr s x ws' /\ ws_cmp gb s x (fun _ => False) ws') /\
         (mw <= limit -> limit < umax c -> reach gr x s target limit) /\ mw <= umax c /\
         (target = s -> mw = 0) /\
         (n <= maxs -> forall W, path (arelx gb x) s target W -> W <= limit -> W < umax c -> mw <= limit) /\
         (forall v, wset ws v = true -> wset ws' v = true) /\
         (n <= maxs -> limit < mw -> wset ws' s = true)).
  Proof.
    intros W HB Hle Hx Hov Hgr I C Ht Htx. unfold ws_find_max_weight.
    destruct (wi_base _ _ _ _ I) as [Hn' Hd Hf].
    rewrite (wf_n _ _ W), Hn', N.eqb_refl. cbn [assert bind].
    rewrite (wi_start _ _ _ _ I), (wi_avoid _ _ _ _ I). unfold INVALID_NODE.
    pose proof (wi_s _ _ _ _ I). pose proof (wi_sx _ _ _ _ I).
    destruct (N.eqb_spec s (umax c)) as [|_]; [lia|]. cbn [negb assert bind].
    destruct (N.eqb_spec s x) as [|_]; [lia|]. destruct (N.eqb_spec target x) as [|_]; [lia|].
    cbn [negb andb assert bind].
    destruct (N.eqb_spec target s) as [->|Hts].
    { simpl. split; auto. split; [|unfold WEIGHT_ZERO; split; [lia|split; [auto|split; [intros; lia|split; [auto|intros; lia]]]]].
      intros; apply reach_refl. }
    rewrite (vf_is_valid_ok n _ _ Hf Ht). cbn [bind].
    destruct (getN_lt (ws_data ws) target) as [d Hd']; [lia|]. rewrite (idx_Some _ _ _ Hd'). cbn [bind].
    destruct (vfb (ws_flags ws) target && (wd_settled d || (wd_weight d <=? limit))) eqn:Ec.
    { simpl. split; auto.
      apply andb_true_iff in Ec as [Ev Ec].
      assert (wl ws target = Some d) as Hw by (unfold wl, view; rewrite Ev; auto).
      split; [|split; [apply (wi_max _ _ _ _ I _ _ Hw)|split; [congruence|split; [|split; [auto|]]]]].
      - intros Hl _. eapply reach_mono; [apply pg_le_refl|apply (wi_label _ _ _ _ I _ _ Hw)|auto].
      - intros _ W' Hp HW' HWm. apply orb_true_iff in Ec as [Es|El]; [|apply N.leb_le in El; auto].
        destruct (cmp_path _ _ _ _ _ _ C Hp HWm) as [(d' & Hd'' & G)|(h & Hh & G)].
        + assert (d' = d) by congruence. subst. lia.
        + pose proof (wi_mono _ _ _ _ I _ _ _ Hw Es Hh). lia.
      - intros _ Hgt. apply orb_true_iff in Ec as [Es|El]; [|apply N.leb_le in El; lia].
        destruct (wc_zero _ _ _ _ _ C) as (d0 & Hd0 & Hz). unfold wset. rewrite Hd0.
        destruct (wd_settled d0) eqn:E0; auto.
        pose proof (wc_queued _ _ _ _ _ C _ _ Hd0 E0 (fun F => F)) as Hq.
        pose proof (wi_mono _ _ _ _ I _ _ _ Hw Es Hq) as G. simpl in G. lia. }
    eapply wp_bind_mono.
    { eapply ws_loop_spec with (B := B) (gr := gr) (gb := gb) (s := s) (x := x); eauto. unfold mu, ws_fuel. rewrite fsize_of. unfold lenN.
      pose proof (udeg_le (wset ws) (pg_out g) 0). lia. }
    intros ws' (I' & C' & Hdone0 & Hset').
    assert (n <= maxs -> (forall h, In h (ws_heap ws') -> limit < hi_weight h) \/
              (exists d, wl ws' target = Some d /\ wd_weight d <= limit)) as Hdone.
    { intros Hm. apply Hdone0. pose proof (cmp_count _ _ _ _ _ C' Hx). lia. }
    assert (n <= maxs -> forall W, path (arelx gb x) s target W -> W <= limit -> W < umax c ->
              match wl ws' target with Some d => wd_weight d | None => umax c end <= limit) as Hcm.
    { intros Hm W' Hp HW' HWm. destruct (Hdone Hm) as [Hall|(d' & -> & G)]; auto.
      destruct (cmp_path _ _ _ _ _ _ C' Hp HWm) as [(d' & -> & G)|(h & Hh & G)]; [lia|].
      specialize (Hall h Hh). lia. }
    rewrite (get_current_weight_ok c n _ _ (wi_base _ _ _ _ I') Ht). simpl.
    assert (n <= maxs -> limit < match wl ws' target with Some d => wd_weight d | None => umax c end ->
              wset ws' s = true) as Hss.
    { intros Hm Hgt. destruct (Hdone Hm) as [Hall|(d' & Hd0 & G)]; [|rewrite Hd0 in Hgt; lia].
      destruct (wc_zero _ _ _ _ _ C') as (d0 & Hd0 & Hz). unfold wset. rewrite Hd0.
      destruct (wd_settled d0) eqn:E0; auto.
      pose proof (Hall _ (wc_queued _ _ _ _ _ C' _ _ Hd0 E0 (fun F => F))) as G. simpl in G. lia. }
    split; auto. destruct (wl ws' target) as [d'|] eqn:El; [|split; [intros; lia|split; [lia|split; [congruence|auto]]]].
    split; [|split; [apply (wi_max _ _ _ _ I' _ _ El)|split; [congruence|auto]]]. intros Hl Hlim.
    eapply reach_mono; [apply pg_le_refl|apply (wi_label _ _ _ _ I' _ _ El)|auto].
  Qed.
End Witness.
