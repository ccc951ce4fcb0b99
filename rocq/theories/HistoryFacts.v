(** * HistoryFacts: the answer of a query does not depend on the queries answered before *)
From Verif Require Export QueryResult Lib.
From Coq Require Import Permutation.
Open Scope N_scope.

Definition rel_res {A B} (R : A -> B -> Prop) (m : res A) (m' : res B) : Prop :=
  match m, m' with
  | Ok a, Ok b => R a b
  | Panic r, Panic r' => r = r'
  | Diverge, Diverge => True
  | _, _ => False
  end.
Lemma rel_bind {A B A' B'} (R : A -> A' -> Prop) (S : B -> B' -> Prop) m m' k k' :
  rel_res R m m' -> (forall a a', R a a' -> rel_res S (k a) (k' a')) -> rel_res S (bind m k) (bind m' k').
Proof. destruct m, m'; simpl; try tauto; auto. Qed.
Lemma rel_bind_eq {A B B'} (S : B -> B' -> Prop) (m m' : res A) k k' :
  m = m' -> (forall a, m = Ok a -> rel_res S (k a) (k' a)) -> rel_res S (bind m k) (bind m' k').
Proof. intros <- Hk. destruct m; simpl; auto. Qed.
Lemma rel_foldM {S S' A} (R : S -> S' -> Prop) (f : S -> A -> res S) (f' : S' -> A -> res S') l :
  (forall a s s', In a l -> R s s' -> rel_res R (f s a) (f' s' a)) ->
  forall s s', R s s' -> rel_res R (foldM f l s) (foldM f' l s').
Proof.
  induction l as [|a l IH]; intros Hf s s' Hs; simpl; auto.
  eapply rel_bind; [apply Hf; simpl; auto|]. intros b b' Hb. apply IH; auto. intros; apply Hf; simpl; auto.
Qed.
Lemma rel_mono {A B} (R S : A -> B -> Prop) m m' : (forall a b, R a b -> S a b) -> rel_res R m m' -> rel_res S m m'.
Proof. intros Hm. destruct m, m'; simpl; auto. Qed.

Section Hist.
  Variables (c : cfg) (H : heap_ops) (hinv : list HeapItem -> Prop).
  Hypothesis HL : heap_laws H hinv.
  Variables (n : N) (fg : FastGraph).

  Record sim (s s' : Side) : Prop := mk_sim {
    sm_base : side_base n s;
    sm_base' : side_base n s';
    sm_lab : forall v, lab s v = lab s' v;
    sm_heap : s_heap s = s_heap s';
    sm_hinv : hinv (s_heap s);
    sm_items : forall it, In it (s_heap s) -> lab s (hi_node it) <> None;
    sm_parent : forall v dt, lab s v = Some dt -> lab s (d_parent dt) <> None
  }.

  Lemma sim_valid s s' v : sim s s' -> vf_is_valid (s_flags s) v = vf_is_valid (s_flags s') v.
  Proof.
    intros [B B' L _ _ _ _]. destruct (N.lt_ge_cases v n) as [Hv|Hv].
    - rewrite (valid_ok n s v B Hv), (valid_ok n s' v B' Hv), L. auto.
    - unfold vf_is_valid, idx. destruct B as [(G1 & _) _], B' as [(G2 & _) _].
      rewrite ?(getN_None (vf_flags (s_flags s)) v), ?(getN_None (vf_flags (s_flags s')) v) by lia. reflexivity.
  Qed.
  Lemma sim_weight s s' v : sim s s' -> s_get_weight c s v = s_get_weight c s' v.
  Proof.
    intros S. pose proof (sim_valid _ _ v S) as Ev. destruct S as [B B' L _ _ _ _]. destruct (N.lt_ge_cases v n) as [Hv|Hv].
    - rewrite (get_weight_ok c n s v B Hv), (get_weight_ok c n s' v B' Hv). unfold wt. rewrite L. auto.
    - unfold s_get_weight, vf_is_valid, idx. destruct B as [(G1 & _) _], B' as [(G2 & _) _].
      rewrite ?(getN_None (vf_flags (s_flags s)) v), ?(getN_None (vf_flags (s_flags s')) v) by lia. reflexivity.
  Qed.
  Lemma sim_settled s s' v : sim s s' -> s_is_settled s v = s_is_settled s' v.
  Proof.
    intros S. pose proof (sim_valid _ _ v S) as Ev. destruct S as [B B' L _ _ _ _]. destruct (N.lt_ge_cases v n) as [Hv|Hv].
    - rewrite (is_settled_ok n s v B Hv), (is_settled_ok n s' v B' Hv). unfold stl. rewrite L. auto.
    - unfold s_is_settled, vf_is_valid, idx. destruct B as [(G1 & _) _], B' as [(G2 & _) _].
      rewrite ?(getN_None (vf_flags (s_flags s)) v), ?(getN_None (vf_flags (s_flags s')) v) by lia. reflexivity.
  Qed.
  Lemma sim_update_push s s' v w p i : sim s s' -> (p = v \/ lab s p <> None) ->
    rel_res (fun s1 s1' => sim (s_set_heap s1 (hp_push H (s_heap s1) (mkHeapItem w v)))
                               (s_set_heap s1' (hp_push H (s_heap s1') (mkHeapItem w v))) /\
              forall u, lab s u <> None -> lab s1 u <> None)
      (s_update_node s v w p i) (s_update_node s' v w p i).
  Proof.
    intros S Hp. destruct S as [B B' L Eh Hi It Pa]. destruct (N.lt_ge_cases v n) as [Hv|Hv].
    - destruct (update_ok n s v w p i B Hv) as (s1 & -> & B1 & H1 & L1).
      destruct (update_ok n s' v w p i B' Hv) as (s1' & -> & B1' & H1' & L1'). simpl.
      destruct HL as (_ & Hpush & _). destruct (Hpush (s_heap s) (mkHeapItem w v) Hi) as [P1 P2].
      assert (forall u, lab s u <> None -> lab s1 u <> None) as Hm.
      { intros u Hu. rewrite L1. destruct (u =? v); congruence. }
      split; [|auto]. constructor; auto.
      + intros u. change (lab s1 u = lab s1' u). rewrite L1, L1', L. auto.
      + simpl. congruence.
      + simpl. congruence.
      + simpl. intros it Hit. change (lab s1 (hi_node it) <> None). rewrite H1 in Hit.
        eapply Permutation_in in Hit; [|exact P2]. destruct Hit as [<-|Hit]; [|auto].
        simpl. rewrite L1, N.eqb_refl. discriminate.
      + intros u dt Hu. change (lab s1 u = Some dt) in Hu. change (lab s1 (d_parent dt) <> None).
        rewrite L1 in Hu. destruct (N.eqb_spec u v) as [->|].
        * injection Hu as <-. simpl. destruct Hp as [->|Hp]; auto. rewrite L1, N.eqb_refl. discriminate.
        * eauto.
    - unfold s_update_node, vf_set_valid, upd. destruct B as [(G1 & _) _], B' as [(G2 & _) _].
      rewrite G1, G2. destruct (N.ltb_spec v n); [lia|]. reflexivity.
  Qed.
  Lemma sim_settle s s' v : sim s s' -> lab s v <> None ->
    rel_res sim (s_settle s v) (s_settle s' v).
  Proof.
    intros S Hv. destruct (lab s v) as [dt|] eqn:El; [|congruence].
    destruct S as [B B' L Eh Hi It Pa].
    destruct (settle_node_ok n s v dt B El) as (s1 & -> & B1 & H1 & L1).
    assert (lab s' v = Some dt) as El' by (rewrite <- L; auto).
    destruct (settle_node_ok n s' v dt B' El') as (s1' & -> & B1' & H1' & L1'). simpl.
    assert (forall u, lab s u <> None -> lab s1 u <> None) as Hm.
    { intros u Hu. rewrite L1. destruct (u =? v); congruence. }
    constructor; auto.
    - intros u. rewrite L1, L1', L. auto.
    - congruence.
    - congruence.
    - rewrite H1. auto.
    - intros u du Hu. apply Hm. rewrite L1 in Hu. destruct (N.eqb_spec u v) as [->|]; [|eauto].
      injection Hu as <-. simpl. eauto.
  Qed.
  Lemma sim_pop s s' x h : sim s s' -> hp_pop H (s_heap s) = Some (x, h) ->
    sim (s_set_heap s h) (s_set_heap s' h) /\ lab s (hi_node x) <> None.
  Proof.
    intros S E. destruct S as [B B' L Eh Hi It Pa]. destruct HL as (_ & _ & _ & Hpop & _).
    destruct (Hpop _ _ _ Hi E) as (P1 & P2 & _). split.
    - constructor; auto. simpl. intros it Hit. apply It. eapply Permutation_in; [symmetry; exact P2|simpl; auto].
    - apply It. eapply Permutation_in; [symmetry; exact P2|simpl; auto].
  Qed.

  Lemma sim_stall d s s' curr : sim s s' -> forall ids, stall_loop c fg d s curr ids = stall_loop c fg d s' curr ids.
  Proof.
    intros S. induction ids as [|i r IH]; cbn [stall_loop]; auto. rewrite IH.
    destruct (idx (fg_edges fg (opp d)) i) as [e| |]; cbn [bind]; auto. rewrite (sim_weight _ _ _ S). auto.
  Qed.

  Definition simx (x : N) s s' : Prop := sim s s' /\ lab s x <> None.

  Lemma sim_relax d curr s s' i : simx (hi_node curr) s s' ->
    rel_res (simx (hi_node curr)) (relax_edge c H fg d curr s i) (relax_edge c H fg d curr s' i).
  Proof.
    intros [S Hx]. unfold relax_edge. apply rel_bind_eq; auto. intros e _. apply rel_bind_eq; auto. intros w _.
    apply rel_bind_eq; [apply sim_weight; auto|]. intros cw _. destruct (w <? cw); [|simpl; split; auto].
    eapply rel_bind; [apply sim_update_push; auto|]. intros s1 s1' [G1 G2]. simpl. split; auto.
    change (lab s1 (hi_node curr) <> None). auto.
  Qed.

  Definition sim3 (a b : Side * N * N) : Prop :=
    sim (fst (fst a)) (fst (fst b)) /\ snd (fst a) = snd (fst b) /\ snd a = snd b.

  Lemma sim_search d : forall fuel own own' other other' bw mn, sim own own' -> sim other other' ->
    rel_res sim3 (search_dir fuel c H fg d own other bw mn) (search_dir fuel c H fg d own' other' bw mn).
  Proof.
    induction fuel as [|fuel IH]; intros own own' other other' bw mn S So; cbn [search_dir]; [exact I|].
    rewrite <- (sm_heap _ _ S). destruct (hp_pop H (s_heap own)) as [[curr h]|] eqn:Ep.
    2:{ simpl. unfold sim3; simpl. auto. }
    destruct (sim_pop _ _ _ _ S Ep) as [S1 Hc].
    apply rel_bind_eq; [apply sim_settled; auto|]. intros st _. destruct st; auto.
    destruct (bw <? hi_weight curr); [simpl; unfold sim3; simpl; auto|].
    apply rel_bind_eq.
    { unfold is_stallable. destruct (fg_begin_edges fg (opp d) (hi_node curr)); cbn [bind]; auto.
      destruct (fg_end_edges fg (opp d) (hi_node curr)); cbn [bind]; auto. apply sim_stall; auto. }
    intros st _. destruct st; auto.
    apply rel_bind_eq; auto. intros b _. apply rel_bind_eq; auto. intros e _.
    eapply rel_bind.
    { apply (rel_foldM (simx (hi_node curr))); [intros; apply sim_relax; auto|]. split; auto. }
    intros own2 own2' [S2 Hc2]. eapply rel_bind; [apply sim_settle; auto|]. intros own3 own3' S3.
    apply rel_bind_eq; [apply sim_valid; auto|]. intros v _. destruct v; [|simpl; unfold sim3; simpl; auto].
    apply rel_bind_eq; [apply sim_weight; auto|]. intros ow _. apply rel_bind_eq; auto. intros w _.
    destruct (w <? bw); simpl; unfold sim3; simpl; auto.
  Qed.

  Definition sim4 (a b : Side * Side * N * N) : Prop :=
    sim (fst (fst (fst a))) (fst (fst (fst b))) /\ sim (snd (fst (fst a))) (snd (fst (fst b))) /\
    snd (fst a) = snd (fst b) /\ snd a = snd b.

  Lemma sim_main : forall fuel fwd fwd' bwd bwd' bw mn, sim fwd fwd' -> sim bwd bwd' ->
    rel_res sim4 (main_loop fuel c H fg fwd bwd bw mn) (main_loop fuel c H fg fwd' bwd' bw mn).
  Proof.
    induction fuel as [|rest IH]; [|specialize (IH tt)]; intros fwd fwd' bwd bwd' bw mn Sf Sb; cbn [main_loop]; [exact I|].
    rewrite <- (sm_heap _ _ Sf), <- (sm_heap _ _ Sb).
    assert (rel_res sim4
      ('(fwd', bw1, mn1) <- search_dir (S (List.length (s_heap fwd))) c H fg Fwd fwd bwd bw mn ;;
       '(bwd', bw2, mn2) <- search_dir (S (List.length (s_heap bwd))) c H fg Bwd bwd fwd' bw1 mn1 ;;
       main_loop (rest tt) c H fg fwd' bwd' bw2 mn2)
      ('(fwd', bw1, mn1) <- search_dir (S (List.length (s_heap fwd))) c H fg Fwd fwd' bwd' bw mn ;;
       '(bwd', bw2, mn2) <- search_dir (S (List.length (s_heap bwd))) c H fg Bwd bwd' fwd' bw1 mn1 ;;
       main_loop (rest tt) c H fg fwd' bwd' bw2 mn2)) as G.
    { eapply rel_bind; [apply sim_search; auto|]. intros [[f1 b1] m1] [[f1' b1'] m1'] (G1 & G2 & G3). simpl in G1, G2, G3. subst b1' m1'.
      eapply rel_bind; [apply sim_search; auto|]. intros [[f2 b2] m2] [[f2' b2'] m2'] (K1 & K2 & K3). simpl in K1, K2, K3. subst b2' m2'.
      apply IH; auto. }
    destruct (s_heap fwd) eqn:E1, (s_heap bwd) eqn:E2; auto.
    simpl. unfold sim4; simpl. auto.
  Qed.

  Lemma sim_data s s' v : sim s s' -> lab s v <> None ->
    exists dt, lab s v = Some dt /\ getN (s_data s) v = Some dt /\ getN (s_data s') v = Some dt.
  Proof.
    intros S Hv. destruct (lab s v) as [dt|] eqn:El; [|congruence]. exists dt. split; auto. split.
    - apply lab_data; auto.
    - apply lab_data. rewrite <- (sm_lab _ _ S). auto.
  Qed.

  Lemma sim_unpack_tree d s s' : sim s s' -> forall fuel result v, lab s v <> None ->
    unpack_tree fuel c fg d s result v = unpack_tree fuel c fg d s' result v.
  Proof.
    intros S. induction fuel as [|fuel IH]; intros result v Hv; cbn [unpack_tree]; auto.
    destruct (sim_data _ _ _ S Hv) as (dt & El & D1 & D2).
    rewrite (idx_Some _ _ _ D1), (idx_Some _ _ _ D2). cbn [bind]. destruct (_ =? _); auto.
    destruct (unpack _ _ _ _ _ _ _); cbn [bind]; auto. apply IH. eapply (sm_parent _ _ S); eauto.
  Qed.

  Lemma sim_extract f f' b b' mn : sim f f' -> sim b b' -> extract_nodes c fg f b mn = extract_nodes c fg f' b' mn.
  Proof.
    intros Sf Sb. unfold extract_nodes. destruct (assert _ _); cbn [bind]; auto.
    rewrite <- (sim_valid _ _ mn Sf), <- (sim_valid _ _ mn Sb).
    destruct (N.lt_ge_cases mn n) as [Hv|Hv].
    - rewrite (valid_ok n f mn), (valid_ok n b mn); auto; try apply Sf; try apply Sb. cbn [bind].
      destruct (lab f mn) eqn:E1; cbn [assert bind]; auto.
      destruct (lab b mn) eqn:E2; cbn [assert bind]; auto.
      rewrite (sim_unpack_tree Fwd _ _ Sf) by congruence.
      destruct (unpack_tree _ _ _ Fwd _ _ _) as [[r1 ?]| |]; cbn [bind]; auto.
      rewrite (sim_unpack_tree Bwd _ _ Sb) by congruence. auto.
    - unfold vf_is_valid, idx. pose proof (sm_base _ _ Sf) as [(G1 & _) _]. rewrite (getN_None (vf_flags (s_flags f)) mn) by lia. reflexivity.
  Qed.

  Lemma sim_init items : forall s s', sim s s' -> rel_res sim (init_side c H s items) (init_side c H s' items).
  Proof.
    unfold init_side. apply rel_foldM. intros [v w] s s' _ S.
    apply rel_bind_eq; [apply sim_weight; auto|]. intros cw _. destruct (w <? cw); [|simpl; auto].
    eapply rel_bind; [apply sim_update_push; auto|]. intros s1 s1' [G _]. simpl. auto.
  Qed.

  Lemma sim_reset s s' : side_base n s -> side_base n s' -> sim (reset_side s) (reset_side s').
  Proof.
    intros B B'. destruct (reset_ok n s B) as [R1 R2]. destruct (reset_ok n s' B') as [R1' R2'].
    constructor; auto.
    - intros v. rewrite R2, R2'. auto.
    - exact (proj1 HL).
    - intros v dt Hl. rewrite R2 in Hl. discriminate.
  Qed.

  Theorem calc_history pc pc' starts ends : pc_ok n pc -> pc_ok n pc' ->
    rel_res (fun a b => snd a = snd b /\ pc_ok n (fst a) /\ pc_ok n (fst b))
      (pc_calc_path_multiple c H pc fg starts ends) (pc_calc_path_multiple c H pc' fg starts ends).
  Proof.
    intros (N1 & F1 & B1) (N2 & F2 & B2). unfold pc_calc_path_multiple. rewrite N1, N2.
    do 5 (apply rel_bind_eq; [reflexivity|intros _ _]).
    apply rel_bind_eq; auto. intros [bw0 mn0] _.
    eapply rel_bind; [apply sim_init, sim_reset; [exact F1|exact F2]|]. intros f1 f1' Sf.
    eapply rel_bind; [apply sim_init, sim_reset; [exact B1|exact B2]|]. intros b1 b1' Sb.
    eapply rel_bind; [apply sim_main; auto|]. intros [[[f2 b2] bw] mn] [[[f2' b2'] bw'] mn'] (G1 & G2 & G3 & G4).
    simpl in *. subst bw' mn'.
    assert (pc_ok n (mkPC n f2 b2) /\ pc_ok n (mkPC n f2' b2')) as [P1 P2].
    { split; (split; [auto|split]); try apply G1; apply G2. }
    destruct (mn =? INVALID_NODE c); [simpl; auto|].
    apply rel_bind_eq; auto. intros _ _. rewrite (sim_extract _ _ _ _ mn G1 G2).
    apply rel_bind_eq; auto. intros nodes _. apply rel_bind_eq; auto. intros _ _.
    apply rel_bind_eq; auto. intros a _. apply rel_bind_eq; auto. intros b _. simpl. auto.
  Qed.
End Hist.
