(** * ProgramFacts: the program of the README is right *)
From Verif Require Export PropRel PropShortcut PropPrepare PropQuery PropCalculator PropGraph BinPqFacts SpecProgram.
From Coq Require Import Lia.
Open Scope N_scope.

Definition adds (edges : list (N * N * N)) : list ig_op := map (fun '(u, v, w) => OpAddEdge u v w) edges.

Lemma adds_accepted edges : accepted (adds edges ++ [OpFreeze]) = usable edges.
Proof.
  unfold accepted, usable. rewrite flat_map_app. simpl. rewrite app_nil_r. unfold acceptable. f_equal.
  induction edges as [|[[u v] w] t IH]; simpl; auto. f_equal. auto.
Qed.

Lemma adds_repr c edges : usize_edges c edges -> forall o, In o (adds edges ++ [OpFreeze]) -> op_repr c o.
Proof.
  intros H o Ho. apply in_app_iff in Ho as [Ho|[<-|[]]]; [|simpl; auto].
  apply in_map_iff in Ho as ([[u v] w] & <- & Hin). simpl. auto.
Qed.

Lemma run_adds c edges : debug_build c = true -> forall g, ig_frozen g = false ->
  (exists g', ig_run c g (adds edges) = Ok g' /\ ig_frozen g' = false) \/
  ig_run c g (adds edges) = Panic POverflow \/ ig_run c g (adds edges) = Panic PCapacity.
Proof.
  intros Hd. induction edges as [|[[u v] w] t IH]; intros g Hg; simpl.
  - left. eauto.
  - unfold ig_add_edge, ig_do_add_edge. rewrite Hg.
    destruct (u =? v); [cbn [bind]; apply IH; auto|].
    destruct (w <? 1); [cbn [bind]; apply IH; auto|].
    unfold uadd. rewrite Hd. destruct (N.max u v + 1 <=? umax c); cbn [bind]; [|auto].
    unfold vpush. destruct (lenN (ig_edges g) <? umax c / 2); cbn [bind]; [|auto].
    apply IH. reflexivity.
Qed.

Lemma run_adds_ok c edges : (forall u v w, In (u, v, w) edges -> u < umax c /\ v < umax c) ->
  forall g, ig_frozen g = false -> lenN (ig_edges g) + lenN edges <= umax c / 2 ->
  exists g', ig_run c g (adds edges) = Ok g' /\ ig_frozen g' = false.
Proof.
  induction edges as [|[[u v] w] t IH]; intros Hr g Hg Hl; simpl; [eauto|].
  rewrite lenN_cons in Hl.
  unfold ig_add_edge, ig_do_add_edge. rewrite Hg.
  assert (Ht : forall u0 v0 w0, In (u0, v0, w0) t -> u0 < umax c /\ v0 < umax c) by (intros; eapply Hr; simpl; eauto).
  destruct (u =? v); [cbn [bind]; apply IH; auto; lia|].
  destruct (w <? 1); [cbn [bind]; apply IH; auto; lia|].
  destruct (Hr u v w (or_introl eq_refl)) as [Hu Hv].
  assert (Ha : uadd c (N.max u v) 1 = Ok (N.max u v + 1)).
  { unfold uadd. destruct (N.leb_spec (N.max u v + 1) (umax c)) as [|Hx]; [|exfalso; lia].
    destruct (debug_build c); auto. }
  rewrite Ha. cbn [bind]. unfold vpush. destruct (N.ltb_spec (lenN (ig_edges g)) (umax c / 2)) as [|Hx]; [|exfalso; lia].
  cbn [bind]. apply IH; auto. simpl. rewrite lenN_app. change (lenN [mkEdge u v w]) with 1. lia.
Qed.

Lemma run_freeze c edges g : ig_run c ig_new (adds edges) = Ok g -> ig_frozen g = false ->
  exists ig, ig_run c ig_new (adds edges ++ [OpFreeze]) = Ok ig /\ ig_frozen ig = true.
Proof.
  intros E Hg. rewrite ig_run_app, E. cbn [bind]. simpl. unfold ig_freeze. rewrite Hg. cbn [bind]. eexists. split; reflexivity.
Qed.

Lemma known_count c edges ig v :
  (debug_build c = true \/ forall u v w, In (u, v, w) edges -> u < umax c /\ v < umax c) ->
  frozen_graph c (adds edges ++ [OpFreeze]) ig -> (known edges v <-> v < ig_num_nodes ig).
Proof.
  intros Hd (Hr & E & Hf).
  assert (Hd' : debug_build c = true \/
    forall e, In e (accepted (adds edges ++ [OpFreeze])) -> e_from e < umax c /\ e_to e < umax c).
  { destruct Hd as [Hd|Hd]; [left; exact Hd|right]. intros e He. rewrite adds_accepted in He. unfold usable in He.
    apply filter_In in He as [He _]. apply in_map_iff in He as ([[x y] w] & <- & He). exact (Hd x y w He). }
  destruct (C20_node_and_edge_count c _ _ Hd' E Hf) as (n & es & En & _ & _ & H0 & H1 & H2).
  unfold ig_get_num_nodes, ig_check_frozen in En. rewrite Hf in En. simpl in En. injection En as <-.
  rewrite adds_accepted in *. unfold known. split.
  - intros (e & He & Hv). destruct (H1 e He). lia.
  - intros Hv. destruct (usable edges) as [|e0 t] eqn:Eu.
    + rewrite H0 in Hv by auto. lia.
    + destruct H2 as (e & He & Hn); [discriminate|]. exists e. split; auto. lia.
Qed.
Lemma known_iff c edges ig v : debug_build c = true -> frozen_graph c (adds edges ++ [OpFreeze]) ig ->
  (known edges v <-> v < ig_num_nodes ig).
Proof. intros Hd. apply known_count. auto. Qed.

Lemma prepare_prepared c ig fg : prepare c bin_heap bin_pq ig = Ok fg -> prepared_by_params c ig params_default fg.
Proof.
  intros E. exists bin_heap, bh_inv, bin_pq, bp_inv. split; [exact bin_heap_laws|]. split; [exact bin_pq_laws|]. exact E.
Qed.

Lemma calc_answer c fg s t r : calc_path c bin_heap fg s t = Ok r -> answer c fg s t r.
Proof. intros E. exists bin_heap, bh_inv. split; [exact bin_heap_laws|]. auto. Qed.

Lemma C87_right_proof : forall c edges s t, debug_build c = true -> 1 <= umax c -> usize_edges c edges ->
  match readme_program c edges s t with
  | Ok (Some p) =>
      known edges s /\ known edges t /\ sp_get_source p = s /\ sp_get_target p = t /\
      walk (usable edges) s t (sp_get_nodes p) (sp_get_weight p) /\
      (forall ns W, walk (usable edges) s t ns W -> sp_get_weight p <= W)
  | Ok None => known edges s /\ known edges t /\ forall ns W, walk (usable edges) s t ns W -> umax c <= W
  | Panic r => r = POverflow \/ r = PCapacity \/
      (r = PAssert "invalid start node" /\ ~ known edges s) \/
      (r = PAssert "invalid end node" /\ known edges s /\ ~ known edges t)
  | Diverge => False
  end.
Proof.
  intros c edges s t Hd Hu He. unfold readme_program. fold (adds edges).
  destruct (run_adds c edges Hd ig_new eq_refl) as [(g & E & Hg)|[E|E]].
  2,3: rewrite ig_run_app, E; cbn [bind]; auto.
  destruct (run_freeze c edges g E Hg) as (ig & Ei & Hf). rewrite Ei. cbn [bind].
  assert (HF : frozen_graph c (adds edges ++ [OpFreeze]) ig) by (split; [apply adds_repr; auto|auto]).
  destruct (C13_prepare_is_safe c _ ig bin_heap bh_inv bin_pq bp_inv params_default Hd HF bin_heap_laws bin_pq_laws)
    as [(fg & Ep)|[Ep|Ep]].
  2,3: change (prepare c bin_heap bin_pq ig) with (prepare_with_params c bin_heap bin_pq ig params_default);
       rewrite Ep; cbn [bind]; auto.
  change (prepare_with_params c bin_heap bin_pq ig params_default) with (prepare c bin_heap bin_pq ig) in Ep.
  rewrite Ep. cbn [bind].
  assert (HP : prepared c ig fg) by (left; exists params_default; apply prepare_prepared; auto).
  pose proof (fun v => known_iff c edges ig v Hd HF) as HK.
  destruct (C12_calc_path_is_safe c _ ig fg bin_heap bh_inv s t Hu HF HP bin_heap_laws) as (H1 & H2 & H3).
  destruct (N.lt_ge_cases s (ig_num_nodes ig)) as [Hs|Hs].
  2:{ rewrite (H2 Hs). right. right. left. split; auto. rewrite HK. lia. }
  destruct (N.lt_ge_cases t (ig_num_nodes ig)) as [Ht|Ht].
  2:{ rewrite (H3 Hs Ht). right. right. right. split; auto. rewrite !HK. split; [auto|lia]. }
  destruct (H1 Hs Ht) as [(r & Er)|(_ & Er)]; rewrite Er; auto.
  pose proof (answer_single c _ ig fg s t r Hd HF HP (calc_answer _ _ _ _ _ Er)) as (_ & _ & HA).
  rewrite <- HK in Hs, Ht. rewrite adds_accepted in HA.
  destruct r as [p|].
  - destruct HA as (A1 & A2 & A3 & A4 & A5). apply (frozen_walk c _ ig _ _ _ _ HF) in A4. rewrite adds_accepted in A4.
    repeat (split; auto).
  - auto.
Qed.

Lemma C87_returns_proof : forall c edges M s t,
  debug_build c = true -> 500000 <= umax c ->
  (forall u v w, In (u, v, w) edges -> u < 500 /\ v < 500 /\ w <= M) ->
  498002 * M <= umax c -> lenN edges <= umax c / 2 -> known edges s -> known edges t ->
  exists r, readme_program c edges s t = Ok r /\ readme_program (unchecked c) edges s t = Ok r.
Proof.
  intros c edges M s t Hd Hu He HM Hl Hs Ht. unfold readme_program. fold (adds edges).
  assert (HMu : M <= umax c) by lia.
  destruct (run_adds_ok c edges) with (g := ig_new) as (g & E & Hg); auto.
  { intros u v w Hin. destruct (He u v w Hin). lia. }
  destruct (run_freeze c edges g E Hg) as (ig & Ei & Hf).
  assert (HF : frozen_graph c (adds edges ++ [OpFreeze]) ig).
  { split; [|auto]. apply adds_repr. intros u v w Hin. destruct (He u v w Hin). lia. }
  pose proof (fun v => known_iff c edges ig v Hd HF) as HK.
  assert (Hn : ig_num_nodes ig <= 500).
  { destruct (N.lt_ge_cases 500 (ig_num_nodes ig)) as [Hx|]; auto. exfalso.
    apply HK in Hx. destruct Hx as (e & Hin & Hv). unfold usable in Hin. apply filter_In in Hin as [Hin _].
    apply in_map_iff in Hin as ([[u v] w] & <- & Hin). simpl in Hv. destruct (He u v w Hin). lia. }
  assert (HW : forall e, In e (accepted (adds edges ++ [OpFreeze])) -> e_weight e <= M).
  { intros e Hin. rewrite adds_accepted in Hin. unfold usable in Hin. apply filter_In in Hin as [Hin _].
    apply in_map_iff in Hin as ([[u v] w] & <- & Hin). simpl. destruct (He u v w Hin). lia. }
  assert (Hnn : ig_num_nodes ig * ig_num_nodes ig <= 250000) by nia.
  assert (Hh : 250000 <= umax c / 2) by (apply N.div_le_lower_bound; lia).
  destruct (C60_prepare_succeeds c _ ig M bin_heap bh_inv bin_pq bp_inv params_default Hd HF bin_heap_laws bin_pq_laws)
    as (fg & Ep); auto.
  { repeat split; [|lia|lia].
    assert ((ig_num_nodes ig - 1) * M <= 499 * M) by (apply N.mul_le_mono_r; lia). lia. }
  { lia. }
  change (prepare_with_params c bin_heap bin_pq ig params_default) with (prepare c bin_heap bin_pq ig) in Ep.
  assert (HP : prepared_unlimited c ig fg).
  { left. exists params_default. split; [simpl; lia|apply prepare_prepared; auto]. }
  rewrite HK in Hs, Ht.
  destruct (C60_query_succeeds c _ ig fg M 0 0 bin_heap bh_inv (create_calculator c fg) [(s, 0)] [(t, 0)] Hd HF HP bin_heap_laws)
    as (pc' & r & Er); auto; try discriminate.
  - constructor. refine (ok_n _ _ _ _ (prepared_ok c _ ig fg Hd HF _)).
    left. exists params_default. apply prepare_prepared; auto.
  - intros v w [H|[]]. injection H as <- <-. split; auto. right. lia.
  - intros v w [H|[]]. injection H as <- <-. split; auto. right. lia.
  - assert (2 * (ig_num_nodes ig - 1) * ((ig_num_nodes ig - 1) * M) <= 498002 * M); [|lia].
    replace (2 * (ig_num_nodes ig - 1) * ((ig_num_nodes ig - 1) * M)) with (2 * ((ig_num_nodes ig - 1) * (ig_num_nodes ig - 1)) * M) by lia.
    apply N.mul_le_mono_r. nia.
  - assert (Ec : calc_path c bin_heap fg s t = Ok r).
    { unfold calc_path, pc_calc_path. rewrite Er. reflexivity. }
    exists r. split.
    + rewrite Ei. cbn [bind]. rewrite Ep. cbn [bind]. exact Ec.
    + rewrite (C15_input_graph_agrees _ _ _ _ Ei). cbn [bind].
      change (prepare (unchecked c)) with (fun H Q ig => prepare_with_params (unchecked c) H Q ig params_default). cbv beta.
      rewrite (C15_prepare_agrees c bin_heap bin_pq ig params_default fg Ep). cbn [bind].
      apply C15_calc_path_agrees. exact Ec.
Qed.

Lemma C60_default500_proof : forall c ops ig M H hinv Q qinv,
  debug_build c = true -> frozen_graph c ops ig -> heap_laws H hinv -> pq_laws Q qinv ->
  ig_num_nodes ig <= 500 -> (forall e, In e (accepted ops) -> e_weight e <= M) ->
  1996 * M <= umax c -> 500000 <= umax c ->
  exists fg, prepare c H Q ig = Ok fg.
Proof.
  intros c ops ig M H hinv Q qinv Hd HF HL QL Hn HW HM Hu.
  assert (Hnn : ig_num_nodes ig * ig_num_nodes ig <= 250000) by nia.
  assert (Hh : 250000 <= umax c / 2) by (apply N.div_le_lower_bound; lia).
  apply (C60_prepare_succeeds c ops ig M H hinv Q qinv params_default); auto; [|lia].
  repeat split; [|lia|lia].
  assert ((ig_num_nodes ig - 1) * M <= 499 * M) by (apply N.mul_le_mono_r; lia). lia.
Qed.

(** Building and preparing: the common part of the programs. *)
Lemma build_outcomes c edges : debug_build c = true -> usize_edges c edges ->
  (exists ig, ig_run c ig_new (adds edges ++ [OpFreeze]) = Ok ig /\ frozen_graph c (adds edges ++ [OpFreeze]) ig) \/
  ig_run c ig_new (adds edges ++ [OpFreeze]) = Panic POverflow \/
  ig_run c ig_new (adds edges ++ [OpFreeze]) = Panic PCapacity.
Proof.
  intros Hd He. destruct (run_adds c edges Hd ig_new eq_refl) as [(g & E & Hg)|[E|E]].
  2,3: right; rewrite ig_run_app, E; cbn [bind]; auto.
  destruct (run_freeze c edges g E Hg) as (ig & Ei & Hf). left. exists ig. split; auto.
  split; [apply adds_repr; auto|auto].
Qed.

Lemma prepare_outcomes c ops ig : debug_build c = true -> frozen_graph c ops ig ->
  (exists fg, prepare c bin_heap bin_pq ig = Ok fg /\ prepared c ig fg) \/
  prepare c bin_heap bin_pq ig = Panic POverflow \/ prepare c bin_heap bin_pq ig = Panic PCapacity.
Proof.
  intros Hd HF.
  destruct (C13_prepare_is_safe c _ ig bin_heap bh_inv bin_pq bp_inv params_default Hd HF bin_heap_laws bin_pq_laws)
    as [(fg & Ep)|[Ep|Ep]]; auto.
  left. exists fg. split; auto. left. exists params_default. apply prepare_prepared; auto.
Qed.

Lemma calculator_step c n pc fg ss ts pc' r : calculator c n pc ->
  pc_calc_path_multiple c bin_heap pc fg ss ts = Ok (pc', r) -> calculator c n pc'.
Proof. intros H E. exact (calculator_multi c n bin_heap bh_inv pc fg ss ts pc' r H bin_heap_laws E). Qed.

Lemma multi_right c edges ig fg n pc ss ts pc' r : debug_build c = true ->
  frozen_graph c (adds edges ++ [OpFreeze]) ig -> prepared c ig fg -> calculator c n pc ->
  pc_calc_path_multiple c bin_heap pc fg ss ts = Ok (pc', r) -> right_answer c edges (ss, ts) r.
Proof.
  intros Hd HF HP HC E.
  assert (HA : answer_multi c fg ss ts r).
  { exists bin_heap, bh_inv. split; [exact bin_heap_laws|]. right. exists n, pc, pc'. auto. }
  pose proof (C04_multi_minimum c _ ig fg ss ts r Hd HF HP HA) as H4. rewrite adds_accepted in H4.
  destruct r as [p|]; simpl; auto. destruct H4 as (_ & _ & H4). split; auto.
  destruct (C05_multi_decomposition c _ ig fg ss ts p Hd HF HP HA) as (sw & tw & W & H1 & H2 & _ & _ & H3 & H5).
  apply (frozen_walk c _ ig _ _ _ _ HF) in H3. rewrite adds_accepted in H3. exists sw, tw, W. auto.
Qed.

Lemma C87_batch_proof : forall c edges queries, debug_build c = true -> 1 <= umax c -> usize_edges c edges ->
  match readme_batch c edges queries with
  | Ok rs => Forall2 (right_answer c edges) queries rs /\ (forall q msg, In q queries -> ~ not_allowed edges q msg)
  | Panic r => r = POverflow \/ r = PCapacity \/ exists q msg, In q queries /\ not_allowed edges q msg /\ r = PAssert msg
  | Diverge => False
  end.
Proof.
  intros c edges queries Hd Hu He. unfold readme_batch. fold (adds edges).
  destruct (build_outcomes c edges Hd He) as [(ig & E & HF)|[E|E]]; rewrite E; cbn [bind]; auto.
  destruct (prepare_outcomes c _ ig Hd HF) as [(fg & Ep & HP)|[Ep|Ep]]; rewrite Ep; cbn [bind]; auto.
  assert (Hn : fg_get_num_nodes fg = ig_num_nodes ig) by exact (ok_n _ _ _ _ (prepared_ok c _ ig fg Hd HF HP)).
  pose proof (fun v => known_iff c edges ig v Hd HF) as HK.
  assert (HC : calculator c (ig_num_nodes ig) (create_calculator c fg)) by (constructor; auto).
  revert HC. generalize (create_calculator c fg).
  induction queries as [|[ss ts] rest IH]; intros pc HC; cbn [run_batch]; [split; [constructor|intros q msg []]|].
  destruct (C12_misuse_is_rejected c _ pc fg bin_heap ss ts HC) as (_ & HM). specialize (HM Hn).
  destruct HM as (M1 & M2 & M3 & M4).
  assert (Hnil : forall l : list (N * N), l = [] \/ l <> []) by (intros [|a l]; [auto|right; discriminate]).
  destruct (Hnil ss) as [->|N1].
  { rewrite M1 by auto. cbn [bind]. right. right. eexists _, _. split; [left; reflexivity|]. split; [constructor|reflexivity]. }
  destruct (Hnil ts) as [->|N2].
  { rewrite M2 by auto. cbn [bind]. right. right. eexists _, _. split; [left; reflexivity|]. split; [constructor|reflexivity]. }
  assert (Hdec : forall l : list (N * N), (exists v w, In (v, w) l /\ ig_num_nodes ig <= v) \/
                                          (forall v w, In (v, w) l -> v < ig_num_nodes ig)).
  { clear. induction l as [|[v w] l IH].
    - right. intros v w [].
    - destruct (N.lt_ge_cases v (ig_num_nodes ig)) as [Hv|Hv]; [|left; exists v, w; simpl; auto].
      destruct IH as [(v' & w' & H1 & H2)|IH]; [left; exists v', w'; simpl; auto|].
      right. intros v' w' [H|H]; [congruence|eauto]. }
  destruct (Hdec ss) as [(v & w & H1 & H2)|Hs].
  { rewrite M3 by (eauto). cbn [bind]. right. right. eexists _, _. split; [left; reflexivity|].
    split; [apply (bad_start edges ss ts v w); auto; rewrite HK; lia|reflexivity]. }
  destruct (Hdec ts) as [(v & w & H1 & H2)|Ht].
  { rewrite M4 by (eauto). cbn [bind]. right. right. eexists _, _. split; [left; reflexivity|].
    split; [apply (bad_end edges ss ts v w); auto; rewrite HK; lia|reflexivity]. }
  destruct (C12_proper_use_is_safe c _ ig fg bin_heap bh_inv pc ss ts Hu HF HP bin_heap_laws HC N1 N2 Hs Ht)
    as [(pc' & r & Er)|(_ & Er)]; rewrite Er; cbn [bind]; auto.
  specialize (IH pc' (calculator_step _ _ _ _ _ _ _ _ HC Er)).
  destruct (run_batch c pc' fg rest) as [rs|x|]; cbn [bind]; auto.
  - destruct IH as [IH1 IH2]. split; [constructor; auto; eapply multi_right; eauto|].
    intros q msg [<-|Hq] HX; [|exact (IH2 q msg Hq HX)]. inversion HX; subst; try congruence.
    + match goal with X : ~ known _ _ |- _ => rewrite HK in X; apply X end. eauto.
    + match goal with X : ~ known _ _ |- _ => rewrite HK in X; apply X end. eauto.
  - destruct IH as [IH|[IH|(q & msg & H1 & H2)]]; auto. right. right. exists q, msg. simpl. auto.
Qed.

Lemma C87_update_proof : forall c edges edges' s t, debug_build c = true -> 1 <= umax c ->
  usize_edges c edges -> usize_edges c edges' ->
  match readme_update c edges edges' s t with
  | Ok (inl r) => (forall v, known edges v <-> known edges' v) /\ known edges' s /\ known edges' t /\
                  right_answer c edges' ([(s, 0)], [(t, 0)]) r
  | Ok (inr _) => ~ (forall v, known edges v <-> known edges' v)
  | Panic r => r = POverflow \/ r = PCapacity \/
      (r = PAssert "invalid start node" /\ ~ known edges' s) \/
      (r = PAssert "invalid end node" /\ known edges' s /\ ~ known edges' t)
  | Diverge => False
  end.
Proof.
  intros c edges edges' s t Hd Hu He He'. unfold readme_update. fold (adds edges) (adds edges').
  destruct (build_outcomes c edges Hd He) as [(ig & E & HF)|[E|E]]; rewrite E; cbn [bind]; auto.
  destruct (prepare_outcomes c _ ig Hd HF) as [(fg & Ep & HP)|[Ep|Ep]]; rewrite Ep; cbn [bind]; auto.
  destruct (C10_ordering_is_permutation c _ ig fg Hu HF HP) as (order & Eo & Po). rewrite Eo. cbn [bind].
  destruct (build_outcomes c edges' Hd He') as [(ig' & E' & HF')|[E'|E']]; rewrite E'; cbn [bind]; auto.
  pose proof (fun v => known_iff c edges ig v Hd HF) as HK.
  pose proof (fun v => known_iff c edges' ig' v Hd HF') as HK'.
  assert (Hsame : (forall v, known edges v <-> known edges' v) <-> ig_num_nodes ig = ig_num_nodes ig').
  { split.
    - intros Hv. pose proof (Hv (ig_num_nodes ig)) as A. pose proof (Hv (ig_num_nodes ig')) as B.
      rewrite HK, HK' in A, B. lia.
    - intros Hn v. rewrite HK, HK', Hn. tauto. }
  change (prepare_with_order c bin_heap ig' order)
    with (prepare_with_order_with_params c bin_heap ig' order params_with_order_default).
  destruct (N.eq_dec (lenN order) (ig_num_nodes ig')) as [Hl|Hl].
  2:{ destruct (proj2 (C09_error_iff_wrong_length c _ ig' bin_heap order params_with_order_default HF') Hl) as (msg & Em).
      rewrite Em. cbn [bind]. rewrite Hsame. intros Hn. apply Hl. rewrite <- Hn. apply perm_len; auto. }
  assert (Hn : ig_num_nodes ig' = ig_num_nodes ig).
  { rewrite <- Hl. apply perm_len; auto. }
  destruct (C10_ordering_can_be_reused c _ ig fg order _ ig' bin_heap bh_inv params_with_order_default Hd HF HP Eo HF' Hn
              bin_heap_laws) as [(fg' & Ef & _)|[Ef|Ef]]; rewrite Ef; cbn [bind]; auto.
  assert (HP' : prepared c ig' fg').
  { right. exists order, params_with_order_default. rewrite Hn. split; auto.
    exists bin_heap, bh_inv. split; [exact bin_heap_laws|exact Ef]. }
  destruct (C12_calc_path_is_safe c _ ig' fg' bin_heap bh_inv s t Hu HF' HP' bin_heap_laws) as (H1 & H2 & H3).
  destruct (N.lt_ge_cases s (ig_num_nodes ig')) as [Hs|Hs].
  2:{ rewrite (H2 Hs). cbn [bind]. right. right. left. split; auto. rewrite HK'. lia. }
  destruct (N.lt_ge_cases t (ig_num_nodes ig')) as [Ht|Ht].
  2:{ rewrite (H3 Hs Ht). cbn [bind]. right. right. right. split; auto. rewrite !HK'. split; [auto|lia]. }
  destruct (H1 Hs Ht) as [(r & Er)|(_ & Er)]; rewrite Er; cbn [bind]; auto.
  rewrite Hsame, !HK'. split; [auto|]. split; [auto|]. split; [auto|].
  unfold calc_path, pc_calc_path in Er.
  destruct (pc_calc_path_multiple c bin_heap (create_calculator c fg') fg' [(s, 0)] [(t, 0)]) as [[pc' r']|x|] eqn:Em;
    cbn [bind] in Er; try discriminate. injection Er as ->.
  eapply (multi_right c edges' ig' fg' (fg_get_num_nodes fg')); eauto. constructor; auto.
Qed.

(** Small graphs are built and prepared. *)
Lemma small_build c edges M : debug_build c = true -> 500000 <= umax c ->
  (forall u v w, In (u, v, w) edges -> u < 500 /\ v < 500 /\ w <= M) ->
  1996 * M <= umax c -> lenN edges <= umax c / 2 ->
  exists ig fg, ig_run c ig_new (adds edges ++ [OpFreeze]) = Ok ig /\ prepare c bin_heap bin_pq ig = Ok fg /\
    frozen_graph c (adds edges ++ [OpFreeze]) ig /\ prepared_unlimited c ig fg /\ prepared c ig fg /\
    ig_num_nodes ig <= 500 /\ (forall e, In e (accepted (adds edges ++ [OpFreeze])) -> e_weight e <= M) /\
    (forall v, known edges v <-> v < ig_num_nodes ig).
Proof.
  intros Hd Hu He HM Hl.
  destruct (run_adds_ok c edges) with (g := ig_new) as (g & E & Hg); auto.
  { intros u v w Hin. destruct (He u v w Hin). lia. }
  destruct (run_freeze c edges g E Hg) as (ig & Ei & Hf).
  assert (HF : frozen_graph c (adds edges ++ [OpFreeze]) ig).
  { split; [|auto]. apply adds_repr. intros u v w Hin. destruct (He u v w Hin). lia. }
  pose proof (fun v => known_iff c edges ig v Hd HF) as HK.
  assert (Hn : ig_num_nodes ig <= 500).
  { destruct (N.lt_ge_cases 500 (ig_num_nodes ig)) as [Hx|]; auto. exfalso.
    apply HK in Hx. destruct Hx as (e & Hin & Hv). unfold usable in Hin. apply filter_In in Hin as [Hin _].
    apply in_map_iff in Hin as ([[u v] w] & <- & Hin). simpl in Hv. destruct (He u v w Hin). lia. }
  assert (HW : forall e, In e (accepted (adds edges ++ [OpFreeze])) -> e_weight e <= M).
  { intros e Hin. rewrite adds_accepted in Hin. unfold usable in Hin. apply filter_In in Hin as [Hin _].
    apply in_map_iff in Hin as ([[u v] w] & <- & Hin). simpl. destruct (He u v w Hin). lia. }
  destruct (C60_default500_proof c _ ig M bin_heap bh_inv bin_pq bp_inv Hd HF bin_heap_laws bin_pq_laws Hn HW HM Hu) as (fg & Ep).
  exists ig, fg. split; [exact Ei|]. split; [exact Ep|]. split; [exact HF|].
  split; [left; exists params_default; split; [simpl; lia|apply prepare_prepared; auto]|].
  split; [left; exists params_default; apply prepare_prepared; auto|]. auto.
Qed.

Lemma C87_batch_returns_proof : forall c edges queries M K, debug_build c = true -> 500000 <= umax c ->
  (forall u v w, In (u, v, w) edges -> u < 500 /\ v < 500 /\ w <= M) ->
  (forall ss ts v w, In (ss, ts) queries -> In (v, w) ss \/ In (v, w) ts -> w <= K) ->
  498002 * M + 2 * K <= umax c -> lenN edges <= umax c / 2 ->
  (forall q msg, In q queries -> ~ not_allowed edges q msg) ->
  exists rs, readme_batch c edges queries = Ok rs /\ readme_batch (unchecked c) edges queries = Ok rs.
Proof.
  intros c edges queries M K Hd Hu He HKw HM Hl Hq.
  destruct (small_build c edges M Hd Hu He) as (ig & fg & Ei & Ep & HF & HPU & HP & Hn & HW & HK); auto; try lia.
  unfold readme_batch. fold (adds edges). rewrite Ei, (C15_input_graph_agrees _ _ _ _ Ei). cbn [bind].
  change (prepare (unchecked c)) with (fun H Q ig => prepare_with_params (unchecked c) H Q ig params_default). cbv beta.
  change (prepare c bin_heap bin_pq ig) with (prepare_with_params c bin_heap bin_pq ig params_default) in Ep.
  rewrite (C15_prepare_agrees c bin_heap bin_pq ig params_default fg Ep). cbn [bind].
  change (prepare c) with (fun H Q ig => prepare_with_params c H Q ig params_default). cbv beta. rewrite Ep. cbn [bind].
  assert (Hnn : fg_get_num_nodes fg = ig_num_nodes ig) by exact (ok_n _ _ _ _ (prepared_ok c _ ig fg Hd HF HP)).
  assert (HC : calculator c (ig_num_nodes ig) (create_calculator c fg)) by (constructor; auto).
  change (create_calculator (unchecked c) fg) with (create_calculator c fg).
  revert HC. generalize (create_calculator c fg).
  induction queries as [|[ss ts] rest IH]; intros pc HC; cbn [run_batch]; [eauto|].
  destruct (C60_query_succeeds c _ ig fg M K K bin_heap bh_inv pc ss ts Hd HF HPU bin_heap_laws HC) as (pc' & r & Er); auto.
  { intros ->. exact (Hq _ _ (or_introl eq_refl) (no_start edges ts)). }
  { intros ->. exact (Hq _ _ (or_introl eq_refl) (no_end edges ss)). }
  { intros v w Hin. split; [|right; apply (HKw ss ts v w); simpl; auto].
    destruct (N.lt_ge_cases v (ig_num_nodes ig)) as [|Hx]; auto. exfalso.
    apply (Hq _ _ (or_introl eq_refl) (bad_start edges ss ts v w Hin ltac:(rewrite HK; lia))). }
  { intros v w Hin. split; [|right; apply (HKw ss ts v w); simpl; auto].
    destruct (N.lt_ge_cases v (ig_num_nodes ig)) as [|Hx]; auto. exfalso.
    apply (Hq _ _ (or_introl eq_refl) (bad_end edges ss ts v w Hin ltac:(rewrite HK; lia))). }
  { assert (2 * (ig_num_nodes ig - 1) * ((ig_num_nodes ig - 1) * M) <= 498002 * M); [|lia].
    replace (2 * (ig_num_nodes ig - 1) * ((ig_num_nodes ig - 1) * M)) with (2 * ((ig_num_nodes ig - 1) * (ig_num_nodes ig - 1)) * M) by lia.
    apply N.mul_le_mono_r. nia. }
  destruct (IH ltac:(intros; eapply HKw; simpl; eauto) ltac:(intros; eapply Hq; simpl; eauto) pc'
              (calculator_step _ _ _ _ _ _ _ _ HC Er)) as (rs & E1 & E2).
  exists (r :: rs). rewrite Er, (C15_query_agrees _ _ _ _ _ _ _ Er). cbn [bind]. rewrite E1, E2. split; reflexivity.
Qed.

Lemma C87_update_returns_proof : forall c edges edges' M s t, debug_build c = true -> 500000 <= umax c ->
  (forall u v w, In (u, v, w) edges \/ In (u, v, w) edges' -> u < 100 /\ v < 100 /\ w <= M) ->
  19602 * M <= umax c -> lenN edges <= umax c / 2 -> lenN edges' <= umax c / 2 ->
  (forall v, known edges v <-> known edges' v) -> known edges' s -> known edges' t ->
  exists r, readme_update c edges edges' s t = Ok (inl r) /\ readme_update (unchecked c) edges edges' s t = Ok (inl r).
Proof.
  intros c edges edges' M s t Hd Hu He HM Hl Hl' Hsame Hs Ht.
  destruct (small_build c edges M Hd Hu) as (ig & fg & Ei & Ep & HF & HPU & HP & Hn & HW & HK); auto; try lia.
  { intros u v w Hin. destruct (He u v w (or_introl Hin)). lia. }
  destruct (small_build c edges' M Hd Hu) as (ig' & fg0 & Ei' & _ & HF' & _ & _ & _ & HW' & HK'); auto; try lia.
  { intros u v w Hin. destruct (He u v w (or_intror Hin)). lia. }
  assert (Hn' : ig_num_nodes ig' <= 100).
  { destruct (N.lt_ge_cases 100 (ig_num_nodes ig')) as [Hx|]; auto. exfalso.
    apply HK' in Hx. destruct Hx as (e & Hin & Hv). unfold usable in Hin. apply filter_In in Hin as [Hin _].
    apply in_map_iff in Hin as ([[u v] w] & <- & Hin). simpl in Hv. destruct (He u v w (or_intror Hin)). lia. }
  assert (Hnn : ig_num_nodes ig = ig_num_nodes ig').
  { pose proof (Hsame (ig_num_nodes ig)) as A. pose proof (Hsame (ig_num_nodes ig')) as B. rewrite HK, HK' in A, B. lia. }
  rewrite HK' in Hs, Ht.
  destruct (C10_ordering_is_permutation c _ ig fg ltac:(lia) HF HP) as (order & Eo & Po).
  rewrite Hnn in Po.
  destruct (C60_prepare_with_order_succeeds c _ ig' M bin_heap bh_inv order params_with_order_default Hd HF' bin_heap_laws Po)
    as (fg' & Ef); [exact Hn'|exact HW'| |].
  { assert (Hh : 10000 <= umax c / 2) by (apply N.div_le_lower_bound; lia).
    assert (ig_num_nodes ig' * ig_num_nodes ig' <= 10000) by nia.
    assert ((ig_num_nodes ig' - 1) * M <= 99 * M) by (apply N.mul_le_mono_r; lia).
    repeat split; lia. }
  assert (HP' : prepared_unlimited c ig' fg').
  { right. exists order, params_with_order_default. split; auto. split; [simpl; lia|].
    exists bin_heap, bh_inv. split; [exact bin_heap_laws|exact Ef]. }
  assert (Hf : fg_get_num_nodes fg' = ig_num_nodes ig').
  { refine (ok_n _ _ _ _ (prepared_ok c _ ig' fg' Hd HF' _)). right. exists order, params_with_order_default.
    split; auto. exists bin_heap, bh_inv. split; [exact bin_heap_laws|exact Ef]. }
  destruct (C60_query_succeeds c _ ig' fg' M 0 0 bin_heap bh_inv (create_calculator c fg') [(s, 0)] [(t, 0)] Hd HF' HP' bin_heap_laws)
    as (pc' & r & Er); auto; try discriminate.
  - constructor; auto.
  - intros v w [H|[]]. injection H as <- <-. split; auto. right. lia.
  - intros v w [H|[]]. injection H as <- <-. split; auto. right. lia.
  - assert (2 * (ig_num_nodes ig' - 1) * ((ig_num_nodes ig' - 1) * M) <= 19602 * M); [|lia].
    replace (2 * (ig_num_nodes ig' - 1) * ((ig_num_nodes ig' - 1) * M)) with (2 * ((ig_num_nodes ig' - 1) * (ig_num_nodes ig' - 1)) * M) by lia.
    apply N.mul_le_mono_r. nia.
  - assert (Ec : calc_path c bin_heap fg' s t = Ok r) by (unfold calc_path, pc_calc_path; rewrite Er; reflexivity).
    exists r. unfold readme_update. fold (adds edges) (adds edges').
    rewrite Ei, (C15_input_graph_agrees _ _ _ _ Ei). cbn [bind].
    change (prepare (unchecked c)) with (fun H Q ig => prepare_with_params (unchecked c) H Q ig params_default).
    change (prepare c) with (fun H Q ig => prepare_with_params c H Q ig params_default) in Ep |- *. cbv beta in Ep |- *.
    rewrite Ep, (C15_prepare_agrees _ _ _ _ _ _ Ep). cbn [bind]. rewrite Eo. cbn [bind].
    rewrite Ei', (C15_input_graph_agrees _ _ _ _ Ei'). cbn [bind].
    change (prepare_with_order (unchecked c) bin_heap ig' order)
      with (prepare_with_order_with_params (unchecked c) bin_heap ig' order params_with_order_default).
    change (prepare_with_order c bin_heap ig' order)
      with (prepare_with_order_with_params c bin_heap ig' order params_with_order_default).
    rewrite Ef, (C15_prepare_with_order_agrees _ _ _ _ _ _ Ef). cbn [bind].
    rewrite Ec, (C15_calc_path_agrees _ _ _ _ _ _ Ec). split; reflexivity.
Qed.

Lemma C87_release_proof : forall c edges B s t, debug_build c = false -> usize_edges c edges ->
  (forall u v w, In (u, v, w) edges -> u < B /\ v < B) -> B * B <= umax c / 2 -> B + 1 <= umax c / 2 ->
  lenN edges <= umax c / 2 -> known edges s -> known edges t ->
  exists r, readme_program c edges s t = Ok r /\
    forall p, r = Some p -> sp_get_source p = s /\ sp_get_target p = t /\ exists W, walk (usable edges) s t (sp_get_nodes p) W.
Proof.
  intros c edges B s t Hd He HB H2 H3 Hl Hs Ht.
  assert (Hu2 : umax c / 2 <= umax c) by (apply N.div_le_upper_bound; lia).
  assert (HB' : forall u v w, In (u, v, w) edges -> u < umax c /\ v < umax c).
  { intros u v w Hin. destruct (HB u v w Hin). lia. }
  destruct (run_adds_ok c edges HB') with (g := ig_new) as (g & E & Hg); auto.
  destruct (run_freeze c edges g E Hg) as (ig & Ei & Hf).
  assert (HF : frozen_graph c (adds edges ++ [OpFreeze]) ig).
  { split; [|auto]. apply adds_repr. auto. }
  pose proof (fun v => known_count c edges ig v (or_intror HB') HF) as HK.
  assert (Hn : ig_num_nodes ig <= B).
  { destruct (N.lt_ge_cases B (ig_num_nodes ig)) as [Hx|]; auto. exfalso.
    apply HK in Hx. destruct Hx as (e & Hin & Hv). unfold usable in Hin. apply filter_In in Hin as [Hin _].
    apply in_map_iff in Hin as ([[u v] w] & <- & Hin). simpl in Hv. destruct (HB u v w Hin). lia. }
  destruct (C69_release_preparation_returns c (adds edges ++ [OpFreeze]) ig bin_heap bh_inv bin_pq bp_inv Hd) as (HP & _); auto.
  { intros e Hin. rewrite adds_accepted in Hin. unfold usable in Hin. apply filter_In in Hin as [Hin _].
    apply in_map_iff in Hin as ([[u v] w] & <- & Hin). exact (HB' u v w Hin). }
  { nia. }
  { lia. }
  { exact bin_heap_laws. }
  { exact bin_pq_laws. }
  destruct (HP params_default) as (fg & Ep).
  assert (Hp : prepared c ig fg) by (left; exists params_default; apply prepare_prepared; exact Ep).
  rewrite HK in Hs, Ht. unfold readme_program. fold (adds edges). rewrite Ei. cbn [bind].
  change (prepare c) with (fun H Q ig => prepare_with_params c H Q ig params_default). cbv beta. rewrite Ep. cbn [bind].
  assert (Hu1 : 1 <= umax c) by lia.
  assert (Hnn : fg_get_num_nodes fg = ig_num_nodes ig)
    by exact (fs_n _ _ _ _ (shape_str _ _ _ _ (prepared_shape c _ ig fg Hu1 HF Hp))).
  destruct (C69_release_answers_are_paths c _ ig fg bin_heap bh_inv (create_calculator c fg) [(s, 0)] [(t, 0)] Hd Hu1 HF Hp
              bin_heap_laws) as (pc' & r & E1 & _ & HR); try discriminate.
  { constructor. exact Hnn. }
  { intros v w [H|[H|[]]]; injection H as <- <-; auto. }
  exists r. split; [unfold calc_path, pc_calc_path; rewrite E1; reflexivity|].
  intros p Hr. destruct (HR p Hr) as ((w1 & [H4|[]]) & (w2 & [H5|[]]) & W & HW). rewrite adds_accepted in HW.
  injection H4 as -> _. injection H5 as -> _. eauto.
Qed.
