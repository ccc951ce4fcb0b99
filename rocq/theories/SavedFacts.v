(** * SavedFacts: saving and loading does not change what the README's program computes *)
From Verif Require Export FloydFacts Rel32Facts PropMeta PropSerial ProgramFacts SpecSaved.
From Verif Require Import SpecShortcut.
From Coq Require Import Lia.
Open Scope N_scope.

Lemma C88_saved_proof : forall c edges s t, platform c -> 1 <= umax c -> usize_edges c edges ->
  readme_saved c edges s t = (r <- readme_program c edges s t ;; Ok (inr r)).
Proof.
  intros c edges s t Hp Hu He. unfold readme_saved, readme_program. fold (adds edges).
  destruct (ig_run c ig_new (adds edges ++ [OpFreeze])) as [ig|x|] eqn:E; cbn [bind]; auto.
  destruct (prepare c bin_heap bin_pq ig) as [fg|x|] eqn:Ep; cbn [bind]; auto.
  assert (HF : frozen_graph c (adds edges ++ [OpFreeze]) ig).
  { split; [apply adds_repr; auto|]. split; auto. rewrite ig_run_app in E.
    destruct (ig_run c ig_new (adds edges)) as [g|x|]; cbn [bind] in E; try discriminate.
    unfold ig_run in E. simpl in E. destruct (ig_freeze g) as [g'|x|] eqn:Ef; cbn [bind] in E; try discriminate.
    injection E as <-. unfold ig_freeze in Ef. destruct (ig_frozen g); try discriminate. cbn in Ef.
    injection Ef as <-. reflexivity. }
  assert (HP : prepared c ig fg) by (left; exists params_default; apply prepare_prepared; auto).
  rewrite (C44_prepared_graph c _ ig fg Hp Hu HF HP). reflexivity.
Qed.

Lemma edge_stored fg e : In e (all_edges fg) -> exists u v, stored_edge fg u v (fe_weight e).
Proof.
  intros He. unfold all_edges in He. apply in_app_iff in He. unfold stored_edge, stored. destruct He as [He|He].
  - exists (fe_base e), (fe_adj e). left. apply in_map_iff. exists e. auto.
  - exists (fe_adj e), (fe_base e). right. apply in_map_iff. exists e. auto.
Qed.

(** A walk in a small graph can be replaced by one that is not heavier and light. *)
Lemma light_walk E n M s t ns W : (forall u v w, In (mkEdge u v w) E -> u < n /\ v < n /\ 1 <= w <= M) ->
  s < n -> walk E s t ns W -> exists ns' W', walk E s t ns' W' /\ W' <= (n - 1) * M.
Proof.
  intros HE Hs HW.
  destruct (simple_walk E) with (k := S (N.to_nat W)) (u := s) (v := t) (ns := ns) (W := W) as (ns' & W' & HW' & HND & _); auto.
  { intros u v w Hin. apply HE in Hin. lia. }
  exists ns', W'. split; auto.
  assert (HM : forall e, In e E -> e_weight e <= M) by (intros [u v w] Hin; apply HE in Hin; simpl; lia).
  pose proof (walk_len_bound _ _ HM _ _ _ _ HW') as HB.
  assert (lenN ns' <= n) as HL; [|nia].
  apply NoDup_bounded_len; auto. apply (walk_nodes n E) with (u := s) (v := t) (W := W'); auto.
  intros u v w Hin. apply HE in Hin. tauto.
Qed.

(** From a 64-bit build to a 32-bit build, both with overflow checks, and the same without. *)
Lemma wasm_core c c' edges M s t : platform64 c -> debug_build c = true -> platform32 c' -> debug_build c' = true ->
  (forall u v w, In (u, v, w) edges -> u < 500 /\ v < 500 /\ w <= M) -> 498002 * M <= 2 ^ 32 - 1 ->
  lenN edges <= 2 ^ 62 -> known edges s -> known edges t ->
  exists ig fg bytes fg' r,
    ig_run c ig_new (adds edges ++ [OpFreeze]) = Ok ig /\ prepare c bin_heap bin_pq ig = Ok fg /\
    save_to_disk32 c fg = Ok bytes /\ save_to_disk32 (unchecked c) fg = Ok bytes /\
    load_from_disk32 c' bytes = Ok (inr fg') /\ load_from_disk32 (unchecked c') bytes = Ok (inr fg') /\
    calc_path c' bin_heap fg' s t = Ok r /\
    match r with
    | Some p =>
        sp_get_source p = s /\ sp_get_target p = t /\ walk (usable edges) s t (sp_get_nodes p) (sp_get_weight p) /\
        (forall ns W, walk (usable edges) s t ns W -> sp_get_weight p <= W)
    | None => forall ns W, ~ walk (usable edges) s t ns W
    end.
Proof.
  intros Hc Hd Hc' Hd' He HM Hl Hs Ht.
  assert (Hcu : umax c = 18446744073709551615) by exact Hc.
  assert (Hcu' : umax c' = 4294967295) by exact Hc'.
  change (2 ^ 32 - 1) with 4294967295 in HM.
  assert (Hl2 : lenN edges <= umax c / 2).
  { rewrite Hcu. etransitivity; [exact Hl|]. vm_compute. discriminate. }
  destruct (small_build c edges M Hd) as (ig & fg & Ei & Ep & Hf & Hpu & Hp & Hn & HW & HK); auto; try lia.
  rewrite HK in Hs, Ht.
  pose proof (prepared_ok c _ ig fg Hd Hf Hp) as Hok.
  pose proof (ok_n _ _ _ _ Hok) as Hnn.
  assert (HMn : (ig_num_nodes ig - 1) * M <= 499 * M) by (apply N.mul_le_mono_r; lia).
  assert (HXw : forall e, In e (all_edges fg) -> fe_weight e <= (ig_num_nodes ig - 1) * M).
  { intros e Hin. apply edge_stored in Hin as (u & v & Hin).
    exact (C60_stored_weights c _ ig fg M u v _ Hd Hf Hpu HW Hin). }
  destruct (C55_number_of_edges c _ ig fg ltac:(lia) Hf Hp) as [Ho Hi].
  assert (Hnn2 : ig_num_nodes ig * (ig_num_nodes ig - 1) <= 250000) by nia.
  assert (HV : values_below u32_max fg).
  { unfold values_below, u32_max. unfold fg_get_num_nodes in *. rewrite Hnn. split; [lia|]. split; [lia|]. split; [lia|].
    intros e Hin. specialize (HXw e Hin). lia. }
  assert (Hc2 := Hc). apply p64 in Hc2. destruct Hc2 as [Hc2 Hc3].
  assert (umax c' = u32_max) as Hu by exact Hc'.
  assert (umax c' / 2 = 2147483647) as Hu2 by (rewrite Hu; vm_compute; reflexivity).
  unfold fg_get_num_nodes, fg_get_num_out_edges, fg_get_num_in_edges in *.
  pose proof (cross_ok c c' _ _ fg Hok HV ltac:(lia) ltac:(lia) ltac:(lia) ltac:(intros []; simpl; lia)) as Hok'.
  match type of Hok' with fg_ok _ _ _ ?f => set (fg' := f) in * end.
  assert (to_fast_graph32 c fg = Ok (to32_graph c fg)) as HT.
  { apply (graph_conv 0 c Hc2 fg). apply Forall_forall. intros x Hx.
    destruct (ints_bound _ _ _ _ _ (ok_shape _ _ _ _ Hok) HV x Hx); [right; auto|left; lia]. }
  assert (n_lt : fg_num_nodes fg < u32_max) by apply HV.
  assert (from_fast_graph32 c' (to32_graph c fg) = Ok fg') as HF1.
  { unfold from_fast_graph32. apply (convert_eq c c' fg); lia. }
  assert (from_fast_graph32 (unchecked c') (to32_graph c fg) = Ok fg') as HF2.
  { unfold from_fast_graph32. apply (convert_eq c (unchecked c') fg); unfold unchecked; cbn [umax]; lia. }
  assert (HX' : forall e, In e (fg_edges_fwd fg') \/ In e (fg_edges_bwd fg') -> fe_weight e <= (ig_num_nodes ig - 1) * M).
  { assert (HG : forall e l, (forall e, In e l -> In e (all_edges fg)) -> In e (map (back_edge c c') l) ->
      fe_weight e <= (ig_num_nodes ig - 1) * M).
    { intros e l Hl' Hi'. apply in_map_iff in Hi'. destruct Hi' as (e0 & <- & Hi'). specialize (HXw e0 (Hl' e0 Hi')).
      unfold back_edge. cbn [fe_weight]. rewrite back_lt; [exact HXw|unfold u32_max; lia|lia]. }
    intros e [Hin|Hin]; (eapply HG; [|exact Hin]); intros e1 H1; unfold all_edges; apply in_or_app; auto. }
  assert (HB : 0 + 0 + 2 * (ig_num_nodes ig - 1) * ((ig_num_nodes ig - 1) * M) <= umax c').
  { assert (2 * (ig_num_nodes ig - 1) * ((ig_num_nodes ig - 1) * M) <= 498002 * M); [|lia].
    replace (2 * (ig_num_nodes ig - 1) * ((ig_num_nodes ig - 1) * M)) with (2 * ((ig_num_nodes ig - 1) * (ig_num_nodes ig - 1)) * M) by lia.
    apply N.mul_le_mono_r. nia. }
  assert (HCC : calculator c' (ig_num_nodes ig) (create_calculator c' fg')) by (constructor; exact (ok_n _ _ _ _ Hok')).
  destruct (ok_linear c' _ _ fg' _ 0 0 Hd' Hok' HX' HB bin_heap bh_inv (create_calculator c' fg') [(s, 0)] [(t, 0)] bin_heap_laws HCC)
    as (pc' & r & Er); try discriminate.
  { intros v w [H|[]]. injection H as <- <-. split; auto. right. lia. }
  { intros v w [H|[]]. injection H as <- <-. split; auto. right. lia. }
  exists ig, fg, (enc_fast_graph32 (to32_graph c fg)), fg', r.
  split; [exact Ei|]. split; [exact Ep|].
  split; [unfold save_to_disk32, serialize_32; rewrite HT; reflexivity|].
  split.
  { unfold save_to_disk32, serialize_32. change (to_fast_graph32 (unchecked c) fg) with (to_fast_graph32 c fg). rewrite HT. reflexivity. }
  assert (HVF : vectors_fit c' fg).
  { pose proof (ok_lf _ _ _ _ Hok Fwd) as FF. pose proof (ok_lf _ _ _ _ Hok Bwd) as FB.
    pose proof (ok_lr _ _ _ _ Hok) as HR. unfold vectors_fit. cbn [fg_first_edge_ids umax] in *. rewrite Hcu'. lia. }
  split.
  { unfold load_from_disk32. rewrite <- (app_nil_r (enc_fast_graph32 (to32_graph c fg))).
    rewrite (deserialize_32_eq c c' fg _ [] Hc (p32_platform c' Hc') HT HVF), HF1. reflexivity. }
  split.
  { unfold load_from_disk32. rewrite <- (app_nil_r (enc_fast_graph32 (to32_graph c fg))).
    rewrite (deserialize_32_eq c (unchecked c') fg _ [] Hc (p32_platform c' Hc') HT HVF), HF2. reflexivity. }
  assert (Ec : calc_path c' bin_heap fg' s t = Ok r).
  { unfold calc_path, pc_calc_path. rewrite Er. reflexivity. }
  split; [exact Ec|].
  assert (HA : answer_multi c' fg' [(s, 0)] [(t, 0)] r).
  { exists bin_heap, bh_inv. split; [exact bin_heap_laws|]. right. exists (ig_num_nodes ig), (create_calculator c' fg'), pc'. auto. }
  pose proof (answer_ok_accepted c c' _ ig _ _ r Hf (answer_fg_ok c' _ _ _ _ _ r Hd' Hok' HA)) as HR.
  rewrite adds_accepted in HR.
  assert (HT0 : forall ns W, walk (usable edges) s t ns W -> total (usable edges) [(s, 0)] [(t, 0)] s t ns W).
  { intros ns W Hw. exists 0, 0, W. split; [left; auto|]. split; [left; auto|]. split; auto. lia. }
  destruct r as [p|]; simpl in HR.
  - destruct HR as ((sw & tw & W & H1 & H2 & H3 & H4) & _ & H5).
    destruct H1 as [H1|[]]. destruct H2 as [H2|[]]. injection H1 as H1 <-. injection H2 as H2 <-.
    unfold sp_get_source, sp_get_target, sp_get_nodes, sp_get_weight in *. rewrite <- H1, <- H2 in H3.
    split; auto. split; auto. split; [|intros; eapply H5; eauto]. rewrite H4. replace (0 + W + 0) with W by lia. exact H3.
  - intros ns W Hw. rewrite adds_accepted in HW.
    destruct (light_walk (usable edges) (ig_num_nodes ig) M s t ns W) as (ns' & W' & Hw' & Hle); auto.
    { intros u v w Hin. assert (Hin2 := Hin). unfold usable in Hin2. apply filter_In in Hin2 as [_ Hb].
      apply andb_true_iff in Hb as [_ Hb]. apply N.leb_le in Hb. cbn [e_weight] in Hb.
      rewrite <- !HK. specialize (HW _ Hin). cbn [e_weight] in HW.
      split; [exists (mkEdge u v w); simpl; split; [auto|lia]|].
      split; [exists (mkEdge u v w); simpl; split; [auto|lia]|lia]. }
    specialize (HR _ _ _ _ (HT0 _ _ Hw')). unfold WEIGHT_MAX in HR. lia.
Qed.

Lemma C88_wasm_proof : forall c c' edges M s t, platform64 c -> platform32 c' ->
  (forall u v w, In (u, v, w) edges -> u < 500 /\ v < 500 /\ w <= M) -> 498002 * M <= 2 ^ 32 - 1 ->
  lenN edges <= 2 ^ 62 -> known edges s -> known edges t ->
  exists r, readme_wasm c c' edges s t = Ok (inr r) /\
    match r with
    | Some p =>
        sp_get_source p = s /\ sp_get_target p = t /\ walk (usable edges) s t (sp_get_nodes p) (sp_get_weight p) /\
        (forall ns W, walk (usable edges) s t ns W -> sp_get_weight p <= W)
    | None => forall ns W, ~ walk (usable edges) s t ns W
    end.
Proof.
  intros [u b] [u' b'] edges M s t Hc Hc' He HM Hl Hs Ht. unfold readme_wasm. fold (adds edges).
  destruct (wasm_core (mkCfg u true) (mkCfg u' true) edges M s t Hc eq_refl Hc' eq_refl He HM Hl Hs Ht)
    as (ig & fg & bytes & fg' & r & E1 & E2 & E3 & E4 & E5 & E6 & E7 & HR).
  unfold unchecked in E4, E6. cbn [umax] in E4, E6.
  pose proof (C15_input_graph_agrees _ _ _ _ E1) as F1.
  change (prepare (mkCfg u true) bin_heap bin_pq ig)
    with (prepare_with_params (mkCfg u true) bin_heap bin_pq ig params_default) in E2.
  pose proof (C15_prepare_agrees _ _ _ _ _ _ E2) as F2.
  pose proof (C15_calc_path_agrees _ _ _ _ _ _ E7) as F7.
  unfold unchecked in F1, F2, F7. cbn [umax] in F1, F2, F7.
  exists r. split; [|exact HR].
  change (prepare (mkCfg u b) bin_heap bin_pq) with (fun ig => prepare_with_params (mkCfg u b) bin_heap bin_pq ig params_default).
  cbv beta.
  destruct b, b'; rewrite ?E1, ?F1; cbn [bind]; rewrite ?E2, ?F2; cbn [bind]; rewrite ?E3, ?E4; cbn [bind];
    rewrite ?E5, ?E6; cbn [bind]; rewrite ?E7, ?F7; reflexivity.
Qed.
