(** * Rel32Facts: from a 64-bit build without overflow checks to a 32-bit build without overflow checks *)
From Verif Require Export CertFacts Fg32Props SerialProps.
From Coq Require Import Lia.
Open Scope N_scope.

Section FgOk.
  Context (c : cfg) (E : list Edge) (n : N) (fg : FastGraph) (X K1 K2 : N).
  Hypothesis Hd : debug_build c = true.
  Hypothesis Hok : fg_ok c E n fg.
  Hypothesis HX : forall e, In e (fg_edges_fwd fg) \/ In e (fg_edges_bwd fg) -> fe_weight e <= X.
  Hypothesis HB : K1 + K2 + 2 * (n - 1) * X <= umax c.

  (** queries of the checked build return *)
  Lemma ok_linear H hinv pc ss ts : heap_laws H hinv -> calculator c n pc -> ss <> [] -> ts <> [] ->
    (forall v w, In (v, w) ss -> v < n /\ (w = WEIGHT_MAX c \/ w <= K1)) ->
    (forall v w, In (v, w) ts -> v < n /\ (w = WEIGHT_MAX c \/ w <= K2)) ->
    exists pc' r, pc_calc_path_multiple c H pc fg ss ts = Ok (pc', r).
  Proof.
    intros HL Hc Hss Hts H1 H2. pose proof (calculator_ok _ _ _ Hc) as Hpc.
    assert (pc_num_nodes pc = n) as Hn by apply Hpc.
    apply (query_no_overflow c E n fg H hinv pc ss ts K1 K2 (fun r => r * X) ((n - 1) * X)); auto.
    - split; [rewrite Hn; apply (ok_n _ _ _ _ Hok)|]. split; auto. split; auto. rewrite Hn.
      split; intros v w HI; [apply (H1 v w HI)|apply (H2 v w HI)].
    - intros v w HI Hw. destruct (H1 v w HI) as [_ [->|]]; auto. unfold WEIGHT_MAX in *. lia.
    - intros v w HI Hw. destruct (H2 v w HI) as [_ [->|]]; auto. unfold WEIGHT_MAX in *. lia.
    - intros d id ed HG. assert (fe_weight ed <= X).
      { apply HX. apply getN_In in HG. destruct d; auto. }
      destruct (ok_edge _ _ _ _ Hok d id ed HG) as (_ & _ & _ & Hr). nia.
    - intros v Hv. pose proof (ok_rank _ _ _ _ Hok v Hv). nia.
    - lia.
  Qed.

  (** hence the unchecked build gives the same answers *)
  Lemma ok_release ss ts r :
    (forall v w, In (v, w) ss -> w = WEIGHT_MAX c \/ w <= K1) ->
    (forall v w, In (v, w) ts -> w = WEIGHT_MAX c \/ w <= K2) ->
    answer_multi (unchecked c) fg ss ts r -> answer_multi c fg ss ts r.
  Proof.
    intros HK1 HK2 Ha.
    destruct (answer_multi_pc _ _ _ _ _ Ha) as (H & hinv & m & pc & pc' & HL & Hc & HE).
    pose proof (query_checks _ _ _ _ _ _ _ HE) as Hq. pose proof (calculator_ok _ _ _ Hc) as Hpc.
    assert (m = n) as Hn.
    { destruct Hq as [Hq _]. rewrite (ok_n _ _ _ _ Hok) in Hq. destruct Hpc as [Hpc _]. congruence. }
    subst m. pose proof (proj1 Hpc) as Hpn. destruct Hq as (Q0 & Q1 & Q2 & Q3 & Q4). rewrite Hpn in *.
    assert (calculator c n (create_calculator c fg)) as Hcc by (constructor; exact (ok_n _ _ _ _ Hok)).
    destruct (ok_linear H hinv (create_calculator c fg) ss ts HL Hcc Q1 Q2) as (pc2 & r2 & HE2).
    { intros v w HI. split; [eapply Q3; eauto|eauto]. }
    { intros v w HI. split; [eapply Q4; eauto|eauto]. }
    pose proof (le_calc_multiple c H _ _ _ _ _ HE2) as HE3. change (release c) with (unchecked c) in HE3.
    pose proof (C11_proof (unchecked c) H hinv _ pc fg fg ss ts HL Hc Q0) as HR.
    change (create_calculator (unchecked c) fg) with (create_calculator c fg) in HR.
    rewrite HE, HE3 in HR. simpl in HR. injection HR as <-.
    exists H, hinv. split; auto. left. unfold calc_path_multiple. rewrite HE2. reflexivity.
  Qed.

  (** and it answers *)
  Lemma ok_release_returns H hinv ss ts : heap_laws H hinv -> ss <> [] -> ts <> [] ->
    (forall v w, In (v, w) ss -> v < n /\ (w = WEIGHT_MAX c \/ w <= K1)) ->
    (forall v w, In (v, w) ts -> v < n /\ (w = WEIGHT_MAX c \/ w <= K2)) ->
    exists r, calc_path_multiple (unchecked c) H fg ss ts = Ok r.
  Proof.
    intros HL Hss Hts H1 H2.
    assert (calculator c n (create_calculator c fg)) as Hcc by (constructor; exact (ok_n _ _ _ _ Hok)).
    destruct (ok_linear H hinv (create_calculator c fg) ss ts HL Hcc Hss Hts H1 H2) as (pc2 & r2 & HE2).
    pose proof (le_calc_multiple c H _ _ _ _ _ HE2) as HE3. change (release c) with (unchecked c) in HE3.
    exists r2. unfold calc_path_multiple. change (create_calculator (unchecked c) fg) with (create_calculator c fg).
    rewrite HE3. reflexivity.
  Qed.
End FgOk.

(** values that fit 32 bits certify a preparation on 64 bits *)
Lemma cert_values : forall c ops ig fg,
  platform64 c -> debug_build c = true -> frozen_graph (unchecked c) ops ig -> prepared (unchecked c) ig fg ->
  (forall e, In e (accepted ops) -> e_weight e <= 2 ^ 63) -> values_below (2 ^ 32 - 1) fg ->
  frozen_graph c ops ig /\ prepared c ig fg.
Proof.
  intros c ops ig fg Hc Hd Hf Hp HM HV. unfold platform64 in Hc.
  apply (cert_prepared c ops ig fg (2 ^ 63) (2 ^ 32 - 1)); auto; try (rewrite Hc; vm_compute; discriminate).
  intros e He. destruct HV as (_ & _ & _ & HV). unfold all_edges in HV.
  specialize (HV e ltac:(apply in_or_app; exact He)). lia.
Qed.

Lemma rel32_proof : forall c c' ops ig fg,
  platform64 c -> debug_build c = true -> frozen_graph (unchecked c) ops ig -> prepared (unchecked c) ig fg ->
  (forall e, In e (accepted ops) -> e_weight e <= 2 ^ 63) ->
  platform32 c' -> debug_build c' = true ->
  values_below (2 ^ 32 - 1) fg ->
  fg_get_num_nodes fg < 2 ^ 31 - 1 -> fg_get_num_out_edges fg < 2 ^ 31 - 1 -> fg_get_num_in_edges fg < 2 ^ 31 - 1 ->
  exists bytes fg', serialize_32 (unchecked c) fg = Ok bytes /\
    (forall rest, deserialize_32 (unchecked c') (bytes ++ rest) = Ok (Loaded fg' rest)) /\
    (forall X K1 K2 sources targets,
      (forall e, In e (fg_edges_fwd fg) \/ In e (fg_edges_bwd fg) -> fe_weight e <= X) ->
      (forall v w, In (v, w) sources -> w = WEIGHT_MAX c' \/ w <= K1) ->
      (forall v w, In (v, w) targets -> w = WEIGHT_MAX c' \/ w <= K2) ->
      K1 + K2 + 2 * (ig_num_nodes ig - 1) * X <= umax c' ->
      (forall r, answer_multi (unchecked c') fg' sources targets r ->
        match r with
        | Some p =>
            sp_get_weight p < WEIGHT_MAX c' /\
            total (accepted ops) sources targets (sp_get_source p) (sp_get_target p) (sp_get_nodes p) (sp_get_weight p) /\
            (forall s t ns W, total (accepted ops) sources targets s t ns W -> sp_get_weight p <= W)
        | None => forall s t ns W, total (accepted ops) sources targets s t ns W -> WEIGHT_MAX c' <= W
        end) /\
      (sources <> [] -> targets <> [] ->
       (forall v w, In (v, w) sources \/ In (v, w) targets -> v < ig_num_nodes ig) ->
       forall H hinv, heap_laws H hinv -> exists r, calc_path_multiple (unchecked c') H fg' sources targets = Ok r)).
Proof.
  intros c c' ops ig fg Hc Hd Hf0 Hp0 HM Hc' Hd' HV N1 N2 N3.
  destruct (cert_values c ops ig fg Hc Hd Hf0 Hp0 HM HV) as [Hf Hp].
  pose proof (prepared_ok c ops ig fg Hd Hf Hp) as Hok.
  assert (HV' := HV). change (2 ^ 32 - 1) with u32_max in HV'.
  assert (Hc2 := Hc). apply p64 in Hc2. destruct Hc2 as [Hc2 Hc3].
  assert (umax c' = u32_max) as Hu by exact Hc'.
  assert (umax c' / 2 = 2 ^ 31 - 1) as Hu2 by (rewrite Hu; vm_compute; reflexivity).
  pose proof (ok_n _ _ _ _ Hok) as Hnn.
  unfold fg_get_num_nodes, fg_get_num_out_edges, fg_get_num_in_edges in *.
  assert (n_lt : fg_num_nodes fg < u32_max) by apply HV'.
  pose proof (cross_ok c c' _ _ fg Hok HV' ltac:(lia) ltac:(lia) ltac:(lia) ltac:(intros []; simpl; lia)) as Hok'.
  match type of Hok' with fg_ok _ _ _ ?f => set (fg' := f) in * end.
  assert (to_fast_graph32 c fg = Ok (to32_graph c fg)) as HT.
  { apply (graph_conv 0 c Hc2 fg). apply Forall_forall. intros x Hx.
    destruct (ints_bound _ _ _ _ _ (ok_shape _ _ _ _ Hok) HV' x Hx); [right; auto|left; lia]. }
  assert (from_fast_graph32 (unchecked c') (to32_graph c fg) = Ok fg') as HF.
  { unfold from_fast_graph32. apply (convert_eq c (unchecked c') fg); unfold unchecked; cbn [umax]; lia. }
  exists (enc_fast_graph32 (to32_graph c fg)), fg'. split; [|split].
  - unfold serialize_32. change (to_fast_graph32 (unchecked c) fg) with (to_fast_graph32 c fg). rewrite HT. reflexivity.
  - intros rest. rewrite (deserialize_32_eq c (unchecked c') fg _ rest Hc (p32_platform c' Hc') HT), HF; [reflexivity|].
    pose proof (ok_lf _ _ _ _ Hok Fwd) as FF. pose proof (ok_lf _ _ _ _ Hok Bwd) as FB.
    pose proof (ok_lr _ _ _ _ Hok) as HR. unfold vectors_fit, unchecked. cbn [fg_first_edge_ids umax] in *. rewrite Hc'. lia.
  - intros X K1 K2 ss ts HX HK1 HK2 HB.
    assert (HX' : forall e, In e (fg_edges_fwd fg') \/ In e (fg_edges_bwd fg') -> fe_weight e <= X).
    { intros e He.
      assert (forall l, (forall e, In e l -> fe_weight e <= X /\ fe_weight e < u32_max) ->
        In e (map (back_edge c c') l) -> fe_weight e <= X) as HG.
      { intros l Hl Hi. apply in_map_iff in Hi. destruct Hi as (e0 & <- & Hi). destruct (Hl e0 Hi) as [L1 L2].
        unfold back_edge. cbn [fe_weight]. rewrite back_lt; [exact L1|exact L2|lia]. }
      destruct HV' as (_ & _ & _ & HV'). unfold all_edges in HV'.
      destruct He as [He|He]; (eapply HG; [|exact He]); intros e1 H1; (split; [apply HX; auto|apply HV'; apply in_or_app; auto]). }
    split.
    + intros r Ha.
      pose proof (ok_release c' _ _ fg' X K1 K2 Hd' Hok' HX' HB ss ts r HK1 HK2 Ha) as Ha'.
      pose proof (answer_ok_accepted c c' ops ig ss ts r Hf (answer_fg_ok c' _ _ _ ss ts r Hd' Hok' Ha')) as HA.
      destruct r as [p|]; [|exact HA]. destruct HA as (A1 & A2 & A3). split; [exact A2|]. split; [exact A1|exact A3].
    + intros Hss Hts Hids H hinv HL.
      eapply (ok_release_returns c' _ _ fg' X K1 K2 Hd' Hok' HX' HB H hinv); eauto.
Qed.
