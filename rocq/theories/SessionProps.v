(** * SessionProps: proofs about whole sessions (C71) *)
From Verif Require Export SpecSession SerialProps FileTrunc UnwindProps.
Open Scope N_scope.

Definition graph_inv (c : cfg) (x : list ig_op * InputGraph) : Prop :=
  (forall o, In o (fst x) -> op_repr c o) /\ ig_run c ig_new (fst x) = Ok (snd x).
Definition fast_inv (c : cfg) (x : list ig_op * FastGraph) : Prop :=
  exists ig, frozen_graph c (fst x) ig /\ prepared c ig (snd x).
Definition file_inv (c : cfg) (x : form * list ig_op * list N) : Prop :=
  exists fg missing, fast_inv c (snd (fst x), fg) /\ saved c (fst (fst x)) fg (snd x ++ missing).
Definition world_inv (c : cfg) (w : world) : Prop :=
  Forall (graph_inv c) (w_graphs w) /\ Forall (fast_inv c) (w_prepared w) /\
  Forall (fun pc => exists n, calculator c n pc) (w_calculators w) /\ Forall (file_inv c) (w_files w).

Lemma arc_calls_repr c arcs : Forall (fun e => e_from e <= umax c /\ e_to e <= umax c /\ e_weight e <= umax c) arcs ->
  forall o, In o (calls_for arcs) -> op_repr c o.
Proof.
  intros H o Ho. unfold calls_for in Ho. apply in_app_or in Ho as [Ho|[<-|[]]]; [|exact Logic.I].
  apply in_map_iff in Ho as (e & <- & He). rewrite Forall_forall in H. exact (H e He).
Qed.
Lemma number_repr c w v : number c w v -> v <= umax c.
Proof. intros [H _]. exact H. Qed.
Lemma arc_line_repr c s f t w : arc_line c s f t w -> f <= umax c /\ t <= umax c /\ w <= umax c.
Proof. intros (r & a & b & d & _ & _ & H1 & H2 & H3). repeat split; eapply number_repr; eauto. Qed.
Lemma plain_repr c ss arcs : plain_text c ss arcs ->
  Forall (fun e => e_from e <= umax c /\ e_to e <= umax c /\ e_weight e <= umax c) arcs.
Proof. induction 1; auto. constructor; auto. eapply arc_line_repr; eauto. Qed.
Lemma dimacs_arcs_repr c n ss arcs : dimacs_arcs c n ss arcs ->
  Forall (fun e => e_from e <= umax c /\ e_to e <= umax c /\ e_weight e <= umax c) (map zero_based arcs).
Proof.
  induction 1 as [|s ss arcs _ _ IH|s ss f t w arcs Ha _ _ _ IH]; cbn [map]; auto. constructor; auto.
  apply arc_line_repr in Ha. cbn [zero_based e_from e_to e_weight]. lia.
Qed.
Lemma dimacs_repr c ss arcs : dimacs_text c ss arcs ->
  Forall (fun e => e_from e <= umax c /\ e_to e <= umax c /\ e_weight e <= umax c) (map zero_based arcs).
Proof.
  intros [(pre & p & post & n & m & _ & _ & _ & H & _)|[_ ->]]; [eapply dimacs_arcs_repr; eauto|constructor].
Qed.

Lemma prepared_frozen c ops ig fg : ig_run c ig_new ops = Ok ig -> prepared c ig fg -> ig_frozen ig = true.
Proof.
  intros HR HP. destruct (frozen_after ops) eqn:HF; [rewrite (C19_frozen_proof c ops ig HR); exact HF|exfalso].
  destruct HP as [(params & H & hinv & Q & qinv & _ & _ & E)|(order & params & _ & H & hinv & _ & E)].
  - destruct (C19_prepare_proof c ops ig H Q HR HF) as (_ & G & _). rewrite G in E. discriminate.
  - destruct (C19_prepare_proof c ops ig H (mkPqOps (fun q _ _ => q) (fun _ => None) (fun q _ _ => q)) HR HF)
      as (_ & _ & _ & G). rewrite G in E. discriminate.
Qed.

Lemma loaded_fast c f ops fg bytes missing fg' : platform c -> debug_build c = true \/ 1 <= umax c ->
  fast_inv c (ops, fg) -> saved c f fg (bytes ++ missing) -> loaded c f bytes fg' -> fg' = fg.
Proof.
  intros Hc Hd (ig & Hf & Hp) HS HL. cbn [fst snd] in *.
  assert (1 <= umax c) as Hu by (destruct Hd; [eapply checked_umax; eauto|auto]).
  pose proof (prepared_representable c ops ig fg Hu Hf Hp) as HR. destruct f; cbn [saved loaded] in *.
  - destruct missing as [|b missing].
    + rewrite app_nil_r in HS. subst bytes. rewrite (C44_prepared_proof c ops ig fg Hc Hu Hf Hp) in HL. congruence.
    + rewrite (C45_proof c fg bytes Hc HR) in HL; [discriminate|]. exists (b :: missing). split; [discriminate|exact HS].
  - destruct HS as (H64 & HV & HS). destruct missing as [|b missing].
    + rewrite app_nil_r in HS. destruct (C46_proof c ops ig fg H64 Hf Hp HV) as (bs & E1 & E2).
      unfold save_to_disk32 in HS. rewrite HS in E1. injection E1 as <-. specialize (E2 []). rewrite app_nil_r in E2.
      unfold load_from_disk32 in HL. rewrite E2 in HL. cbn [bind] in HL. congruence.
    + rewrite (C45_32_proof c c fg _ bytes H64 Hc HS (representable_lengths c fg HR)) in HL; [discriminate|].
      exists (b :: missing). split; [discriminate|reflexivity].
Qed.

Lemma Forall_mid {A} (P : A -> Prop) l1 x y l2 : Forall P (l1 ++ x :: l2) -> (P x -> P y) -> Forall P (l1 ++ y :: l2).
Proof.
  rewrite !Forall_app. intros [H1 H2] H. inversion_clear H2 as [|? ? H3 H4]. split; [exact H1|constructor; auto].
Qed.

Lemma event_inv c w w' : platform c -> debug_build c = true \/ 1 <= umax c -> world_inv c w -> event c w w' -> world_inv c w'.
Proof.
  intros Hc Hd HI E. destruct E as
    [gs ps cs fs|gs ps cs fs b ss arcs ig Hl Ht Ef|gs ps cs fs b ss arcs ig Hl Ht Ef
    |gs1 ops ig gs2 ps cs fs o ig' out Ho Es|gs1 ops ig gs2 ps cs fs o ig' r Hn Es
    |gs ps cs fs ops ig fg Hin Hp|gs ps cs fs ops fg Hin
    |gs ps cs1 pc cs2 fs ops fg H hinv ss ts pc' r Hin HL Eq|gs ps cs1 pc cs2 fs ops fg H hinv ss ts pc' r Hin HL Eq
    |gs ps cs fs1 old fs2 f ops fg piece missing Hin HS Hold|gs ps cs fs f ops bytes fg Hin HL|gs ps cs fs];
    destruct HI as (HG & HP & HC & HF); cbn [w_graphs w_prepared w_calculators w_files] in *;
    refine (conj _ (conj _ (conj _ _))); cbn [w_graphs w_prepared w_calculators w_files]; auto.
  - constructor; auto. split; [intros o []|reflexivity].
  - constructor; auto. split; cbn [fst snd].
    + apply arc_calls_repr. eapply plain_repr; eauto.
    + apply (proj1 (from_file_spec c b ig)) in Ef as (ss' & arcs' & Hl' & Ht' & Eg).
      rewrite (file_lines_fun _ _ _ Hl Hl') in Ht. rewrite (plain_text_fun _ _ _ _ Ht Ht'). exact Eg.
  - constructor; auto. split; cbn [fst snd].
    + apply arc_calls_repr. eapply dimacs_repr; eauto.
    + apply (proj1 (from_dimacs_spec c b ig)) in Ef as (ss' & arcs' & Hl' & Ht' & Eg).
      rewrite (file_lines_fun _ _ _ Hl Hl') in Ht. rewrite (dimacs_text_fun _ _ _ _ Ht Ht'). exact Eg.
  - eapply Forall_mid; [exact HG|]. intros [H1 H2]. cbn [fst snd] in *. split; cbn [fst snd].
    + intros o' Ho'. apply in_app_or in Ho' as [Ho'|[<-|[]]]; auto.
    + rewrite ig_run_app, H2. cbn [bind ig_run]. rewrite Es. reflexivity.
  - eapply Forall_mid; [exact HG|]. rewrite (C65_unchanged_proof c o ig r ig'); auto.
    assert (lenN (requested o) <= 2) by (destruct o; vm_compute; discriminate). lia.
  - constructor; auto. rewrite Forall_forall in HG. destruct (HG _ Hin) as [H1 H2]. cbn [fst snd] in *.
    exists ig. split; [|exact Hp]. split; [exact H1|]. split; [exact H2|]. eapply prepared_frozen; eauto.
  - constructor; auto. exists (fg_get_num_nodes fg). apply calculator_new. reflexivity.
  - eapply Forall_mid; [exact HC|]. intros (n & Hn). exists n. eapply calculator_multi; eauto.
  - eapply Forall_mid; [exact HC|]. intros (n & Hn). exists n. eapply calculator_unwound; eauto.
  - rewrite !Forall_app in HF. destruct HF as (F1 & _ & F2). apply Forall_app. split; [exact F1|]. constructor; auto.
    exists fg, missing. cbn [fst snd]. split; [|exact HS]. rewrite Forall_forall in HP. exact (HP _ Hin).
  - constructor; auto. rewrite Forall_forall in HF. destruct (HF _ Hin) as (fg0 & missing & H1 & H2). cbn [fst snd] in *.
    rewrite (loaded_fast c f ops fg0 bytes missing fg Hc Hd H1 H2 HL). exact H1.
Qed.
Lemma session_inv c w : platform c -> debug_build c = true \/ 1 <= umax c -> session c w -> world_inv c w.
Proof.
  intros Hc Hd HS. induction HS as [|w w' HS IH E]; [repeat split; constructor|]. eapply event_inv; eauto.
Qed.

Lemma C71_query_proof : forall c w ops fg pc H hinv sources targets pc' r,
  platform c -> debug_build c = true -> session c w -> In (ops, fg) (w_prepared w) -> In pc (w_calculators w) ->
  heap_laws H hinv -> pc_calc_path_multiple c H pc fg sources targets = Ok (pc', r) ->
  match r with
  | Some p =>
      total (accepted ops) sources targets (sp_get_source p) (sp_get_target p) (sp_get_nodes p) (sp_get_weight p) /\
      (forall s t ns W, total (accepted ops) sources targets s t ns W -> sp_get_weight p <= W)
  | None => forall s t ns W, total (accepted ops) sources targets s t ns W -> WEIGHT_MAX c <= W
  end.
Proof.
  intros c w ops fg pc H hinv ss ts pc' r Hc Hd HS Hin Hpc HL E.
  destruct (session_inv c w Hc (or_introl Hd) HS) as (_ & HP & HC & _). rewrite Forall_forall in HP, HC.
  destruct (HP _ Hin) as (ig & Hf & Hp). destruct (HC _ Hpc) as (n & Hn). cbn [fst snd] in *.
  assert (answer_multi c fg ss ts r) as HA by (exists H, hinv; split; [exact HL|right; exists n, pc, pc'; auto]).
  pose proof (answer_ok_accepted c c ops ig ss ts r Hf
    (answer_fg_ok c (ig_edges ig) (ig_num_nodes ig) fg ss ts r Hd (prepared_ok c ops ig fg Hd Hf Hp) HA)) as G.
  destruct r as [p|]; cbn [answer_ok] in G; [|exact G]. destruct G as (G1 & _ & G2). split; [exact G1|exact G2].
Qed.
Lemma C71_fresh_proof : forall c w ops fg pc H hinv sources targets,
  platform c -> 1 <= umax c -> session c w -> In (ops, fg) (w_prepared w) -> In pc (w_calculators w) ->
  heap_laws H hinv -> pc_num_nodes pc = fg_get_num_nodes fg ->
  result_of (pc_calc_path_multiple c H pc fg sources targets) = calc_path_multiple c H fg sources targets.
Proof.
  intros c w ops fg pc H hinv ss ts Hc Hd HS Hin Hpc HL Hn.
  destruct (session_inv c w Hc (or_intror Hd) HS) as (_ & _ & HC & _). rewrite Forall_forall in HC. destruct (HC _ Hpc) as (n & Hcalc).
  pose proof (calculator_ok _ _ _ Hcalc) as HK.
  assert (fg_get_num_nodes fg = n) as En. { rewrite <- Hn. exact (proj1 HK). }
  rewrite (C11_proof c H hinv n pc fg fg ss ts HL Hcalc En). reflexivity.
Qed.
Lemma C71_file_proof : forall c w f ops bytes fg,
  platform c -> 1 <= umax c -> session c w -> In (f, ops, bytes) (w_files w) -> loaded c f bytes fg ->
  exists ig, frozen_graph c ops ig /\ prepared c ig fg.
Proof.
  intros c w f ops bytes fg Hc Hd HS Hin HL. destruct (session_inv c w Hc (or_intror Hd) HS) as (_ & _ & _ & HF).
  rewrite Forall_forall in HF. destruct (HF _ Hin) as (fg0 & missing & H1 & H2). cbn [fst snd] in *.
  rewrite (loaded_fast c f ops fg0 bytes missing fg Hc (or_intror Hd) H1 H2 HL). exact H1.
Qed.
Lemma C71_graph_proof : forall c w ops ig, platform c -> 1 <= umax c -> session c w -> In (ops, ig) (w_graphs w) ->
  ig_run c ig_new ops = Ok ig.
Proof.
  intros c w ops ig Hc Hd HS Hin. destruct (session_inv c w Hc (or_intror Hd) HS) as (HG & _). rewrite Forall_forall in HG.
  exact (proj2 (HG _ Hin)).
Qed.
