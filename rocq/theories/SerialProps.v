(** * SerialProps: proofs of the properties of saved graphs *)
From Verif Require Export SerialFacts FileProps ReleaseProps.
Open Scope N_scope.

Lemma Forall_forallb {A} (f : A -> bool) l : forallb f l = true <-> Forall (fun x => f x = true) l.
Proof. rewrite forallb_forall, Forall_forall. tauto. Qed.

Lemma usize_ok_spec c x : usize_ok c x = true <-> x <= umax c.
Proof. apply N.leb_le. Qed.
Lemma forallb_usize c l : forallb (usize_ok c) l = true <-> forall x, In x l -> x <= umax c.
Proof. rewrite forallb_forall. split; intros H x Hx; apply usize_ok_spec; auto. Qed.
Lemma forallb_fe c l : forallb (fe_ok c) l = true <-> forall x, In x (flat_map edge_ints l) -> x <= umax c.
Proof.
  rewrite forallb_forall. unfold fe_ok. split.
  - intros H x Hx. apply in_flat_map in Hx as (e & He & Hx). specialize (H e He). rewrite forallb_usize in H. auto.
  - intros H e He. apply forallb_usize. intros x Hx. apply H. apply in_flat_map. eauto.
Qed.

Lemma representable_ok c fg : representable c fg <-> fgraph_ok c fg = true.
Proof.
  unfold representable, vectors_fit, fgraph_ok, vec_ok, ints.
  rewrite !andb_true_iff, !forallb_usize, !forallb_fe, !N.leb_le, usize_ok_spec. cbn [In]. split.
  - intros (H & L1 & L2 & L3 & L4 & L5). repeat split; auto; intros x Hx; apply H; right; rewrite !in_app_iff; tauto.
  - intros (H0 & (L1 & H1) & (L2 & H2) & (L3 & H3) & (L4 & H4) & (L5 & H5)).
    repeat split; auto. intros x [<-|Hx]; auto. rewrite !in_app_iff in Hx.
    destruct Hx as [Hx|[Hx|[Hx|[Hx|Hx]]]]; auto.
Qed.

Lemma usizeP_le c x : platform c -> x <= umax c -> usizeP x.
Proof. unfold platform, usizeP. lia. Qed.
Lemma representable_P c fg : platform c -> representable c fg -> fgP fg.
Proof.
  intros Hc Hr. apply representable_ok in Hr. unfold fgraph_ok, vec_ok in Hr.
  rewrite !andb_true_iff, !forallb_usize, !forallb_fe, !N.leb_le, usize_ok_spec in Hr.
  destruct Hr as (H0 & (L1 & H1) & (L2 & H2) & (L3 & H3) & (L4 & H4) & (L5 & H5)).
  assert (HU : forall l, (forall x, In x l -> x <= umax c) -> lenN l <= umax c -> vecP usizeP l).
  { intros l Hl Hn. split; [|unfold platform in Hc; lia]. apply Forall_forall. intros x Hx. eapply usizeP_le; eauto. }
  assert (HE : forall l, (forall x, In x (flat_map edge_ints l) -> x <= umax c) -> lenN l <= umax c -> vecP feP l).
  { intros l Hl Hn. split; [|unfold platform in Hc; lia]. apply Forall_forall. intros e He. apply Forall_forall.
    intros x Hx. apply (usizeP_le c); auto. apply Hl. apply in_flat_map. eauto. }
  unfold fgP. repeat (split; auto). eapply usizeP_le; eauto.
Qed.

(** graphs of the crate *)
Lemma half_le c : umax c / 2 <= umax c.
Proof. apply N.div_le_upper_bound; lia. Qed.
Lemma prepared_representable c ops ig fg : 1 <= umax c -> frozen_graph c ops ig -> prepared c ig fg ->
  representable c fg.
Proof.
  intros Hu Hf Hp. pose proof (prepared_shape c ops ig fg Hu Hf Hp) as Hok. pose proof (half_le c) as Hh.
  pose proof (sh_len _ _ _ _ Hok Fwd) as LF. pose proof (sh_len _ _ _ _ Hok Bwd) as LB.
  pose proof (sh_lf _ _ _ _ Hok Fwd) as FF. pose proof (sh_lf _ _ _ _ Hok Bwd) as FB.
  pose proof (sh_cap _ _ _ _ Hok) as HC. pose proof (sh_lr _ _ _ _ Hok) as HR. pose proof (sh_n _ _ _ _ Hok) as HN.
  cbn [fg_edges fg_first_edge_ids] in *.
  assert (HV : values_below (umax c + 1) fg).
  { unfold values_below, fg_get_num_nodes, fg_get_num_out_edges, fg_get_num_in_edges.
    split; [lia|]. split; [lia|]. split; [lia|]. intros e He. unfold all_edges in He. apply in_app_or in He.
    assert (exists d, In e (fg_edges fg d)) as (d & Hd') by (destruct He; [exists Fwd|exists Bwd]; auto).
    destruct (In_getN _ _ Hd') as (i & _ & Hi). assert (fe_weight e <= umax c) as HW.
    { apply (shape_weight c _ _ fg d i e Hok); auto. intros e0 He0. apply (ig_ok_edge _ _ (prepared_ig_ok c ops ig fg Hf Hp)) in He0. tauto. }
    lia. }
  split; [|repeat split; lia].
  intros x Hx. destruct (ints_bound c _ _ fg _ Hok HV x Hx); lia.
Qed.

Lemma run_edge_repr c ops ig : (forall o, In o ops -> op_repr c o) -> ig_run c ig_new ops = Ok ig ->
  forall e, In e (ig_edges ig) -> e_from e <= umax c /\ e_to e <= umax c /\ e_weight e <= umax c.
Proof.
  intros Hr Hrun e He. destruct (run_inv _ _ _ Hrun) as [[H1 H2 H3 H4 H5] _]. eapply accepted_repr; eauto.
Qed.
Lemma run_igP c ops ig : platform c -> (forall o, In o ops -> op_repr c o) -> ig_run c ig_new ops = Ok ig ->
  igP ig /\ igraph_ok c ig = true.
Proof.
  intros Hc Hr Hrun. pose proof (run_edge_repr c ops ig Hr Hrun) as HE. pose proof (run_nodes_bound c ops ig Hrun) as HN.
  destruct (run_inv _ _ _ Hrun) as [[_ _ _ _ H5] _]. pose proof (half_le c).
  split.
  - split; [split|].
    + apply Forall_forall. intros e He. destruct (HE e He) as (A & B & D). repeat split; eapply usizeP_le; eauto.
    + unfold platform in Hc. lia.
    + eapply usizeP_le; eauto.
  - unfold igraph_ok, vec_ok. rewrite !andb_true_iff. rewrite forallb_forall, N.leb_le, usize_ok_spec.
    repeat split; auto; [lia|]. intros e He. destruct (HE e He) as (A & B & D).
    unfold edge_ok. rewrite !andb_true_iff, !usize_ok_spec. auto.
Qed.

(** *** C44 *)
Lemma C44_proof : forall c fg rest, platform c -> representable c fg ->
  dec_fast_graph c (enc_fast_graph fg ++ rest) = Loaded fg rest.
Proof.
  intros c fg rest Hc Hr. rewrite (fg_reads c fg rest (representable_P c fg Hc Hr)).
  apply representable_ok in Hr. rewrite Hr. reflexivity.
Qed.
Lemma C44_prepared_proof : forall c ops ig fg, platform c -> 1 <= umax c -> frozen_graph c ops ig ->
  prepared c ig fg -> load_from_disk c (save_to_disk fg) = inr fg.
Proof.
  intros c ops ig fg Hc Hd Hf Hp. unfold load_from_disk, save_to_disk.
  rewrite <- (app_nil_r (enc_fast_graph fg)). rewrite C44_proof; auto. eapply prepared_representable; eauto.
Qed.
Lemma C44_input_proof : forall c ops ig rest, platform c -> (forall o, In o ops -> op_repr c o) ->
  ig_run c ig_new ops = Ok ig -> dec_input_graph c (enc_input_graph ig ++ rest) = Loaded ig rest.
Proof.
  intros c ops ig rest Hc Hr Hrun. destruct (run_igP c ops ig Hc Hr Hrun) as [HP HO].
  rewrite (ig_reads c ig rest HP), HO. reflexivity.
Qed.
Lemma C44_injective_proof : forall c fg1 fg2, platform c -> representable c fg1 -> representable c fg2 ->
  save_to_disk fg1 = save_to_disk fg2 -> fg1 = fg2.
Proof.
  intros c fg1 fg2 Hc H1 H2 E. unfold save_to_disk in E. pose proof (C44_proof c fg1 [] Hc H1) as A.
  pose proof (C44_proof c fg2 [] Hc H2) as B. rewrite E in A. congruence.
Qed.
Lemma enc_vec_bytes {A} (enc : A -> list N) l b : (forall x b, In b (enc x) -> b < 256) -> In b (enc_vec enc l) -> b < 256.
Proof.
  intros H Hin. unfold enc_vec in Hin. apply in_app_or in Hin as [Hin|Hin]; [eapply enc_le_bytes; eauto|].
  apply in_flat_map in Hin as (x & _ & Hin). eauto.
Qed.
Lemma C44_bytes_proof : forall fg b, In b (save_to_disk fg) -> b < 256.
Proof.
  intros fg b. unfold save_to_disk, enc_fast_graph. rewrite !in_app_iff.
  assert (U : forall x b, In b (enc_usize x) -> b < 256) by (intros; eapply enc_le_bytes; eauto).
  assert (E : forall x b, In b (enc_fast_edge x) -> b < 256).
  { intros x b'. unfold enc_fast_edge. rewrite !in_app_iff. intros [H|[H|[H|[H|H]]]]; eauto. }
  intros [H|[H|[H|[H|[H|H]]]]]; eauto using enc_vec_bytes.
Qed.

(** *** C45 *)
Lemma C45_proof : forall c fg piece, platform c -> representable c fg -> cut (save_to_disk fg) piece ->
  load_from_disk c piece = inl EUnexpectedEof.
Proof.
  intros c fg piece Hc Hr (q & Hq & E). unfold load_from_disk, save_to_disk in *.
  pose proof (representable_P c fg Hc Hr) as HP. apply representable_ok in Hr.
  rewrite (fg_notices c fg piece q HP Hr Hq E). reflexivity.
Qed.
Lemma C45_input_proof : forall c ops ig piece, platform c -> (forall o, In o ops -> op_repr c o) ->
  ig_run c ig_new ops = Ok ig -> cut (enc_input_graph ig) piece ->
  dec_input_graph c piece = LoadError EUnexpectedEof.
Proof.
  intros c ops ig piece Hc Hr Hrun (q & Hq & E). destruct (run_igP c ops ig Hc Hr Hrun) as [HP HO].
  eapply ig_notices; eauto.
Qed.

(** *** C46 *)
Lemma to32_P c fg g : platform64 c -> to_fast_graph32 c fg = Ok g ->
  (forall x, In x (ints32 g) -> u32P x) /\
  lenN (fg32_ranks g) = lenN (fg_ranks fg) /\ lenN (fg32_edges_fwd g) = lenN (fg_edges_fwd fg) /\
  lenN (fg32_first_edge_ids_fwd g) = lenN (fg_first_edge_ids_fwd fg) /\
  lenN (fg32_edges_bwd g) = lenN (fg_edges_bwd fg) /\
  lenN (fg32_first_edge_ids_bwd g) = lenN (fg_first_edge_ids_bwd fg).
Proof.
  intros Hc HE. pose proof (C28_value_proof c fg g Hc HE) as HV.
  pose proof (p64 c Hc) as [Hu _]. unfold to_fast_graph32 in HE. apply to32_eq in HE as [HF Hg]; auto. split.
  - intros x Hx. rewrite HV in Hx. apply in_map_iff in Hx as (y & <- & Hy). rewrite Forall_forall in HF.
    specialize (HF y Hy). unfold fit in HF. unfold u32P. change (2 ^ 32) with (u32_max + 1).
    destruct (N.eqb_spec y (umax c)); lia.
  - subst g. unfold to32_graph. cbn [fg32_ranks fg32_edges_fwd fg32_first_edge_ids_fwd fg32_edges_bwd fg32_first_edge_ids_bwd].
    rewrite !lenN_map. auto 10.
Qed.
Lemma to32_ok c c' fg g : platform64 c -> platform c' -> to_fast_graph32 c fg = Ok g -> vectors_fit c' fg ->
  fg32P g /\ fg32_ok c' g = true.
Proof.
  intros Hc Hc' HE (L1 & L2 & L3 & L4 & L5). destruct (to32_P c fg g Hc HE) as (HI & E1 & E2 & E3 & E4 & E5).
  unfold ints32 in HI. split.
  - assert (HU : forall l, (forall x, In x l -> u32P x) -> lenN l <= umax c' -> vecP u32P l).
    { intros l Hl Hn. split; [|unfold platform in Hc'; lia]. apply Forall_forall. auto. }
    assert (HV : forall l, (forall x, In x (flat_map edge_ints32 l) -> u32P x) -> lenN l <= umax c' -> vecP feP32 l).
    { intros l Hl Hn. split; [|unfold platform in Hc'; lia]. apply Forall_forall. intros e He. apply Forall_forall.
      intros x Hx. apply Hl. apply in_flat_map. eauto. }
    unfold fg32P. repeat split; try (apply HI; left; reflexivity);
      try (apply Forall_forall; intros x Hx; apply HI; right; rewrite !in_app_iff; tauto);
      try (apply HV; [intros x Hx; apply HI; right; rewrite !in_app_iff; tauto|lia]);
      unfold platform in Hc'; lia.
  - unfold fg32_ok, vec_ok.
    assert (HA : forall A (l : list A), forallb all l = true) by (intros; apply forallb_forall; reflexivity).
    rewrite !HA, !andb_true_iff, !N.leb_le. repeat split; auto; lia.
Qed.
Lemma deserialize_32_eq c c' fg g rest : platform64 c -> platform c' -> to_fast_graph32 c fg = Ok g -> vectors_fit c' fg ->
  deserialize_32 c' (enc_fast_graph32 g ++ rest) = (fg' <- from_fast_graph32 c' g ;; Ok (Loaded fg' rest)).
Proof.
  intros Hc Hc' HE HL. destruct (to32_ok c c' fg g Hc Hc' HE HL) as [HP HO]. unfold deserialize_32.
  rewrite (fg32_reads c' g rest HP), HO. reflexivity.
Qed.
Lemma p64_platform c : platform64 c -> platform c.
Proof. unfold platform64, platform. lia. Qed.
Lemma p32_platform c : platform32 c -> platform c.
Proof. unfold platform32, platform. lia. Qed.
Lemma representable_lengths c fg : representable c fg -> vectors_fit c fg.
Proof. intros (_ & H). exact H. Qed.

Lemma C46_proof : forall c ops ig fg,
  platform64 c -> frozen_graph c ops ig -> prepared c ig fg ->
  values_below (2 ^ 32 - 1) fg ->
  exists bytes, serialize_32 c fg = Ok bytes /\
    forall rest, deserialize_32 c (bytes ++ rest) = Ok (Loaded fg rest).
Proof.
  intros c ops ig fg Hc Hf Hp HV. destruct (C29_proof c ops ig fg Hc Hf Hp HV) as (g & H1 & H2).
  exists (enc_fast_graph32 g). unfold serialize_32. rewrite H1. split; [reflexivity|]. intros rest.
  rewrite (deserialize_32_eq c c fg g rest Hc (p64_platform c Hc) H1), H2; [reflexivity|].
  apply representable_lengths. apply (prepared_representable c ops ig fg); auto. apply p64 in Hc. lia.
Qed.
Lemma C46_cross_proof : forall c c' ops ig fg,
  platform64 c -> debug_build c = true -> frozen_graph c ops ig -> prepared c ig fg ->
  platform32 c' -> debug_build c' = true ->
  values_below (2 ^ 32 - 1) fg ->
  fg_get_num_nodes fg < 2 ^ 31 - 1 -> fg_get_num_out_edges fg < 2 ^ 31 - 1 -> fg_get_num_in_edges fg < 2 ^ 31 - 1 ->
  exists bytes fg', serialize_32 c fg = Ok bytes /\
    (forall rest, deserialize_32 c' (bytes ++ rest) = Ok (Loaded fg' rest)) /\
    (forall sources targets r, answer_multi c' fg' sources targets r ->
      match r with
      | Some p =>
          sp_get_weight p < WEIGHT_MAX c' /\
          total (accepted ops) sources targets (sp_get_source p) (sp_get_target p) (sp_get_nodes p) (sp_get_weight p) /\
          (forall s t ns W, total (accepted ops) sources targets s t ns W -> sp_get_weight p <= W)
      | None => forall s t ns W, total (accepted ops) sources targets s t ns W -> WEIGHT_MAX c' <= W
      end).
Proof.
  intros c c' ops ig fg Hc Hd Hf Hp Hc' Hd' HV N1 N2 N3.
  destruct (C40_proof c c' ops ig fg Hc Hd Hf Hp Hc' Hd' HV N1 N2 N3) as (g & fg' & H1 & H2 & H3 & _).
  exists (enc_fast_graph32 g), fg'. unfold serialize_32. rewrite H1. split; [reflexivity|]. split; [|exact H3].
  intros rest. rewrite (deserialize_32_eq c c' fg g rest Hc (p32_platform c' Hc') H1), H2; [reflexivity|].
  pose proof (prepared_ok c ops ig fg Hd Hf Hp) as Hok.
  pose proof (ok_lf _ _ _ _ Hok Fwd) as FF. pose proof (ok_lf _ _ _ _ Hok Bwd) as FB.
  pose proof (ok_lr _ _ _ _ Hok) as HR. pose proof (ok_n _ _ _ _ Hok) as HN.
  unfold vectors_fit, fg_get_num_nodes, fg_get_num_out_edges, fg_get_num_in_edges in *. cbn [fg_first_edge_ids] in *.
  rewrite Hc'. lia.
Qed.
Lemma C46_panic_proof : forall c fg, platform64 c ->
  ((exists x, In x (ints fg) /\ u32_max < x /\ x <> umax c) <->
   serialize_32 c fg = Panic (PExplicit "Could not convert to a 32-bit integer")) /\
  ((forall x, In x (ints fg) -> x <= u32_max \/ x = umax c) <-> exists bytes, serialize_32 c fg = Ok bytes).
Proof.
  intros c fg Hc. destruct (C28_proof c fg Hc) as [A B]. unfold serialize_32. split.
  - rewrite A. destruct (to_fast_graph32 c fg) as [g|r|]; simpl; split; intros E; try discriminate; congruence.
  - rewrite B. destruct (to_fast_graph32 c fg) as [g|r|]; simpl; split; intros [x E]; try discriminate; eauto.
Qed.
Lemma C45_32_proof : forall c c' fg bytes piece, platform64 c -> platform c' ->
  serialize_32 c fg = Ok bytes -> vectors_fit c' fg -> cut bytes piece ->
  load_from_disk32 c' piece = Ok (inl EUnexpectedEof).
Proof.
  intros c c' fg bytes piece Hc Hc' HE HL (q & Hq & E). unfold serialize_32 in HE.
  destruct (to_fast_graph32 c fg) as [g| |] eqn:Hg; try discriminate. injection HE as <-.
  destruct (to32_ok c c' fg g Hc Hc' Hg HL) as [HP HO].
  unfold load_from_disk32, deserialize_32. rewrite (fg32_notices c' g piece q HP HO Hq E). reflexivity.
Qed.

(** *** C47 *)
Lemma enc_vec_len {A} (enc : A -> list N) k l : (forall x, lenN (enc x) = k) -> lenN (enc_vec enc l) = 8 + k * lenN l.
Proof.
  intros H. unfold enc_vec. rewrite lenN_app. unfold lenN at 1. rewrite enc_le_length. change (N.of_nat 8) with 8. f_equal.
  induction l as [|x l IH]; simpl; [unfold lenN; simpl; lia|]. rewrite lenN_app, lenN_cons, H, IH. lia.
Qed.
Lemma ints_len l : lenN (flat_map edge_ints l) = 5 * lenN l.
Proof.
  induction l as [|x l IH]; [reflexivity|]. cbn [flat_map]. rewrite lenN_app, IH, lenN_cons.
  change (lenN (edge_ints x)) with 5. lia.
Qed.
Lemma C47_plain_proof : forall fg, lenN (save_to_disk fg) = 40 + 8 * lenN (ints fg).
Proof.
  intros fg. unfold save_to_disk, enc_fast_graph, ints.
  assert (U : forall x, lenN (enc_usize x) = 8) by (intros; unfold lenN, enc_usize; rewrite enc_le_length; reflexivity).
  assert (E : forall x, lenN (enc_fast_edge x) = 40) by (intros; unfold enc_fast_edge; rewrite !lenN_app, !U; reflexivity).
  rewrite !lenN_app, lenN_cons, !lenN_app, !ints_len, U, !(enc_vec_len _ 8 _ U), !(enc_vec_len _ 40 _ E). lia.
Qed.
Lemma C47_32_proof : forall c fg bytes, platform64 c -> serialize_32 c fg = Ok bytes ->
  lenN bytes = 40 + 4 * lenN (ints fg).
Proof.
  intros c fg bytes Hc HE. unfold serialize_32 in HE.
  destruct (to_fast_graph32 c fg) as [g| |] eqn:Hg; try discriminate. injection HE as <-.
  destruct (to32_P c fg g Hc Hg) as (_ & E1 & E2 & E3 & E4 & E5).
  unfold enc_fast_graph32, ints.
  assert (U : forall x, lenN (enc_u32 x) = 4) by (intros; unfold lenN, enc_u32; rewrite enc_le_length; reflexivity).
  assert (E : forall x, lenN (enc_fast_edge32 x) = 20) by (intros; unfold enc_fast_edge32; rewrite !lenN_app, !U; reflexivity).
  rewrite !lenN_app, lenN_cons, !lenN_app, !ints_len, U, !(enc_vec_len _ 4 _ U), !(enc_vec_len _ 20 _ E). lia.
Qed.

(** *** C48 *)
Lemma C48_proof : forall c c' fg extra, platform c -> representable c fg ->
  (representable c' fg -> load_from_disk c' (save_to_disk fg ++ extra) = inr fg) /\
  (~ representable c' fg -> load_from_disk c' (save_to_disk fg ++ extra) = inl EIntegerRange).
Proof.
  intros c c' fg extra Hc Hr. unfold load_from_disk, save_to_disk.
  rewrite (fg_reads c' fg extra (representable_P c fg Hc Hr)). rewrite (representable_ok c' fg).
  destruct (fgraph_ok c' fg); split; intros H; auto; [contradiction H; auto|discriminate].
Qed.
Lemma C48_prepared_proof : forall c c' ops ig fg, platform64 c -> frozen_graph c ops ig ->
  prepared c ig fg -> platform32 c' -> all_edges fg <> [] ->
  load_from_disk c' (save_to_disk fg) = inl EIntegerRange.
Proof.
  intros c c' ops ig fg Hc Hf Hp Hc' Hne. assert (1 <= umax c) as Hu by (apply p64 in Hc; lia).
  rewrite <- (app_nil_r (save_to_disk fg)).
  apply (C48_proof c c' fg []); [apply p64_platform; auto|eapply prepared_representable; eauto|].
  intros (HI & _). pose proof (prepared_shape c ops ig fg Hu Hf Hp) as Hok.
  destruct (original_edge _ _ _ _ Hok Hne) as (d & e & He & Hr).
  assert (In (umax c) (ints fg)) as Hin.
  { rewrite <- Hr. unfold ints. right. rewrite !in_app_iff.
    assert (In (fe_replaced_in e) (flat_map edge_ints (fg_edges fg d))) as H.
    { apply in_flat_map. exists e. split; auto. simpl. auto. }
    destruct d; cbn [fg_edges] in H; tauto. }
  specialize (HI _ Hin). unfold platform64, platform32 in *. rewrite Hc, Hc' in HI. lia.
Qed.

(** *** C49 *)
Lemma C49_proof : forall c ops ig fg H hinv s t,
  platform c -> 1 <= umax c -> frozen_graph c ops ig -> prepared c ig fg -> heap_laws H hinv ->
  s < ig_num_nodes ig -> t < ig_num_nodes ig ->
  exists fg', load_from_disk c (save_to_disk fg) = inr fg' /\
    ((exists r, calc_path c H fg' s t = Ok r) \/ debug_build c = true /\ calc_path c H fg' s t = Panic POverflow).
Proof.
  intros c ops ig fg H hinv s t Hc Hd Hf Hp HL Hs Ht. exists fg. split; [eapply C44_prepared_proof; eauto using checked_umax|].
  apply (C12_calc_path_proof c ops ig fg H hinv s t Hd Hf Hp HL); auto.
Qed.
