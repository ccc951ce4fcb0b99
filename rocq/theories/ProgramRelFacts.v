(** * ProgramRelFacts: the README's programs and the file programs in builds without overflow checks *)
From Verif Require Import CompatFacts ProgramFacts.
From Verif Require Export TextProgramFacts.
From Verif Require Import SpecShortcut.
From Coq Require Import Lia.
Open Scope N_scope.

Lemma release_build c edges B : debug_build c = false -> usize_edges c edges ->
  (forall u v w, In (u, v, w) edges -> u < B /\ v < B) -> B * B <= umax c / 2 -> B + 1 <= umax c / 2 ->
  lenN edges <= umax c / 2 ->
  exists ig fg, ig_run c ig_new (adds edges ++ [OpFreeze]) = Ok ig /\
    prepare_with_params c bin_heap bin_pq ig params_default = Ok fg /\
    frozen_graph c (adds edges ++ [OpFreeze]) ig /\ prepared c ig fg /\ fg_get_num_nodes fg = ig_num_nodes ig /\
    (forall v, known edges v <-> v < ig_num_nodes ig) /\ 1 <= umax c /\
    (forall order params, permutation_of_nodes (ig_num_nodes ig) order ->
       exists fg, prepare_with_order_with_params c bin_heap ig order params = Ok (inl fg)).
Proof.
  intros Hd He HB H2 H3 Hl.
  assert (Hu2 : umax c / 2 <= umax c) by (apply N.div_le_upper_bound; lia).
  assert (HB' : forall u v w, In (u, v, w) edges -> u < umax c /\ v < umax c).
  { intros u v w Hin. destruct (HB u v w Hin). lia. }
  destruct (run_adds_ok c edges HB') with (g := ig_new) as (g & E & Hg); auto.
  destruct (run_freeze c edges g E Hg) as (ig & Ei & Hf).
  assert (HF : frozen_graph c (adds edges ++ [OpFreeze]) ig).
  { split; [|auto]. apply adds_repr. auto. }
  pose proof (fun v => known_count c edges ig v (or_intror HB') HF) as HK.
  assert (Hn : ig_num_nodes ig <= B).
  { destruct (N.lt_ge_cases B (ig_num_nodes ig)) as [Hx|]; auto. exfalso.
    apply HK in Hx. destruct Hx as (e & Hin & Hv). unfold usable in Hin. apply filter_In in Hin as [Hin _].
    apply in_map_iff in Hin as ([[u v] w] & <- & Hin). simpl in Hv. destruct (HB u v w Hin). lia. }
  destruct (C69_release_preparation_returns c (adds edges ++ [OpFreeze]) ig bin_heap bh_inv bin_pq bp_inv Hd) as (HP & HPO); auto.
  { intros e Hin. rewrite adds_accepted in Hin. unfold usable in Hin. apply filter_In in Hin as [Hin _].
    apply in_map_iff in Hin as ([[u v] w] & <- & Hin). exact (HB' u v w Hin). }
  { nia. }
  { lia. }
  { exact bin_heap_laws. }
  { exact bin_pq_laws. }
  destruct (HP params_default) as (fg & Ep).
  assert (Hp : prepared c ig fg) by (left; exists params_default; apply prepare_prepared; exact Ep).
  assert (Hu1 : 1 <= umax c) by lia.
  exists ig, fg. split; auto. split; auto. split; auto. split; auto.
  split; [exact (fs_n _ _ _ _ (shape_str _ _ _ _ (prepared_shape c _ ig fg Hu1 HF Hp)))|]. auto.
Qed.

(** What is always true of an answer, whatever its weight. *)
Lemma C87_batch_release_proof : forall c edges B queries, debug_build c = false -> usize_edges c edges ->
  (forall u v w, In (u, v, w) edges -> u < B /\ v < B) -> B * B <= umax c / 2 -> B + 1 <= umax c / 2 ->
  lenN edges <= umax c / 2 -> (forall q msg, In q queries -> ~ not_allowed edges q msg) ->
  exists rs, readme_batch c edges queries = Ok rs /\
    Forall2 (fun q r => forall p, r = Some p ->
      exists W, total (usable edges) (fst q) (snd q) (sp_get_source p) (sp_get_target p) (sp_get_nodes p) W) queries rs.
Proof.
  intros c edges B queries Hd He HB H2 H3 Hl Hq.
  destruct (release_build c edges B Hd He HB H2 H3 Hl) as (ig & fg & Ei & Ep & HF & Hp & Hnn & HK & Hu1 & _).
  unfold readme_batch. fold (adds edges). rewrite Ei. cbn [bind].
  change (prepare c) with (fun H Q ig => prepare_with_params c H Q ig params_default). cbv beta. rewrite Ep. cbn [bind].
  assert (HC : calculator c (ig_num_nodes ig) (create_calculator c fg)) by (constructor; auto).
  revert HC. generalize (create_calculator c fg).
  induction queries as [|[ss ts] rest IH]; intros pc HC; cbn [run_batch]; [exists []; auto|].
  destruct (C69_release_answers_are_paths c _ ig fg bin_heap bh_inv pc ss ts Hd Hu1 HF Hp bin_heap_laws HC) as (pc' & r & E1 & _ & HR).
  { intros ->. exact (Hq _ _ (or_introl eq_refl) (no_start edges ts)). }
  { intros ->. exact (Hq _ _ (or_introl eq_refl) (no_end edges ss)). }
  { intros v w Hin. destruct (N.lt_ge_cases v (ig_num_nodes ig)) as [|Hx]; auto. exfalso. apply in_app_or in Hin as [Hin|Hin].
    - apply (Hq _ _ (or_introl eq_refl) (bad_start edges ss ts v w Hin ltac:(rewrite HK; lia))).
    - apply (Hq _ _ (or_introl eq_refl) (bad_end edges ss ts v w Hin ltac:(rewrite HK; lia))). }
  destruct (IH ltac:(intros; eapply Hq; simpl; eauto) pc' (calculator_step _ _ _ _ _ _ _ _ HC E1)) as (rs & E2 & HRs).
  exists (r :: rs). rewrite E1. cbn [bind]. rewrite E2. split; auto. constructor; auto.
  intros p Hr. destruct (HR p Hr) as ((w1 & H4) & (w2 & H5) & W & HW). rewrite adds_accepted in HW.
  exists (w1 + W + w2), w1, w2, W. auto.
Qed.

Lemma C90_release_proof : forall c b ss arcs B s t, debug_build c = false -> file_lines b ss ->
  (forall e, In e arcs -> e_from e < B /\ e_to e < B) -> B * B <= umax c / 2 -> B + 1 <= umax c / 2 ->
  lenN arcs <= umax c / 2 -> known (triples arcs) s -> known (triples arcs) t ->
  (plain_text c ss arcs -> exists r, plain_program c (contents b) s t = Ok r /\
     forall p, r = Some p -> sp_get_source p = s /\ sp_get_target p = t /\
       exists W, walk (usable (triples arcs)) s t (sp_get_nodes p) W) /\
  (dimacs_text c ss arcs -> 1 <= s -> 1 <= t -> exists r, dimacs_program c (contents b) s t = Ok r /\
     forall p, r = Some p -> sp_get_source p + 1 = s /\ sp_get_target p + 1 = t /\
       exists W, walk (usable (triples arcs)) s t (file_numbers (sp_get_nodes p)) W).
Proof.
  intros c b ss arcs B s t Hd H1 HA H2 H3 Hl Hs Ht. split.
  - intros HT. rewrite (C90_plain_eq_proof c b ss arcs s t H1 HT). apply C87_release_proof with (B := B); auto.
    + eapply plain_text_bound; eauto.
    + intros u v w Hin. unfold triples in Hin. apply in_map_iff in Hin as (e & E & He). injection E as <- <- <-. auto.
    + unfold lenN, triples in *. rewrite map_length. auto.
  - intros HT S1 T1. rewrite (C90_dimacs_eq_proof c b ss arcs s t H1 HT). destruct (dimacs_text_plain _ _ _ HT) as (_ & HI).
    destruct (C87_release_proof c (triples (map zero_based arcs)) B (s - 1) (t - 1)) as (r & E & HR); auto.
    + intros u v w Hin. unfold triples in Hin. rewrite map_map in Hin. apply in_map_iff in Hin as (e & E & He). injection E as <- <- <-.
      destruct (HI e He) as (? & ? & ?). lia.
    + intros u v w Hin. unfold triples in Hin. rewrite map_map in Hin. apply in_map_iff in Hin as (e & E & He). injection E as <- <- <-.
      destruct (HA e He) as (? & ?). lia.
    + unfold lenN, triples in *. rewrite !map_length. auto.
    + apply (known_up c); auto.
    + apply (known_up c); auto.
    + exists r. split; auto. intros p Hr. destruct (HR p Hr) as (G1 & G2 & W & HW). split; [lia|]. split; [lia|].
      exists W. apply (walk_up c) in HW; auto. rewrite !N.sub_add in HW by lia. auto.
Qed.
