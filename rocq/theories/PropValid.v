(** * PropValid: graphs that pass local checks, wherever they come from (C75) *)
From Verif Require Import SpecValid ValidProps.
From Verif Require Import Examples.
Open Scope N_scope.

(** C75: every graph that is well formed and closed under triangles, whether it was prepared or loaded from any file,
    answers every query rightly for the graph of its plain edges. *)
Theorem C75_valid_graphs_answer_right : forall c fg sources targets r, debug_build c = true ->
  well_formed c fg -> triangles c fg -> answer_multi c fg sources targets r ->
  match r with
  | Some p =>
      sp_get_weight p < WEIGHT_MAX c /\
      total (plain_edges c fg) sources targets (sp_get_source p) (sp_get_target p) (sp_get_nodes p) (sp_get_weight p) /\
      (forall s t ns W, total (plain_edges c fg) sources targets s t ns W -> sp_get_weight p <= W)
  | None => forall s t ns W, total (plain_edges c fg) sources targets s t ns W -> WEIGHT_MAX c <= W
  end.
Proof. exact C75_right_proof. Qed.
Print Assumptions C75_valid_graphs_answer_right.

(** C75: on a well-formed graph every proper query ends without a panic, other than the overflow check of a debug
    build, and a returned node list is a path of plain edges. *)
Theorem C75_well_formed_graphs_are_safe : forall c fg H hinv pc sources targets, well_formed c fg -> heap_laws H hinv ->
  calculator c (fg_num_nodes fg) pc -> sources <> [] -> targets <> [] ->
  (forall v w, In (v, w) (sources ++ targets) -> v < fg_num_nodes fg) ->
  match pc_calc_path_multiple c H pc fg sources targets with
  | Ok (_, r) => forall p, r = Some p -> (exists w, In (sp_get_source p, w) sources) /\ (exists w, In (sp_get_target p, w) targets) /\
      exists W, walk (plain_edges c fg) (sp_get_source p) (sp_get_target p) (sp_get_nodes p) W
  | Panic r => debug_build c = true /\ r = POverflow
  | Diverge => False
  end.
Proof. exact C75_safe_proof. Qed.
Print Assumptions C75_well_formed_graphs_are_safe.

(** C75: the last check is exactly what is needed: a well-formed graph with moderate weights never misses a shorter path
    if and only if it is closed under triangles. *)
Theorem C75_triangles_are_needed : forall c fg M, debug_build c = true -> well_formed c fg ->
  (forall d e, In e (fg_edges fg d) -> fe_weight e <= M) -> 2 * (fg_num_nodes fg * M) <= umax c ->
  (triangles c fg <-> forall s t r, answer c fg s t r ->
     match r with
     | Some p => forall ns W, walk (plain_edges c fg) s t ns W -> sp_get_weight p <= W
     | None => forall ns W, walk (plain_edges c fg) s t ns W -> WEIGHT_MAX c <= W
     end).
Proof. exact C75_iff_proof. Qed.
Print Assumptions C75_triangles_are_needed.

(** C75: every prepared graph passes the checks. *)
Theorem C75_prepared_graphs_are_valid : forall c ops ig fg, debug_build c = true -> frozen_graph c ops ig ->
  prepared c ig fg -> well_formed c fg /\ triangles c fg.
Proof. exact C75_prepared_proof. Qed.
Print Assumptions C75_prepared_graphs_are_valid.

Example C75_case : well_formed cfg64 ex_fg /\ triangles cfg64 ex_fg /\
  calculator cfg64 (fg_num_nodes ex_fg) (create_calculator cfg64 ex_fg) /\
  exists p, answer_multi cfg64 ex_fg [(0, 0)] [(4, 0)] (Some p).
Proof.
  pose proof (C75_prepared_proof cfg64 ex_ops ex_ig ex_fg eq_refl ex_frozen ex_prepared) as [H1 H2].
  split; [exact H1|]. split; [exact H2|]. split; [constructor; reflexivity|].
  eexists. exists list_heap, (fun _ => True). split; [exact list_heap_laws|]. left. vm_compute. reflexivity.
Qed.

(** The checks are needed: 0 -> 1 -> 2 with node 1 ranked lowest and the shortcut missing is well formed, but not
    closed under triangles, and the path from 0 to 2 is not found. *)
Definition ex_gap : FastGraph :=
  mkFG 3 [1; 0; 2] [mkFGE 1 2 5 (umax cfg64) (umax cfg64)] [0; 1; 1; 1] [mkFGE 1 0 7 (umax cfg64) (umax cfg64)] [0; 1; 1; 1].
Example C75_needed : well_formed cfg64 ex_gap /\
  (forall d e, In e (fg_edges ex_gap d) -> fe_weight e <= 7) /\ 2 * (fg_num_nodes ex_gap * 7) <= umax cfg64 /\ ~ triangles cfg64 ex_gap /\
  calc_path cfg64 list_heap ex_gap 0 2 = Ok None /\ walk (plain_edges cfg64 ex_gap) 0 2 [0; 1; 2] 12.
Proof.
  assert (well_formed cfg64 ex_gap) as Hw.
  { constructor.
    - vm_compute. discriminate.
    - split; [repeat constructor; simpl; intuition discriminate|]. intros x. simpl. split.
      + intros [<-|[<-|[<-|[]]]]; lia.
      + intros Hx. assert (x = 0 \/ x = 1 \/ x = 2) as [-> |[-> | ->]] by lia; auto.
    - intros d.
      assert (exists ed, fg_edges ex_gap d = [ed] /\ fe_base ed = 1 /\ fe_replaced_in ed = umax cfg64 /\ fe_replaced_out ed = umax cfg64 /\
        (fe_adj ed = 0 \/ fe_adj ed = 2) /\ 1 <= fe_weight ed <= 7) as (ed & E & B & R1 & R2 & A & W).
      { destruct d; eexists; split; [reflexivity| |reflexivity|]; cbn; repeat split; auto; lia. }
      assert (forall id e, getN [ed] id = Some e -> id = 0 /\ e = ed) as G.
      { intros id e. cbn [getN]. destruct (N.eqb_spec id 0); intros [=]. auto. }
      assert (fg_first_edge_ids ex_gap d = [0; 1; 1; 1]) as F by (destruct d; reflexivity).
      constructor; rewrite ?E, ?F.
      + vm_compute. discriminate.
      + reflexivity.
      + reflexivity.
      + reflexivity.
      + intros r b e. cbn [getN].
        repeat (match goal with |- context[?a =? 0] => destruct (N.eqb_spec a 0) end; try discriminate); intros [= <-] [= <-]; lia.
      + intros id e He. apply G in He as [-> ->]. exists 0, 0, 1. rewrite B. repeat split; reflexivity.
      + intros e [<-|[]]. exists 0. destruct A as [-> | ->]; rewrite B; [exists 1|exists 2]; repeat split; reflexivity.
      + intros e [<-|[]]. cbn [umax cfg64]. lia.
      + intros i1 e1 i2 e2 H1 H2. apply G in H1 as [-> _]. apply G in H2 as [-> _]. auto.
      + intros e [<-|[]]. auto. }
  split; [exact Hw|]. split; [intros [] e [<-|[]]; cbn; lia|]. split; [vm_compute; discriminate|].
  split; [|split; [vm_compute; reflexivity|]].
  - intros HT. destruct (HT (mkFGE 1 0 7 (umax cfg64) (umax cfg64)) (mkFGE 1 2 5 (umax cfg64) (umax cfg64))) as (m & W1 & W2 & A & B & _);
      [left; reflexivity|left; reflexivity|reflexivity|discriminate|reflexivity|].
    cbn in A, B. inversion A as [|e v W [<-|[]]]; subst. inversion B as [|e v W [<-|[]]].
  - change 12 with (7 + (5 + 0)). econstructor; [|econstructor; [|constructor]]; vm_compute; auto.
Qed.
