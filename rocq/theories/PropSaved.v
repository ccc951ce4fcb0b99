(** * PropSaved: C88, the program of the README with a saved graph *)
From Verif Require Export SavedFacts PropProgram.
From Coq Require Import Lia.
Open Scope N_scope.

(** C88: saving the prepared graph, loading it and asking the loaded graph is the same as asking the prepared graph:
    the same answer, or the same panic.  Loading never reports an error. *)
Theorem C88_saving_changes_nothing : forall c edges s t, platform c -> 1 <= umax c -> usize_edges c edges ->
  readme_saved c edges s t = (r <- readme_program c edges s t ;; Ok (inr r)).
Proof. exact C88_saved_proof. Qed.
Print Assumptions C88_saving_changes_nothing.
Example C88_saved_case : platform cfg64 /\ platform (unchecked cfg64) /\ usize_edges cfg64 readme_edges /\
  readme_saved cfg64 readme_edges 8 6 = Ok (inr (Some (mkSP 8 6 13 [8; 7; 3; 2; 6]))) /\
  readme_saved cfg64 readme_edges 9 5 = Panic (PAssert "invalid start node").
Proof.
  split; [reflexivity|]. split; [reflexivity|]. split; [exact (proj1 C87_batch_case)|]. vm_compute. split; reflexivity.
Qed.

(** Prepared on a 64-bit platform, saved in the 32-bit form and loaded on a 32-bit platform, builds with or without
    overflow checks on either side: with nodes below 500 and weights up to a 498002nd of 2^32 - 1 the query returns a
    shortest path, or None and then there is no path at all. *)
Theorem C88_prepared_on_64_used_on_32 : forall c c' edges M s t, platform64 c -> platform32 c' ->
  (forall u v w, In (u, v, w) edges -> u < 500 /\ v < 500 /\ w <= M) -> 498002 * M <= 2 ^ 32 - 1 ->
  lenN edges <= 2 ^ 62 -> known edges s -> known edges t ->
  exists r, readme_wasm c c' edges s t = Ok (inr r) /\
    match r with
    | Some p =>
        sp_get_source p = s /\ sp_get_target p = t /\ walk (usable edges) s t (sp_get_nodes p) (sp_get_weight p) /\
        (forall ns W, walk (usable edges) s t ns W -> sp_get_weight p <= W)
    | None => forall ns W, ~ walk (usable edges) s t ns W
    end.
Proof. exact C88_wasm_proof. Qed.
Print Assumptions C88_prepared_on_64_used_on_32.
Example C88_wasm_case : platform64 (unchecked cfg64) /\ platform32 (unchecked cfg32) /\
  (forall u v w, In (u, v, w) readme_edges -> u < 500 /\ v < 500 /\ w <= 8624) /\ 498002 * 8624 <= 2 ^ 32 - 1 /\
  lenN readme_edges <= 2 ^ 62 /\ known readme_edges 8 /\ known readme_edges 6 /\
  readme_wasm (unchecked cfg64) (unchecked cfg32) readme_edges 8 6 = Ok (inr (Some (mkSP 8 6 13 [8; 7; 3; 2; 6]))) /\
  readme_wasm cfg64 cfg32 readme_edges 0 5 = Ok (inr None).
Proof.
  split; [reflexivity|]. split; [reflexivity|]. split.
  { intros u v w H. repeat (destruct H as [H|H]; [injection H as <- <- <-; repeat split; vm_compute; congruence|]). destruct H. }
  split; [vm_compute; discriminate|]. split; [vm_compute; discriminate|].
  split; [exists (mkEdge 8 7 4); split; [vm_compute; auto|vm_compute; left; discriminate]|].
  split; [exists (mkEdge 0 6 12); split; [vm_compute; auto|vm_compute; right; discriminate]|].
  vm_compute. split; reflexivity.
Qed.

(** The bounds are needed, even if all weights fit 32 bits: for two edges whose weights add up to 2^32 + 5 a build
    with overflow checks panics on the 32-bit platform, and one without reports the weight 5. *)
Theorem C88_bounds_are_needed : exists edges s t p,
  (forall u v w, In (u, v, w) edges -> w < 2 ^ 32 - 1) /\ is_dist (usable edges) s t (2 ^ 32 + 5) /\
  readme_wasm cfg64 cfg32 edges s t = Panic POverflow /\
  readme_wasm (unchecked cfg64) (unchecked cfg32) edges s t = Ok (inr (Some p)) /\ sp_get_weight p = 5.
Proof.
  exists [(0, 1, 2 ^ 31); (1, 2, 2 ^ 31 + 5)], 0, 2, (mkSP 0 2 5 [0; 1; 2]).
  split; [|split; [|split; [vm_compute; reflexivity|split; [vm_compute; reflexivity|reflexivity]]]].
  - intros u v w H. repeat (destruct H as [H|H]; [injection H as <- <- <-; vm_compute; congruence|]). destruct H.
  - change (usable _) with [mkEdge 0 1 (2 ^ 31); mkEdge 1 2 (2 ^ 31 + 5)]. split.
    + exists [0; 1; 2]. change (2 ^ 32 + 5) with (2 ^ 31 + ((2 ^ 31 + 5) + 0)).
      eapply walk_cons; [left; reflexivity|]. eapply walk_cons; [right; left; reflexivity|]. constructor.
    + intros ns W HW. inversion HW as [|u v t w ns' W' He HW' E1 E2 E3 E4]; subst.
      destruct He as [He|[He|[]]]; [|discriminate]. injection He as <- <-.
      inversion HW' as [|u v t w ns2 W2 He HW2 E1 E2 E3 E4]; subst.
      destruct He as [He|[He|[]]]; [discriminate|]. injection He as <- <-. lia.
Qed.
Print Assumptions C88_bounds_are_needed.
