(** * PropUnwind: calculators and input graphs after a caught panic (C64, C65) *)
From Verif Require Import SpecUnwind UnwindProps.
From Verif Require Import Examples.
Open Scope N_scope.

(** C64: the model with states of panics gives the same results, and the same states where a query returns. *)
Theorem C64_same_results : forall c H fg sources targets pc,
  snd (st_calc_path_multiple c H fg sources targets pc) = result_of (pc_calc_path_multiple c H pc fg sources targets) /\
  forall pc' r, pc_calc_path_multiple c H pc fg sources targets = Ok (pc', r) <->
                st_calc_path_multiple c H fg sources targets pc = (pc', Ok r).
Proof. exact C64_same_proof. Qed.
Print Assumptions C64_same_results.

Theorem C64_same_results_single : forall c H fg source target pc,
  snd (st_calc_path c H fg source target pc) = result_of (pc_calc_path c H pc fg source target) /\
  forall pc' r, pc_calc_path c H pc fg source target = Ok (pc', r) <-> st_calc_path c H fg source target pc = (pc', Ok r).
Proof. intros c H fg source target pc. exact (C64_same_proof c H fg [(source, 0)] [(target, 0)] pc). Qed.
Print Assumptions C64_same_results_single.

(** C64: whatever a query does, also if it panics, the next query of the same calculator is not affected. *)
Theorem C64_panic_does_not_spoil_calculator : forall c n pc H hinv H' fg fg' sources targets sources' targets' pc' out,
  heap_laws H hinv -> calculator c n pc ->
  st_calc_path_multiple c H' fg' sources' targets' pc = (pc', out) ->
  snd (st_calc_path_multiple c H fg sources targets pc') = snd (st_calc_path_multiple c H fg sources targets pc).
Proof. exact C64_any_proof. Qed.
Print Assumptions C64_panic_does_not_spoil_calculator.

(** a query that overflows while it relaxes the first edge: labels and heap entries of both directions are left behind *)
Definition ex_heavy : list (N * N) := [(0, 18446744073709551614)].
Definition ex_pc3 : PathCalculator :=
  Eval vm_compute in fst (st_calc_path_multiple cfg64 list_heap ex_fg ex_heavy [(4, 0)] (create_calculator cfg64 ex_fg)).
Example C64_case : calculator cfg64 6 ex_pc3 /\
  st_calc_path_multiple cfg64 list_heap ex_fg ex_heavy [(4, 0)] (create_calculator cfg64 ex_fg) = (ex_pc3, Panic POverflow) /\
  s_heap (pc_bwd ex_pc3) <> [] /\ ex_pc3 <> create_calculator cfg64 ex_fg /\
  result_of (pc_calc_path cfg64 list_heap ex_pc3 ex_fg 0 4) = Ok (Some ex_path).
Proof.
  assert (st_calc_path_multiple cfg64 list_heap ex_fg ex_heavy [(4, 0)] (create_calculator cfg64 ex_fg) = (ex_pc3, Panic POverflow)) as E
    by (vm_compute; reflexivity).
  split. { eapply calculator_unwound; [|exact list_heap_laws|exact E]. apply calculator_new. reflexivity. }
  split; [exact E|]. split; [discriminate|]. split; [discriminate|]. vm_compute. reflexivity.
Qed.

(** C65: the same for calls of InputGraph methods. *)
Theorem C65_same_results : forall c o g,
  match ig_step c g o with
  | Ok (g', out) => st_ig_step c o g = (g', Ok out)
  | Panic r => snd (st_ig_step c o g) = Panic r
  | Diverge => False
  end.
Proof. exact C65_same_proof. Qed.
Print Assumptions C65_same_results.

(** C65: a call that panics leaves the graph as it was, unless the Vec of edges is full. *)
Theorem C65_panic_changes_nothing : forall c o g r g', lenN (ig_edges g) + lenN (requested o) <= umax c / 2 ->
  st_ig_step c o g = (g', Panic r) -> g' = g.
Proof. exact C65_unchanged_proof. Qed.
Print Assumptions C65_panic_changes_nothing.

(** C65: so after any session with caught panics the graph is the one that the returning calls alone would have built. *)
Theorem C65_caught_panics_can_be_ignored : forall c ops g outs, lenN (flat_map requested ops) <= umax c / 2 ->
  st_session c ops ig_new = (g, outs) -> ig_run c ig_new (returned ops outs) = Ok g.
Proof. exact C65_session_proof. Qed.
Print Assumptions C65_caught_panics_can_be_ignored.

(** Six calls of which three panic: reading before freeze, an id that is too large, adding after freeze. *)
Definition ex_session : list ig_op :=
  [OpAddEdge 0 1 5; OpGetNumNodes; OpAddEdge 0 18446744073709551615 1; OpAddEdgeBidir 1 2 7; OpFreeze; OpAddEdge 3 4 1; OpGetNumNodes].
Example C65_case : exists g outs, lenN (flat_map requested ex_session) <= umax cfg64 / 2 /\
  st_session cfg64 ex_session ig_new = (g, outs) /\
  returned ex_session outs = [OpAddEdge 0 1 5; OpAddEdgeBidir 1 2 7; OpFreeze; OpGetNumNodes] /\
  nth_error outs 2 = Some (Panic POverflow) /\ ig_num_nodes g = 3.
Proof.
  eexists _, _. split; [vm_compute; discriminate|]. split; [vm_compute; reflexivity|]. repeat split; reflexivity.
Qed.
