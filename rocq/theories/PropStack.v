(** * PropStack: C80, the call stack of a query *)
From Verif Require Export StackChain Examples.
From Coq Require Import Lia.
Open Scope N_scope.

(** A limited call stack changes nothing but that the process may abort by stack overflow. *)
Theorem C80_same_or_overflow : forall room c H pc fg sources targets,
  pc_calc_path_multiple c H pc fg sources targets <> Diverge ->
  k_calc_path_multiple room c H pc fg sources targets = pc_calc_path_multiple c H pc fg sources targets \/
  k_calc_path_multiple room c H pc fg sources targets = Panic stack_overflow.
Proof. exact C80_same_proof. Qed.
Print Assumptions C80_same_or_overflow.
Example C80_same_case :
  k_pc_calc_path 1 cfg64 list_heap ex_pc2 ex_fg 0 4 = Panic stack_overflow /\
  k_pc_calc_path 2 cfg64 list_heap ex_pc2 ex_fg 0 4 = pc_calc_path cfg64 list_heap ex_pc2 ex_fg 0 4.
Proof. vm_compute. split; reflexivity. Qed.

(** A query whose path has [k] edges needs at most [k] nested calls, for every graph: prepared, loaded or altered. *)
Theorem C80_room_for_path : forall room c H pc fg sources targets pc' r,
  pc_calc_path_multiple c H pc fg sources targets = Ok (pc', r) ->
  (forall p, r = Some p -> lenN (sp_get_nodes p) <= N.of_nat room + 1) ->
  k_calc_path_multiple room c H pc fg sources targets = Ok (pc', r).
Proof. exact C80_path_proof. Qed.
Print Assumptions C80_room_for_path.
Example C80_path_case : exists pc', k_pc_calc_path 3 cfg64 list_heap ex_pc2 ex_fg 0 4 = Ok (pc', Some ex_path).
Proof.
  eexists. apply C80_room_for_path.
  - vm_compute. reflexivity.
  - intros p [= <-]. vm_compute. discriminate.
Qed.

(** With room for one call less than the graph has nodes no query on a prepared graph can tell the difference,
    in both builds, whatever sources and targets it is given and whatever state the calculator is in. *)
Theorem C80_room_for_graph : forall room c ops ig fg H pc sources targets,
  1 <= umax c -> frozen_graph c ops ig -> prepared c ig fg -> 1 <= N.of_nat room -> ig_num_nodes ig <= N.of_nat room + 1 ->
  k_calc_path_multiple room c H pc fg sources targets = pc_calc_path_multiple c H pc fg sources targets.
Proof. exact C80_graph_proof. Qed.
Print Assumptions C80_room_for_graph.
Example C80_graph_case : forall sources targets,
  k_calc_path_multiple 5 cfg64 list_heap ex_pc2 ex_fg sources targets =
  pc_calc_path_multiple cfg64 list_heap ex_pc2 ex_fg sources targets.
Proof.
  assert (ig_num_nodes ex_ig <= N.of_nat 5 + 1) as Hn by (vm_compute; discriminate).
  intros ss ts. apply (C80_room_for_graph 5 cfg64 ex_ops ex_ig ex_fg list_heap ex_pc2 ss ts ltac:(vm_compute; discriminate)
    ex_frozen ex_prepared ltac:(vm_compute; discriminate) Hn).
Qed.

(** The same for queries with one source and one target, by a calculator and by the function of the library. *)
Theorem C80_single_queries : forall room c H pc fg s t,
  (pc_calc_path c H pc fg s t <> Diverge ->
   k_pc_calc_path room c H pc fg s t = pc_calc_path c H pc fg s t \/ k_pc_calc_path room c H pc fg s t = Panic stack_overflow) /\
  (calc_path c H fg s t <> Diverge ->
   k_calc_path room c H fg s t = calc_path c H fg s t \/ k_calc_path room c H fg s t = Panic stack_overflow).
Proof. exact C80_single_proof. Qed.
Print Assumptions C80_single_queries.
Theorem C80_single_room_for_graph : forall room c ops ig fg H pc s t,
  1 <= umax c -> frozen_graph c ops ig -> prepared c ig fg -> 1 <= N.of_nat room -> ig_num_nodes ig <= N.of_nat room + 1 ->
  k_pc_calc_path room c H pc fg s t = pc_calc_path c H pc fg s t /\ k_calc_path room c H fg s t = calc_path c H fg s t.
Proof. exact C80_single_graph_proof. Qed.
Print Assumptions C80_single_room_for_graph.
Example C80_single_case : k_calc_path 1 cfg64 list_heap ex_fg 0 4 = Panic stack_overflow /\
  k_calc_path 2 cfg64 list_heap ex_fg 0 4 = Ok (Some ex_path).
Proof. vm_compute. split; reflexivity. Qed.

(** No smaller room is enough for every graph: on the chain of [n] nodes contracted from one end the query from end to
    end overflows with room for [n - 2] nested calls and returns the path with more, in builds with and without
    overflow checks, with every heap. *)
Theorem C80_stack_is_exhausted : forall c H hinv n, debug_build c = true -> heap_laws H hinv -> 2 <= n ->
  n * n <= umax c / 2 -> 4 * n <= umax c ->
  exists ig fg, frozen_graph c (chain_calls n) ig /\ ig_num_nodes ig = n /\
    permutation_of_nodes n (from_one_end n) /\
    prepare_with_order_with_params c H ig (from_one_end n) (mkParamsWithOrder n) = Ok (inl fg) /\
    forall c' H' hinv' pc room, c' = c \/ c' = unchecked c -> heap_laws H' hinv' -> calculator c n pc ->
      exists pc', pc_calc_path c' H' pc fg 0 (n - 1) = Ok (pc', Some (mkSP 0 (n - 1) (n - 1) (rangeN 0 n))) /\
        k_pc_calc_path room c' H' pc fg 0 (n - 1) =
          if N.of_nat room <=? n - 2 then Panic stack_overflow
          else Ok (pc', Some (mkSP 0 (n - 1) (n - 1) (rangeN 0 n))).
Proof. exact C80_overflow_proof. Qed.
Print Assumptions C80_stack_is_exhausted.
(** room for 100000 nested calls is not enough for a chain of a million nodes *)
Example C80_exhausted_case : exists ig fg, frozen_graph cfg64 (chain_calls 1000000) ig /\
  prepare_with_order_with_params cfg64 list_heap ig (from_one_end 1000000) (mkParamsWithOrder 1000000) = Ok (inl fg) /\
  forall pc room, calculator cfg64 1000000 pc -> N.of_nat room <= 100000 ->
    k_pc_calc_path room (unchecked cfg64) list_heap pc fg 0 999999 = Panic stack_overflow.
Proof.
  destruct (C80_stack_is_exhausted cfg64 list_heap (fun _ => True) 1000000 eq_refl list_heap_laws)
    as (ig & fg & H1 & _ & _ & H2 & H3).
  - vm_compute. discriminate.
  - vm_compute. discriminate.
  - vm_compute. discriminate.
  - exists ig, fg. split; [exact H1|]. split; [exact H2|]. intros pc room Hpc Hr.
    destruct (H3 (unchecked cfg64) list_heap (fun _ => True) pc room (or_intror eq_refl) list_heap_laws Hpc) as (pc' & _ & E).
    assert (N.of_nat room <=? 1000000 - 2 = true) as Hb by (apply N.leb_le; lia).
    rewrite Hb in E. exact E.
Qed.
