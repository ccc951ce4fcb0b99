(** * Prop32: C27-C30, C40, the 32-bit representation *)
From Verif Require Export Fg32Props Examples.
Open Scope N_scope.

(** C27: conversion to 32 bit and back is the identity if every stored integer is usize::MAX or below
    2^32-1. *)
Theorem C27_round_trip : forall c fg, platform64 c ->
  fg_get_num_nodes fg < u32_max ->
  (forall x, In x (ints fg) -> x = umax c \/ x < u32_max) ->
  exists g, to_fast_graph32 c fg = Ok g /\ from_fast_graph32 c g = Ok fg.
Proof. exact C27_proof. Qed.
Print Assumptions C27_round_trip.
Example C27_case : platform64 cfg64 /\ fg_get_num_nodes ex_fg < u32_max /\
  (forall x, In x (ints ex_fg) -> x = umax cfg64 \/ x < u32_max) /\ In (umax cfg64) (ints ex_fg).
Proof.
  split; [reflexivity|]. split; [reflexivity|]. split.
  - intros x Hx. vm_compute in Hx.
    repeat (destruct Hx as [<-|Hx]; [first [left; reflexivity | right; reflexivity]|]). destruct Hx.
  - vm_compute. tauto.
Qed.

(** C28: conversion panics exactly on an integer that does not fit, and otherwise returns. *)
Theorem C28_panics_iff_too_large : forall c fg, platform64 c ->
  ((exists x, In x (ints fg) /\ u32_max < x /\ x <> umax c) <->
   to_fast_graph32 c fg = Panic (PExplicit "Could not convert to a 32-bit integer")) /\
  ((forall x, In x (ints fg) -> x <= u32_max \/ x = umax c) <-> exists g, to_fast_graph32 c fg = Ok g).
Proof. exact C28_proof. Qed.
Print Assumptions C28_panics_iff_too_large.

(** ... and returns the integers themselves, with usize::MAX replaced by u32::MAX. *)
Theorem C28_never_truncates : forall c fg g, platform64 c -> to_fast_graph32 c fg = Ok g ->
  ints32 g = map (fun x => if x =? umax c then u32_max else x) (ints fg).
Proof. exact C28_value_proof. Qed.
Print Assumptions C28_never_truncates.
Example C28_case : to_fast_graph32 cfg64 (mkFG 1 [0] [mkFGE 0 0 4294967296 0 0] [0; 1] [] [0; 0]) =
    Panic (PExplicit "Could not convert to a 32-bit integer") /\
  exists g, to_fast_graph32 cfg64 (mkFG 1 [0] [mkFGE 0 0 4294967295 0 0] [0; 1] [] [0; 0]) = Ok g.
Proof. split; [vm_compute; reflexivity|]. eexists. vm_compute. reflexivity. Qed.

(** C29: with numbers of nodes and edges and weights below 2^32-1 (not 2^32) the prepared
    graph is restored exactly. *)
Theorem C29_below_u32_max_partial : forall c ops ig fg,
  platform64 c -> frozen_graph c ops ig -> prepared c ig fg ->
  values_below (2 ^ 32 - 1) fg ->
  exists g, to_fast_graph32 c fg = Ok g /\ from_fast_graph32 c g = Ok fg.
Proof. exact C29_proof. Qed.
Print Assumptions C29_below_u32_max_partial.
Example C29_case : values_below (2 ^ 32 - 1) ex_fg.
Proof.
  do 3 (split; [vm_compute; reflexivity|]). intros e He. vm_compute in He.
  repeat (destruct He as [<-|He]; [vm_compute; reflexivity|]). destruct He.
Qed.

(** With an edge of weight 2^32-1 the path over it is lost. *)
Theorem C29_refuted : exists ops ig fg g fg',
  frozen_graph cfg64 ops ig /\ prepare cfg64 list_heap list_pq ig = Ok fg /\ values_below (2 ^ 32) fg /\
  to_fast_graph32 cfg64 fg = Ok g /\ from_fast_graph32 cfg64 g = Ok fg' /\
  calc_path cfg64 list_heap fg 0 1 = Ok (Some (mkSP 0 1 4294967295 [0; 1])) /\
  calc_path cfg64 list_heap fg' 0 1 = Ok None.
Proof.
  exists [OpAddEdge 0 1 4294967295; OpFreeze].
  exists (mkInputGraph [mkEdge 0 1 4294967295] 2 true).
  eexists. eexists. eexists. split; [|split; [vm_compute; reflexivity|]].
  - split; [|split; vm_compute; reflexivity]. intros o [<-|[<-|[]]]; cbn; repeat split; discriminate.
  - split; [|do 3 (split; [vm_compute; reflexivity|]); vm_compute; reflexivity].
    do 3 (split; [vm_compute; reflexivity|]). intros e He. vm_compute in He.
    repeat (destruct He as [<-|He]; [vm_compute; reflexivity|]). destruct He.
Qed.
Print Assumptions C29_refuted.

(** C30: on a 32-bit platform conversion works for graphs without edges only; for all others the
    recursion never ends, whatever the stack depth. *)
Theorem C30_without_edges_partial : forall c ops ig fg,
  platform32 c -> frozen_graph c ops ig -> prepared c ig fg ->
  all_edges fg = [] -> exists g, to_fast_graph32 c fg = Ok g /\ from_fast_graph32 c g = Ok fg.
Proof. intros c ops ig fg H1 H2 H3. exact (proj1 (C30_proof c ops ig fg H1 H2 H3)). Qed.
Print Assumptions C30_without_edges_partial.
Theorem C30_with_edges_refuted : forall c ops ig fg,
  platform32 c -> frozen_graph c ops ig -> prepared c ig fg ->
  all_edges fg <> [] -> forall depth, fg32_new depth c fg = Diverge.
Proof. intros c ops ig fg H1 H2 H3. exact (proj2 (C30_proof c ops ig fg H1 H2 H3)). Qed.
Print Assumptions C30_with_edges_refuted.
Definition cfg32 : cfg := mkCfg 4294967295 true.
Example C30_case : exists fg, frozen_graph cfg32 ex_ops ex_ig /\ prepared cfg32 ex_ig fg /\ all_edges fg <> [].
Proof.
  eexists. split; [|split].
  - split; [|split; vm_compute; reflexivity]. intros o Ho.
    repeat (destruct Ho as [<-|Ho]; [cbn; repeat split; discriminate|]). destruct Ho.
  - left. exists params_default, list_heap, (fun _ => True), list_pq, (fun _ => True).
    split; [exact list_heap_laws|]. split; [exact list_pq_laws|]. vm_compute. reflexivity.
  - discriminate.
Qed.

(** C40: a graph converted on a 64-bit platform and read on a 32-bit platform answers queries
    correctly there. *)
Theorem C40_written_64_read_32 : forall c c' ops ig fg,
  platform64 c -> debug_build c = true -> frozen_graph c ops ig -> prepared c ig fg ->
  platform32 c' -> debug_build c' = true ->
  values_below (2 ^ 32 - 1) fg ->
  fg_get_num_nodes fg < 2 ^ 31 - 1 -> fg_get_num_out_edges fg < 2 ^ 31 - 1 -> fg_get_num_in_edges fg < 2 ^ 31 - 1 ->
  exists g fg', to_fast_graph32 c fg = Ok g /\ from_fast_graph32 c' g = Ok fg' /\
    (forall sources targets r, answer_multi c' fg' sources targets r ->
      match r with
      | Some p =>
          sp_get_weight p < WEIGHT_MAX c' /\
          total (accepted ops) sources targets (sp_get_source p) (sp_get_target p) (sp_get_nodes p) (sp_get_weight p) /\
          (forall s t ns W, total (accepted ops) sources targets s t ns W -> sp_get_weight p <= W)
      | None => forall s t ns W, total (accepted ops) sources targets s t ns W -> WEIGHT_MAX c' <= W
      end) /\
    (forall H hinv s t, heap_laws H hinv -> s < ig_num_nodes ig -> t < ig_num_nodes ig ->
       (exists r, calc_path c' H fg' s t = Ok r) \/ calc_path c' H fg' s t = Panic POverflow).
Proof. exact C40_proof. Qed.
Print Assumptions C40_written_64_read_32.
Example C40_case : exists g fg', to_fast_graph32 cfg64 ex_fg = Ok g /\ from_fast_graph32 cfg32 g = Ok fg' /\
  fg' <> ex_fg /\ calc_path cfg32 list_heap fg' 0 4 = Ok (Some ex_path).
Proof. eexists. eexists. split; [vm_compute; reflexivity|]. split; [vm_compute; reflexivity|]. split; [discriminate|vm_compute; reflexivity]. Qed.
