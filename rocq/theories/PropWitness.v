(** * PropWitness: what a single witness search returns (C74) *)
From Verif Require Import SpecWitness WitnessProps.
From Verif Require Import Examples.
Open Scope N_scope.

(** C74: in every search that a preparation can make, the returned weight is an upper bound for the weight of a
    shortest path that avoids the node; it is this weight if the target is settled; if it exceeds the weight limit
    although the limit of settled nodes is not reached, no path within the weight limit exists; the limit of
    settled nodes is respected, and never all nodes are settled. *)
Theorem C74_contract : forall c ops ig H hinv g s x ws target weight_limit settled_limit ws' w,
  debug_build c = true -> frozen_graph c ops ig -> ig_num_nodes ig <= umax c -> heap_laws H hinv ->
  searching c H ig g s x ws -> target < ig_num_nodes ig ->
  ws_find_max_weight c H ws g target weight_limit settled_limit = Ok (ws', w) ->
  (w < WEIGHT_MAX c -> exists W, W <= w /\ detour g x s target W) /\
  (ws_is_settled ws' target = Ok true -> forall W, detour g x s target W -> w <= W) /\
  (ws_settled ws' < settled_limit -> weight_limit < w -> forall W, detour g x s target W -> weight_limit < W) /\
  ws_settled ws' <= N.max settled_limit (ws_settled ws) /\ ws_settled ws' < ig_num_nodes ig.
Proof. exact C74_proof. Qed.
Print Assumptions C74_contract.

Definition w_g0 : PrepGraph := Eval vm_compute in get_ok (pg_from_input_graph cfg64 ex_ig) (pg_new 0).
Definition w_p1 : PrepGraph * WitnessSearch := Eval vm_compute in
  get_ok (contract_node cfg64 list_heap w_g0 (ws_new cfg64 6) 2 100) (pg_new 0, ws_new cfg64 0).
Definition w_ws1 : WitnessSearch := Eval vm_compute in get_ok (ws_init cfg64 list_heap (snd w_p1) 0 1) (ws_new cfg64 0).
Definition w_ws2 : WitnessSearch * N := Eval vm_compute in
  get_ok (ws_find_max_weight cfg64 list_heap w_ws1 (fst w_p1) 3 100 1) (ws_new cfg64 0, 0).
Definition w_ws3 : WitnessSearch * N := Eval vm_compute in
  get_ok (ws_find_max_weight cfg64 list_heap (fst w_ws2) (fst w_p1) 4 100 9) (ws_new cfg64 0, 0).
Example C74_case :
  searching cfg64 list_heap ex_ig (fst w_p1) 0 1 (fst w_ws2) /\ ws_settled (fst w_ws2) = 1 /\
  ws_find_max_weight cfg64 list_heap (fst w_ws2) (fst w_p1) 4 100 9 = Ok w_ws3 /\
  snd w_ws3 = 13 /\ ws_settled (fst w_ws3) = 2.
Proof.
  split.
  - eapply searching_find with (ws := w_ws1) (target := 3) (weight_limit := 100) (settled_limit := 1) (w := snd w_ws2); [|vm_compute; reflexivity|vm_compute; reflexivity].
    eapply searching_init with (ws0 := snd w_p1); [|vm_compute; reflexivity|vm_compute; reflexivity|vm_compute; reflexivity].
    eapply working_contract with (g := w_g0) (ws := ws_new cfg64 6) (x := 2) (limit := 100); [|vm_compute; reflexivity].
    apply working_new with (n := 6); vm_compute; reflexivity.
  - repeat split; vm_compute; reflexivity.
Qed.
