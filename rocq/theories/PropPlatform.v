(** * PropPlatform: C86, the same program on targets with integers of different size *)
From Verif Require Export PlatformFacts Prop32 PropCert.
From Coq Require Import Lia.
Open Scope N_scope.

(** C86: the same calls build the same input graph on two targets if both builds check for overflow and neither
    panics; and the target with the larger integers does not panic if the other one does not. *)
Theorem C86_same_input_graph : forall c c' ops ig ig',
  debug_build c = true -> debug_build c' = true -> frozen_graph c ops ig -> frozen_graph c' ops ig' -> ig = ig'.
Proof. exact C86_graph_proof. Qed.
Print Assumptions C86_same_input_graph.

Theorem C86_larger_target_builds : forall c c' ops ig, debug_build c' = true -> umax c' <= umax c ->
  frozen_graph c' ops ig -> frozen_graph c ops ig.
Proof. exact C86_larger_proof. Qed.
Print Assumptions C86_larger_target_builds.

(** Prepared on each target on its own, with whatever orders and parameters, both report the same weight; unless it
    does not fit one of them: there the answer is None. *)
Theorem C86_same_weights : forall c c' ops ig ig' fg fg' sources targets r r',
  debug_build c = true -> debug_build c' = true ->
  frozen_graph c ops ig -> frozen_graph c' ops ig' -> prepared c ig fg -> prepared c' ig' fg' ->
  answer_multi c fg sources targets r -> answer_multi c' fg' sources targets r' ->
  match r, r' with
  | Some p, Some p' => sp_get_weight p = sp_get_weight p'
  | Some p, None => WEIGHT_MAX c' <= sp_get_weight p
  | None, Some p' => WEIGHT_MAX c <= sp_get_weight p'
  | None, None => True
  end.
Proof. exact C86_multi_proof. Qed.
Print Assumptions C86_same_weights.

Theorem C86_same_weights_single : forall c c' ops ig ig' fg fg' s t r r',
  debug_build c = true -> debug_build c' = true ->
  frozen_graph c ops ig -> frozen_graph c' ops ig' -> prepared c ig fg -> prepared c' ig' fg' ->
  answer c fg s t r -> answer c' fg' s t r' ->
  match r, r' with
  | Some p, Some p' => sp_get_weight p = sp_get_weight p'
  | Some p, None => WEIGHT_MAX c' <= sp_get_weight p
  | None, Some p' => WEIGHT_MAX c <= sp_get_weight p'
  | None, None => True
  end.
Proof. exact C86_single_proof. Qed.
Print Assumptions C86_same_weights_single.

(** A path of weight 2^32 - 1 is reported on a target with 64 bits and missing on one with 32 bits; its
    first edge is reported by both. *)
Definition pf_ops : list ig_op := [OpAddEdge 0 1 (2 ^ 31); OpAddEdge 1 2 (2 ^ 31 - 1); OpFreeze].
Definition pf_ig : InputGraph := Eval vm_compute in get_ok (ig_run cfg64 ig_new pf_ops) ig_new.
Definition pf_fg64 : FastGraph := Eval vm_compute in get_ok (prepare cfg64 list_heap list_pq pf_ig) fg_dummy.
Definition pf_fg32 : FastGraph := Eval vm_compute in get_ok (prepare cfg32 list_heap list_pq pf_ig) fg_dummy.
Lemma pf_frozen : frozen_graph cfg64 pf_ops pf_ig /\ frozen_graph cfg32 pf_ops pf_ig.
Proof.
  split; (split; [|split; vm_compute; reflexivity]); intros o Ho;
  repeat (destruct Ho as [<-|Ho]; [vm_compute; repeat split; discriminate|]); destruct Ho.
Qed.
Lemma pf_prepared : prepared cfg64 pf_ig pf_fg64 /\ prepared cfg32 pf_ig pf_fg32.
Proof.
  split; left; exists params_default, list_heap, (fun _ => True), list_pq, (fun _ => True);
    (split; [exact list_heap_laws|]); (split; [exact list_pq_laws|]); vm_compute; reflexivity.
Qed.
Example C86_case : answer cfg64 pf_fg64 0 2 (Some (mkSP 0 2 (2 ^ 32 - 1) [0; 1; 2])) /\ answer cfg32 pf_fg32 0 2 None /\
  answer cfg64 pf_fg64 0 1 (Some (mkSP 0 1 (2 ^ 31) [0; 1])) /\ answer cfg32 pf_fg32 0 1 (Some (mkSP 0 1 (2 ^ 31) [0; 1])) /\
  WEIGHT_MAX cfg32 <= 2 ^ 32 - 1.
Proof.
  repeat split; try (exists list_heap, (fun _ => True); split; [exact list_heap_laws|left; vm_compute; reflexivity]).
  vm_compute. discriminate.
Qed.
