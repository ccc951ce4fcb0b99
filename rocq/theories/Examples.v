(** * Examples: a concrete graph, its preparation and queries on it, used beside the theorems to show
    that their hypotheses can be met. *)
From Verif Require Export SpecApi HeapImpl HeapFacts.
From Coq Require Import Lia.

Definition cfg64 : cfg := mkCfg 18446744073709551615 true.

(** A directed graph with a duplicate edge, a loop, a zero-weight edge and a freeze/thaw cycle. *)
Definition ex_ops : list ig_op :=
  [OpAddEdge 0 1 5; OpAddEdge 1 2 3; OpAddEdgeBidir 2 3 4; OpAddEdge 0 2 9; OpFreeze; OpThaw;
   OpAddEdge 0 2 7; OpAddEdge 3 3 2; OpAddEdge 4 0 0; OpAddEdge 3 4 2; OpAddEdge 4 1 1;
   OpAddEdge 5 3 6; OpFreeze].

Definition get_ok {A} (m : res A) (d : A) : A := match m with Ok a => a | _ => d end.
Definition fg_dummy : FastGraph := mkFG 0 [] [] [] [] [].

Definition ex_ig : InputGraph := Eval vm_compute in get_ok (ig_run cfg64 ig_new ex_ops) ig_new.
Definition ex_fg : FastGraph :=
  Eval vm_compute in get_ok (prepare cfg64 list_heap list_pq ex_ig) fg_dummy.
(** contracted in the given order 2,3,0,5,4,1 *)
Definition ex_order : list N := [2; 3; 0; 5; 4; 1].
Definition ex_fg2 : FastGraph :=
  Eval vm_compute in
    match prepare_with_order cfg64 list_heap ex_ig ex_order with Ok (inl g) => g | _ => fg_dummy end.

Lemma ex_repr : forall o, In o ex_ops -> op_repr cfg64 o.
Proof.
  intros o Ho. repeat (destruct Ho as [<-|Ho]; [cbn; repeat split; discriminate|]). destruct Ho.
Qed.

Example ex_frozen : frozen_graph cfg64 ex_ops ex_ig.
Proof. split; [exact ex_repr|]. split; vm_compute; reflexivity. Qed.

Example ex_prepared : prepared cfg64 ex_ig ex_fg.
Proof.
  left. exists params_default, list_heap, (fun _ => True), list_pq, (fun _ => True).
  split; [exact list_heap_laws|]. split; [exact list_pq_laws|]. vm_compute. reflexivity.
Qed.

Example ex_perm : permutation_of_nodes 6 ex_order.
Proof.
  split.
  - unfold ex_order. repeat constructor; simpl; intuition discriminate.
  - intros x. unfold ex_order. simpl. split.
    + intros H. repeat (destruct H as [<-|H]; [reflexivity|]). destruct H.
    + intros H. assert (x = 0 \/ x = 1 \/ x = 2 \/ x = 3 \/ x = 4 \/ x = 5) by lia. intuition subst; auto.
Qed.

Example ex_prepared2 : prepared cfg64 ex_ig ex_fg2.
Proof.
  right. exists ex_order, params_with_order_default. split; [exact ex_perm|].
  exists list_heap, (fun _ => True). split; [exact list_heap_laws|]. vm_compute. reflexivity.
Qed.

(** The path 0-2-3-4; the prepared graph contains the shortcut 2-3-4. *)
Definition ex_path : ShortestPath := mkSP 0 4 13 [0; 2; 3; 4].
Example ex_answer : answer cfg64 ex_fg 0 4 (Some ex_path).
Proof.
  exists list_heap, (fun _ => True). split; [exact list_heap_laws|]. left. vm_compute. reflexivity.
Qed.
Example ex_answer2 : answer cfg64 ex_fg2 0 4 (Some ex_path).
Proof.
  exists list_heap, (fun _ => True). split; [exact list_heap_laws|]. left. vm_compute. reflexivity.
Qed.
(** Node 5 cannot be reached. *)
Example ex_answer_none : answer cfg64 ex_fg 0 5 None.
Proof.
  exists list_heap, (fun _ => True). split; [exact list_heap_laws|]. left. vm_compute. reflexivity.
Qed.

(** Two sources (one of them unusable) and two targets. *)
Definition ex_sources : list (N * N) := [(0, 3); (5, 1); (1, 18446744073709551615)].
Definition ex_targets : list (N * N) := [(4, 2); (2, 9)].
Definition ex_path_multi : ShortestPath := mkSP 5 4 11 [5; 3; 4].
Example ex_answer_multi : answer_multi cfg64 ex_fg ex_sources ex_targets (Some ex_path_multi).
Proof.
  exists list_heap, (fun _ => True). split; [exact list_heap_laws|]. left. vm_compute. reflexivity.
Qed.

(** A calculator that has answered two queries. *)
Definition ex_pc1 : PathCalculator :=
  Eval vm_compute in
    match pc_calc_path cfg64 list_heap (create_calculator cfg64 ex_fg) ex_fg 0 4 with
    | Ok (pc, _) => pc | _ => create_calculator cfg64 ex_fg end.
Definition ex_pc2 : PathCalculator :=
  Eval vm_compute in
    match pc_calc_path_multiple cfg64 list_heap ex_pc1 ex_fg2 ex_sources ex_targets with
    | Ok (pc, _) => pc | _ => create_calculator cfg64 ex_fg end.
Example ex_calculator : calculator cfg64 6 ex_pc2.
Proof.
  apply calculator_multi with (H := list_heap) (hinv := fun _ => True) (pc := ex_pc1) (fg := ex_fg2)
    (sources := ex_sources) (targets := ex_targets) (r := Some ex_path_multi);
    [|exact list_heap_laws|vm_compute; reflexivity].
  apply calculator_single with (H := list_heap) (hinv := fun _ => True)
    (pc := create_calculator cfg64 ex_fg) (fg := ex_fg) (s := 0) (t := 4) (r := Some ex_path);
    [constructor; reflexivity|exact list_heap_laws|vm_compute; reflexivity].
Qed.
Example ex_answer_reused : answer cfg64 ex_fg 0 4 (Some ex_path).
Proof.
  exists list_heap, (fun _ => True). split; [exact list_heap_laws|]. right.
  exists 6, ex_pc2. eexists. split; [exact ex_calculator|]. vm_compute. reflexivity.
Qed.
