(** * PropGraph: C18-C21, C39, input graphs *)
From Verif Require Export ReleaseProps Examples.
Open Scope N_scope.

(** C18: after freeze the edges are strictly sorted by (from, to), and for every pair the lightest of the
    accepted edges is there. *)
Theorem C18_freeze_normalises : forall c ops g,
  ig_run c ig_new ops = Ok g -> ig_frozen g = true ->
  exists es, ig_get_edges g = Ok es /\
    (forall i j a b, i < j -> getN es i = Some a -> getN es j = Some b -> edge_lt a b) /\
    (forall u v w, In (mkEdge u v w) es <->
       In (mkEdge u v w) (accepted ops) /\ forall w', In (mkEdge u v w') (accepted ops) -> w <= w').
Proof. exact C18_proof. Qed.
Print Assumptions C18_freeze_normalises.

Theorem C18_no_edge_is_lost : forall c ops g u v,
  ig_run c ig_new ops = Ok g -> ig_frozen g = true ->
  ((exists w, In (mkEdge u v w) (ig_edges g)) <-> exists w, In (mkEdge u v w) (accepted ops)).
Proof. exact C18_exists_proof. Qed.
Print Assumptions C18_no_edge_is_lost.
Example C18_case : ig_run cfg64 ig_new ex_ops = Ok ex_ig /\ ig_frozen ex_ig = true /\
  In (mkEdge 0 2 9) (accepted ex_ops) /\ In (mkEdge 0 2 7) (ig_edges ex_ig) /\ ~ In (mkEdge 0 2 9) (ig_edges ex_ig).
Proof.
  split; [vm_compute; reflexivity|]. split; [reflexivity|]. split; [vm_compute; tauto|]. split; [vm_compute; tauto|].
  vm_compute. intros H. repeat (destruct H as [H|H]; [discriminate H|]). destruct H.
Qed.

(** C19: which calls panic is decided by the last freeze/thaw. *)
Theorem C19_freeze_thaw_protocol : forall c ops g,
  ig_run c ig_new ops = Ok g ->
  (frozen_after ops = false ->
     ig_step c g OpGetEdges = Panic (PExplicit msg_not_frozen) /\
     ig_step c g OpGetNumNodes = Panic (PExplicit msg_not_frozen) /\
     ig_step c g OpGetNumEdges = Panic (PExplicit msg_not_frozen) /\
     (forall f t w, (exists g' k, ig_step c g (OpAddEdge f t w) = Ok (g', OutCount k)) \/
        ig_step c g (OpAddEdge f t w) = Panic POverflow \/ ig_step c g (OpAddEdge f t w) = Panic PCapacity) /\
     (forall f t w, (exists g' k, ig_step c g (OpAddEdgeBidir f t w) = Ok (g', OutCount k)) \/
        ig_step c g (OpAddEdgeBidir f t w) = Panic POverflow \/ ig_step c g (OpAddEdgeBidir f t w) = Panic PCapacity) /\
     (exists g', ig_step c g OpFreeze = Ok (g', OutUnit))) /\
  (frozen_after ops = true ->
     (exists l, ig_step c g OpGetEdges = Ok (g, OutEdges l)) /\
     (exists n, ig_step c g OpGetNumNodes = Ok (g, OutCount n)) /\
     (exists n, ig_step c g OpGetNumEdges = Ok (g, OutCount n)) /\
     (forall f t w, ig_step c g (OpAddEdge f t w) = Panic (PExplicit msg_frozen)) /\
     (forall f t w, ig_step c g (OpAddEdgeBidir f t w) = Panic (PExplicit msg_frozen)) /\
     ig_step c g OpFreeze = Panic (PExplicit msg_refreeze)) /\
  (exists g', ig_step c g OpThaw = Ok (g', OutUnit)).
Proof. exact C19_proof. Qed.
Print Assumptions C19_freeze_thaw_protocol.

(** The state of a graph is the one decided by its history. *)
Theorem C19_frozen_iff_last_freeze : forall c ops g,
  ig_run c ig_new ops = Ok g -> ig_frozen g = frozen_after ops.
Proof. exact C19_frozen_proof. Qed.
Print Assumptions C19_frozen_iff_last_freeze.

(** Preparation needs a frozen graph. *)
Theorem C19_preparing_needs_freeze : forall c ops g H Q,
  ig_run c ig_new ops = Ok g -> frozen_after ops = false ->
  prepare c H Q g = Panic (PExplicit msg_not_frozen) /\
  (forall params, prepare_with_params c H Q g params = Panic (PExplicit msg_not_frozen)) /\
  (forall order, prepare_with_order c H g order = Panic (PExplicit msg_not_frozen)) /\
  (forall order params, prepare_with_order_with_params c H g order params = Panic (PExplicit msg_not_frozen)).
Proof. exact C19_prepare_proof. Qed.
Print Assumptions C19_preparing_needs_freeze.

(** Adding an edge only overflows if one of the node ids is usize::MAX, and exceeds the capacity only
    with more than usize::MAX/2 edges. *)
Theorem C19_add_edge_succeeds : forall c ops g f t w,
  ig_run c ig_new ops = Ok g -> frozen_after ops = false ->
  f < umax c -> t < umax c -> lenN (accepted ops) + 2 <= umax c / 2 ->
  (exists g' k, ig_add_edge c g f t w = Ok (g', k)) /\
  (exists g' k, ig_add_edge_bidir c g f t w = Ok (g', k)).
Proof. exact C19_add_proof. Qed.
Print Assumptions C19_add_edge_succeeds.
Example C19_case : frozen_after ex_ops = true /\ frozen_after (ex_ops ++ [OpThaw]) = false /\
  lenN (accepted ex_ops) + 2 <= umax cfg64 / 2.
Proof. repeat split; vm_compute; discriminate. Qed.

(** C20: return values of add_edge and the counts. *)
Theorem C20_add_edge_counts : forall c g f t w g' k,
  (ig_add_edge c g f t w = Ok (g', k) ->
     (k = 0 <-> f = t \/ w = 0) /\ (k <> 0 -> k = 1) /\ (k = 0 -> g' = g)) /\
  (ig_add_edge_bidir c g f t w = Ok (g', k) ->
     (k = 0 <-> f = t \/ w = 0) /\ (k <> 0 -> k = 2) /\ (k = 0 -> g' = g)).
Proof. exact C20_count_proof. Qed.
Print Assumptions C20_add_edge_counts.

Theorem C20_node_and_edge_count : forall c ops g,
  (debug_build c = true \/ forall e, In e (accepted ops) -> e_from e < umax c /\ e_to e < umax c) ->
  ig_run c ig_new ops = Ok g -> ig_frozen g = true ->
  exists n es, ig_get_num_nodes g = Ok n /\ ig_get_edges g = Ok es /\ ig_get_num_edges g = Ok (lenN es) /\
    (accepted ops = [] -> n = 0) /\
    (forall e, In e (accepted ops) -> e_from e < n /\ e_to e < n) /\
    (accepted ops <> [] -> exists e, In e (accepted ops) /\ n = N.max (e_from e) (e_to e) + 1).
Proof. exact C20_nodes_proof. Qed.
Print Assumptions C20_node_and_edge_count.
Example C20_case : ig_get_num_nodes ex_ig = Ok 6 /\ ig_get_num_edges ex_ig = Ok 8 /\
  ig_add_edge cfg64 ig_new 3 3 2 = Ok (ig_new, 0) /\
  ig_add_edge_bidir cfg64 ig_new 3 1 2 = Ok (mkInputGraph [mkEdge 3 1 2; mkEdge 1 3 2] 4 false, 2).
Proof. repeat split; vm_compute; reflexivity. Qed.

(** C21: only the set of accepted edges matters. *)
Theorem C21_history_is_irrelevant : forall c ops1 ops2 g1 g2,
  (debug_build c = true \/ forall e, In e (accepted ops1) -> e_from e < umax c /\ e_to e < umax c) ->
  frozen_graph c ops1 g1 -> frozen_graph c ops2 g2 ->
  (forall e, In e (accepted ops1) <-> In e (accepted ops2)) -> g1 = g2.
Proof. exact C21_proof. Qed.
Print Assumptions C21_history_is_irrelevant.
Example C21_case : frozen_graph cfg64
  [OpAddEdge 5 3 6; OpFreeze; OpGetEdges; OpThaw; OpAddEdge 4 1 1; OpAddEdge 4 1 1; OpAddEdge 3 4 2; OpAddEdge 0 2 7;
   OpAddEdge 0 2 9; OpAddEdge 3 2 4; OpAddEdge 2 3 4; OpAddEdge 1 2 3; OpAddEdge 0 1 5; OpAddEdge 0 1 5; OpFreeze] ex_ig.
Proof.
  split; [|split; vm_compute; reflexivity]. intros o Ho.
  repeat (destruct Ho as [<-|Ho]; [cbn; repeat split; discriminate|]). destruct Ho.
Qed.

(** C39: the weight is the minimum over the multigraph of all edges of positive weight, loops included. *)
Theorem C39_loops_and_duplicates_are_irrelevant : forall c ops ig fg s t r,
  debug_build c = true -> frozen_graph c ops ig -> prepared c ig fg ->
  answer c fg s t r ->
  match r with
  | Some p => is_dist (positive_edges ops) s t (sp_get_weight p)
  | None => forall ns W, walk (positive_edges ops) s t ns W -> WEIGHT_MAX c <= W
  end.
Proof. exact C39_proof. Qed.
Print Assumptions C39_loops_and_duplicates_are_irrelevant.
Example C39_case : In (mkEdge 3 3 2) (positive_edges ex_ops) /\ ~ In (mkEdge 3 3 2) (accepted ex_ops) /\
  is_dist (positive_edges ex_ops) 0 4 13.
Proof.
  split; [vm_compute; tauto|]. split.
  - vm_compute. intros H. repeat (destruct H as [H|H]; [discriminate H|]). destruct H.
  - exact (C39_loops_and_duplicates_are_irrelevant cfg64 ex_ops ex_ig ex_fg 0 4 (Some ex_path) eq_refl ex_frozen ex_prepared ex_answer).
Qed.
