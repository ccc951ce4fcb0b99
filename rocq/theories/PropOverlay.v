(** * PropOverlay: C62, preparation without search limits is the textbook procedure *)
From Verif Require Export SpecOverlay OverlayProps Examples BinHeapFacts PropShortcut PropReplay.
Open Scope N_scope.

(** C62: if no search can reach its limit, [prepare_with_params] contracts the nodes greedily by priority,
    recomputing only the priorities of the neighbors of the node just contracted, as specified in
    SpecOverlay.v, and stores for each node the arcs it had at that time. *)
Theorem C62_prepare_is_textbook : forall c ops ig params fg, debug_build c = true -> frozen_graph c ops ig ->
  ig_num_nodes ig <= p_max_settled_nodes_initial_relevance params ->
  ig_num_nodes ig <= p_max_settled_nodes_neighbor_relevance params ->
  ig_num_nodes ig <= p_max_settled_nodes_contraction params ->
  prepared_by_params c ig params fg ->
  exists G P l, (forall u v w, G u v w <-> first_overlay ops u v w) /\
    (forall v, v < ig_num_nodes ig -> priority c params G v 0 (P v)) /\
    greedy c params G (fun _ => 0) P (fun v => v < ig_num_nodes ig) l /\
    get_node_ordering fg = Ok (map fst l) /\ stores fg l.
Proof. exact C62_params_proof. Qed.
Print Assumptions C62_prepare_is_textbook.

(** With a given order the nodes are contracted in that order. *)
Theorem C62_prepare_with_order_is_textbook : forall c ops ig order params fg,
  debug_build c = true -> frozen_graph c ops ig ->
  ig_num_nodes ig <= po_max_settled_nodes_contraction_with_order params ->
  permutation_of_nodes (ig_num_nodes ig) order ->
  prepared_by_order c ig order params fg ->
  exists G l, (forall u v w, G u v w <-> first_overlay ops u v w) /\ hierarchy c G l /\ map fst l = order /\ stores fg l.
Proof. exact C62_order_proof. Qed.
Print Assumptions C62_prepare_with_order_is_textbook.

(** The priorities of the specification are unique. *)
Theorem C62_priority_is_unique : forall c params G x level p q,
  priority c params G x level p -> priority c params G x level q -> p = q.
Proof. exact priority_unique. Qed.
Print Assumptions C62_priority_is_unique.

Example C62_case : frozen_graph cfg64 ex_ops ex_ig /\ ig_num_nodes ex_ig <= 100 /\
  prepare cfg64 list_heap list_pq ex_ig = Ok ex_fg /\ prepared_by_params cfg64 ex_ig params_default ex_fg /\
  get_node_ordering ex_fg = Ok [0; 5; 3; 1; 4; 2] /\ permutation_of_nodes (ig_num_nodes ex_ig) [0; 5; 3; 1; 4; 2] /\
  prepared_by_order cfg64 ex_ig [0; 5; 3; 1; 4; 2] params_with_order_default ex_fg.
Proof.
  destruct C61_case as (QL & Hf & E & O & Hn & E').
  split; [exact Hf|]. split; [exact Hn|]. split; [exact E|]. split.
  { exists list_heap, (fun _ => True), list_pq, (fun _ => True). split; [exact list_heap_laws|]. split; [exact list_pq_laws|exact E]. }
  split; [exact O|]. split.
  { destruct (C61_own_ordering_reproduces _ _ _ _ _ _ _ _ QL E O) as (P & _). exact P. }
  eexists bin_heap, _. split; [exact bin_heap_laws|exact E'].
Qed.
