(** * PropEffortPrep: what a preparation costs (C73) *)
From Verif Require Import SpecEffortPrep EffortPrepFacts.
From Verif Require Import Examples.
Open Scope N_scope.

(** C73: keeping a record of the witness searches changes nothing: on all inputs, the preparation with the record does
    what the preparation does. *)
Theorem C73_same_preparation : forall c H Q ig,
  (forall params, forget (l_build_with_params c H Q ig params) = prepare_with_params c H Q ig params) /\
  (forall order params, forget (l_build_with_order_with_params c H ig order params) = prepare_with_order_with_params c H ig order params).
Proof. exact C73_same_proof. Qed.
Print Assumptions C73_same_preparation.

(** C73: no witness search settles more nodes than the parameter for its purpose allows. *)
Theorem C73_limits : forall c H,
  (forall ops ig hinv Q params fg l, frozen_graph c ops ig -> heap_laws H hinv -> l_build_with_params c H Q ig params = Ok (fg, l) ->
     respects 0 l /\ forall why a b m, In (a, b, m) (searches why l) -> m = limit_of params why) /\
  (forall ig order params fg l, l_build_with_order_with_params c H ig order params = Ok (inl fg, l) ->
     respects 0 l /\ forall why a b m, In (a, b, m) (searches why l) -> m = po_max_settled_nodes_contraction_with_order params).
Proof. exact C73_limits_proof. Qed.
Print Assumptions C73_limits.

(** C73: preparing with an order makes exactly one witness search per stored incoming edge, so that it settles at most
    the limit times as many nodes. *)
Theorem C73_effort_with_order : forall c H ig order params fg l,
  l_build_with_order_with_params c H ig order params = Ok (inl fg, l) ->
  lenN (searches Contraction l) = lenN (fg_edges_bwd fg) /\ searches Initial l = [] /\ searches Neighbor l = [] /\
  lenN (settled l) <= po_max_settled_nodes_contraction_with_order params * lenN (fg_edges_bwd fg).
Proof. exact C73_with_order_proof. Qed.
Print Assumptions C73_effort_with_order.

(** C73: preparing with priorities makes exactly one witness search per edge of the input for the initial priorities,
    one per stored incoming edge for the contractions, and at most the number of nodes per stored edge for the
    priorities of neighbors; the nodes settled are bounded accordingly. *)
Theorem C73_effort : forall c ops ig H hinv Q params fg l, frozen_graph c ops ig -> heap_laws H hinv ->
  l_build_with_params c H Q ig params = Ok (fg, l) ->
  let stored := lenN (fg_edges_fwd fg) + lenN (fg_edges_bwd fg) in
  lenN (searches Initial l) = lenN (ig_edges ig) /\
  lenN (searches Contraction l) = lenN (fg_edges_bwd fg) /\
  lenN (searches Neighbor l) <= ig_num_nodes ig * stored /\
  lenN (settled l) <= p_max_settled_nodes_initial_relevance params * lenN (ig_edges ig) +
    p_max_settled_nodes_neighbor_relevance params * (ig_num_nodes ig * stored) +
    p_max_settled_nodes_contraction params * lenN (fg_edges_bwd fg).
Proof. exact C73_prepare_proof. Qed.
Print Assumptions C73_effort.

Example C73_case : exists fg l fg' l',
  frozen_graph cfg64 ex_ops ex_ig /\ heap_laws list_heap (fun _ => True) /\
  l_build_with_params cfg64 list_heap list_pq ex_ig params_default = Ok (fg, l) /\
  searches Initial l <> [] /\ searches Neighbor l <> [] /\ searches Contraction l <> [] /\ settled l <> [] /\
  l_build_with_order_with_params cfg64 list_heap ex_ig (rangeN 0 (ig_num_nodes ex_ig)) (mkParamsWithOrder 1) = Ok (inl fg', l') /\
  settled l' <> [].
Proof.
  eexists _, _, _, _. split; [exact ex_frozen|]. split; [exact list_heap_laws|].
  split; [vm_compute; reflexivity|]. do 4 (split; [vm_compute; discriminate|]).
  split; [vm_compute; reflexivity|vm_compute; discriminate].
Qed.
