(** * SpecShortcut: how many shortcuts a preparation may add. *)
From Verif Require Export SpecApi.
Open Scope N_scope.

(** The prepared graph stores an edge from [u] to [v] of weight [w], in either direction. *)
Definition stored_edge (fg : FastGraph) (u v w : N) : Prop :=
  In (mkEdge u v w) (stored (fg_edges_fwd fg)) \/ In (mkEdge v u w) (stored (fg_edges_bwd fg)).

(** [x] comes before [y] in the list. *)
Definition earlier (order : list N) (x y : N) : Prop :=
  exists i j, i < j /\ getN order i = Some x /\ getN order j = Some y.

(** A shortcut from [u] to [v] of weight [w] over the middle node [m] is needed: it replaces two
    stored edges over [m], and without [m] and the nodes before [m] all connections are longer. *)
Definition needed_shortcut (E : list Edge) (fg : FastGraph) (order : list N) (u v w m : N) : Prop :=
  earlier order m u /\ earlier order m v /\
  (exists w1 w2, stored_edge fg u m w1 /\ stored_edge fg m v w2 /\ w = w1 + w2) /\
  (forall ns W, walk E u v ns W -> (forall y, In y ns -> earlier order m y) -> w < W).

(** [fg] is returned by one of the preparation functions with limits on the number of settled nodes
    that no search can reach. *)
Definition prepared_unlimited (c : cfg) (ig : InputGraph) (fg : FastGraph) : Prop :=
  (exists params, ig_num_nodes ig <= p_max_settled_nodes_contraction params /\
     prepared_by_params c ig params fg) \/
  (exists order params, permutation_of_nodes (ig_num_nodes ig) order /\
     ig_num_nodes ig <= po_max_settled_nodes_contraction_with_order params /\
     prepared_by_order c ig order params fg).

(** As prep_bound, for limits that no search can reach. *)
Definition prep_bound_unlimited (c : cfg) (n M : N) : Prop :=
  4 * ((n - 1) * M) <= umax c /\ n * n <= umax c / 2 /\ n + 1 <= umax c / 2.

(** Edge [id] stored in direction [d] is a shortcut nested [k] deep: 0 for an edge of the input graph, and
    one more than the deeper of the two edges that a shortcut replaces. *)
Inductive nested (c : cfg) (fg : FastGraph) : dir -> N -> N -> Prop :=
| nested_edge d id e :
    getN (fg_edges fg d) id = Some e ->
    fe_replaced_in e = INVALID_EDGE c -> fe_replaced_out e = INVALID_EDGE c ->
    nested c fg d id 0
| nested_shortcut d id e ki ko :
    getN (fg_edges fg d) id = Some e ->
    fe_replaced_in e <> INVALID_EDGE c -> fe_replaced_out e <> INVALID_EDGE c ->
    nested c fg Bwd (fe_replaced_in e) ki -> nested c fg Fwd (fe_replaced_out e) ko ->
    nested c fg d id (1 + N.max ki ko).

(** Where a stored edge starts and ends when it is travelled. *)
Definition edge_start (d : dir) (e : FastGraphEdge) : N :=
  match d with Fwd => fe_base e | Bwd => fe_adj e end.
Definition edge_end (d : dir) (e : FastGraphEdge) : N :=
  match d with Fwd => fe_adj e | Bwd => fe_base e end.

(** The nodes that edge [id] stored in direction [d] stands for: its two ends for an edge of the input graph,
    and those of the two edges that a shortcut replaces, one after the other. *)
Inductive expansion (c : cfg) (fg : FastGraph) : dir -> N -> list N -> Prop :=
| expansion_edge d id e :
    getN (fg_edges fg d) id = Some e ->
    fe_replaced_in e = INVALID_EDGE c -> fe_replaced_out e = INVALID_EDGE c ->
    expansion c fg d id [edge_start d e; edge_end d e]
| expansion_shortcut d id e ns1 ns2 :
    getN (fg_edges fg d) id = Some e ->
    fe_replaced_in e <> INVALID_EDGE c -> fe_replaced_out e <> INVALID_EDGE c ->
    expansion c fg Bwd (fe_replaced_in e) ns1 -> expansion c fg Fwd (fe_replaced_out e) ns2 ->
    expansion c fg d id (ns1 ++ tl ns2).

(** [y] is on a lightest walk from [u] to [v]. *)
Definition on_lightest (E : list Edge) (u y v : N) : Prop :=
  forall ns W, walk E u v ns W ->
    exists ns1 W1 ns2 W2, walk E u y ns1 W1 /\ walk E y v ns2 W2 /\ W1 + W2 <= W.
