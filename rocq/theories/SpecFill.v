(** * SpecFill: connections over nodes that come earlier in a node ordering *)
From Verif Require Export SpecShortcut.
Open Scope N_scope.

(** A connection of weight [w] from [u] to [v] by one or more edges, where all nodes in between satisfy [P]. *)
Inductive through (es : list Edge) (P : N -> Prop) : N -> N -> N -> Prop :=
| through_edge u v w : In (mkEdge u v w) es -> through es P u v w
| through_node u y v w W : In (mkEdge u y w) es -> P y -> through es P y v W -> through es P u v (w + W).

(** All nodes in between come before both ends. *)
Definition low_connection (es : list Edge) (order : list N) (u v w : N) : Prop :=
  through es (fun y => earlier order y u /\ earlier order y v) u v w.

(** [fg] is returned by one of the preparation functions, with the limit [k] on the number of settled nodes
    of searches during contractions. *)
Definition prepared_with_limit (c : cfg) (ig : InputGraph) (k : N) (fg : FastGraph) : Prop :=
  (exists params, p_max_settled_nodes_contraction params = k /\ prepared_by_params c ig params fg) \/
  (exists order params, permutation_of_nodes (ig_num_nodes ig) order /\
     po_max_settled_nodes_contraction_with_order params = k /\ prepared_by_order c ig order params fg).
