(** * SpecCompat: reading a file of one format as the other *)
From Verif Require Export SpecText.
Open Scope N_scope.

(** The same edge between the nodes with the next ids *)
Definition one_up (e : Edge) : Edge := mkEdge (e_from e + 1) (e_to e + 1) (e_weight e).
(** The graph with all ids increased by one: node 0 has no edges.  A graph without edges has no nodes. *)
Definition shifted (g : InputGraph) : InputGraph :=
  mkInputGraph (map one_up (ig_edges g)) (if ig_num_nodes g =? 0 then 0 else ig_num_nodes g + 1) (ig_frozen g).
