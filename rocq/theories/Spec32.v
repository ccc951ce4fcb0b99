(** * Spec32: which integers are stored in a graph, and which of them the 32-bit format can hold *)
From Verif Require Export SpecApi.
Open Scope N_scope.

Definition edge_ints (e : FastGraphEdge) : list N :=
  [fe_base e; fe_adj e; fe_weight e; fe_replaced_in e; fe_replaced_out e].

(** every integer stored in a graph *)
Definition ints (fg : FastGraph) : list N :=
  fg_num_nodes fg :: fg_ranks fg ++
  flat_map edge_ints (fg_edges_fwd fg) ++ fg_first_edge_ids_fwd fg ++
  flat_map edge_ints (fg_edges_bwd fg) ++ fg_first_edge_ids_bwd fg.

Definition platform64 (c : cfg) : Prop := umax c = 2 ^ 64 - 1.
Definition platform32 (c : cfg) : Prop := umax c = 2 ^ 32 - 1.

Definition all_edges (fg : FastGraph) : list FastGraphEdge := fg_edges_fwd fg ++ fg_edges_bwd fg.

(** numbers of nodes and edges and all weights are below [b] *)
Definition values_below (b : N) (fg : FastGraph) : Prop :=
  fg_get_num_nodes fg < b /\ fg_get_num_out_edges fg < b /\ fg_get_num_in_edges fg < b /\
  forall e, In e (all_edges fg) -> fe_weight e < b.

(** every integer of the 32-bit representation, in the same order as [ints] *)
Definition edge_ints32 (e : FastGraphEdge32) : list N :=
  [fe32_base e; fe32_adj e; fe32_weight e; fe32_replaced_in e; fe32_replaced_out e].
Definition ints32 (g : FastGraph32) : list N :=
  fg32_num_nodes g :: fg32_ranks g ++
  flat_map edge_ints32 (fg32_edges_fwd g) ++ fg32_first_edge_ids_fwd g ++
  flat_map edge_ints32 (fg32_edges_bwd g) ++ fg32_first_edge_ids_bwd g.
