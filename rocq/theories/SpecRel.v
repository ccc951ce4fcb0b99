(** * SpecRel: stored edges whose weights were added modulo the range of usize *)
From Verif Require Export SpecApi.
Open Scope N_scope.

(** From where to where a stored edge leads: the backward list holds edges at their target. *)
Definition ends_of (d : dir) (e : FastGraphEdge) : N * N :=
  match d with Fwd => (fe_base e, fe_adj e) | Bwd => (fe_adj e, fe_base e) end.

(** A stored edge is an edge of [E], or it stands for two stored edges that meet in a middle node and its weight
    is theirs, added modulo the range of usize. *)
Definition edge_or_sum (c : cfg) (E : list Edge) (fg : FastGraph) (d : dir) (e : FastGraphEdge) : Prop :=
  (fe_replaced_in e = INVALID_EDGE c /\ fe_replaced_out e = INVALID_EDGE c /\
   In (mkEdge (fst (ends_of d e)) (snd (ends_of d e)) (fe_weight e)) E) \/
  (exists ei eo m,
     getN (fg_edges_bwd fg) (fe_replaced_in e) = Some ei /\ getN (fg_edges_fwd fg) (fe_replaced_out e) = Some eo /\
     ends_of Bwd ei = (fst (ends_of d e), m) /\ ends_of Fwd eo = (m, snd (ends_of d e)) /\
     fe_weight e = (fe_weight ei + fe_weight eo) mod (umax c + 1)).
