(** * SpecTerm: graphs on which queries terminate *)
From Verif Require Export SpecApi.
From Coq Require Export Relation_Operators.
Open Scope N_scope.

(** Edges of a FastGraph are named by a direction and a position.  [nested c fg x y]: edge [x] is a shortcut,
    and [y] is one of the two edges it stands for. *)
Definition nested (c : cfg) (fg : FastGraph) (x y : dir * N) : Prop :=
  exists e, getN (fg_edges fg (fst x)) (snd x) = Some e /\
    fe_replaced_in e <> INVALID_EDGE c /\ fe_replaced_out e <> INVALID_EDGE c /\
    (y = (Bwd, fe_replaced_in e) \/ y = (Fwd, fe_replaced_out e)).

(** Some shortcut is, over any number of levels, a part of itself. *)
Definition nesting_cycle (c : cfg) (fg : FastGraph) : Prop :=
  exists x, clos_trans_1n _ (nested c fg) x x.

(** The nodes can be numbered such that the edges listed for a node lead to nodes of greater numbers. *)
Definition upward (fg : FastGraph) : Prop :=
  exists number : N -> N, forall d u b e id ed,
    fg_begin_edges fg d u = Ok b -> fg_end_edges fg d u = Ok e -> b <= id < e ->
    getN (fg_edges fg d) id = Some ed -> number u < number (fe_adj ed).
