(** * SpecEffortPrep: how the witness searches of a preparation are counted *)
From Verif Require Export SpecApi EffortPrep.
Open Scope N_scope.

Definition is_for (a b : purpose) : bool :=
  match a, b with
  | Initial, Initial | Neighbor, Neighbor | Contraction, Contraction => true
  | _, _ => false
  end.

(** The searches made for one purpose: start node, avoided node and limit *)
Definition searches (why : purpose) (l : list search_step) : list (N * N * N) :=
  flat_map (fun s => match s with Searched p a b m => if is_for p why then [(a, b, m)] else [] | Settled _ => [] end) l.

(** The nodes settled by all searches *)
Definition settled (l : list search_step) : list N :=
  flat_map (fun s => match s with Settled v => [v] | Searched _ _ _ _ => [] end) l.

(** No search settles more nodes than its limit; [left]: how many the running search may still settle. *)
Fixpoint respects (left : N) (l : list search_step) : Prop :=
  match l with
  | [] => True
  | Searched _ _ _ m :: r => respects m r
  | Settled _ :: r => 0 < left /\ respects (left - 1) r
  end.

(** The limit of the searches for each purpose *)
Definition limit_of (params : Params) (why : purpose) : N :=
  match why with
  | Initial => p_max_settled_nodes_initial_relevance params
  | Neighbor => p_max_settled_nodes_neighbor_relevance params
  | Contraction => p_max_settled_nodes_contraction params
  end.
