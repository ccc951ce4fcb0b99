(** * SpecEffort: how the steps of a query are counted *)
From Verif Require Export SpecApi Effort.
Open Scope N_scope.

(** The search in direction [d] can climb from [u] to [v] along stored edges. *)
Inductive climb (fg : FastGraph) (d : dir) (u : N) : N -> Prop :=
| climb_here : climb fg d u u
| climb_edge v id ed : climb fg d u v -> getN (fg_edges fg d) id = Some ed -> fe_base ed = v ->
    climb fg d u (fe_adj ed).

(** The nodes from which the search in direction [d] starts. *)
Definition sides (sources targets : list (N * N)) (d : dir) : list (N * N) :=
  match d with Fwd => sources | Bwd => targets end.

Definition popped (l : list step) : list (dir * N) :=
  flat_map (fun s => match s with Popped d v => [(d, v)] | _ => [] end) l.
Definition compared (l : list step) : list (dir * N) :=
  flat_map (fun s => match s with Compared d i => [(d, i)] | _ => [] end) l.
Definition expanded (l : list step) : list (dir * N) :=
  flat_map (fun s => match s with Expanded d v => [(d, v)] | _ => [] end) l.
Definition relaxed (l : list step) : list (dir * N) :=
  flat_map (fun s => match s with Relaxed d i => [(d, i)] | _ => [] end) l.
Definition unpacked (l : list step) : list (dir * N) :=
  flat_map (fun s => match s with Unpacked d i => [(d, i)] | _ => [] end) l.

(** How many edges are stored for node [v] in direction [d]. *)
Definition degree (fg : FastGraph) (d : dir) (v : N) : nat :=
  List.length (filter (fun e => fe_base e =? v) (fg_edges fg d)).

(** The rounds of the stall checks that the pops in [l] may cause: for each popped node its edges of the other direction. *)
Definition checks (fg : FastGraph) (l : list (dir * N)) : nat :=
  list_sum (map (fun '(d, v) => degree fg (opp d) v) l).
