(** * SpecGraph: what a history of InputGraph calls means, independently of how the graph stores
    its edges. *)
From Verif Require Export Spec.

(** All arguments of the call are values of type usize. *)
Definition op_repr (c : cfg) (o : ig_op) : Prop :=
  match o with
  | OpAddEdge f t w | OpAddEdgeBidir f t w => f <= umax c /\ t <= umax c /\ w <= umax c
  | _ => True
  end.

(** The directed edges a call asks for. *)
Definition requested (o : ig_op) : list Edge :=
  match o with
  | OpAddEdge f t w => [mkEdge f t w]
  | OpAddEdgeBidir f t w => [mkEdge f t w; mkEdge t f w]
  | _ => []
  end.

(** Loops and edges of weight zero are not accepted. *)
Definition acceptable (e : Edge) : bool := negb (e_from e =? e_to e) && (1 <=? e_weight e).

(** All edges a history of calls has added. *)
Definition accepted (ops : list ig_op) : list Edge := filter acceptable (flat_map requested ops).

(** The multigraph of all edges of positive weight that were asked for, loops included. *)
Definition positive_edges (ops : list ig_op) : list Edge :=
  filter (fun e => 1 <=? e_weight e) (flat_map requested ops).

(** Whether the graph is frozen after a history of calls: decided by the last freeze/thaw. *)
Definition frozen_after (ops : list ig_op) : bool :=
  fold_left (fun b o => match o with OpFreeze => true | OpThaw => false | _ => b end) ops false.

(** Strict lexicographic order on (from, to). *)
Definition edge_lt (a b : Edge) : Prop :=
  e_from a < e_from b \/ (e_from a = e_from b /\ e_to a < e_to b).

(** [ig] is what is there after calling the methods [ops] on a new graph, with usize
    arguments, without any panic; and it is frozen. *)
Definition frozen_graph (c : cfg) (ops : list ig_op) (ig : InputGraph) : Prop :=
  (forall o, In o ops -> op_repr c o) /\ ig_run c ig_new ops = Ok ig /\ ig_frozen ig = true.

(** The three panic messages of the freeze/thaw protocol. *)
Definition msg_not_frozen : string := "You need to call freeze() before using the input graph".
Definition msg_frozen : string := "Graph is frozen already, for further changes first use thaw()".
Definition msg_refreeze : string := "Input graph is already frozen".
