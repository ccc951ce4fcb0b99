(** * Spec: the vocabulary in which the properties are stated.

    Nothing here mentions the preprocessing or the search: only edges, walks and weights. *)
From Verif Require Export Base InputGraph.

(** [walk E u v ns W]: the node list [ns] starts at [u], ends at [v], every two consecutive nodes
    are joined by an edge of [E], and [W] is the sum of the weights of the edges used. *)
Inductive walk (E : list Edge) : N -> N -> list N -> N -> Prop :=
| walk_nil u : walk E u u [u] 0
| walk_cons u v t w ns W :
    In (mkEdge u v w) E -> walk E v t ns W -> walk E u t (u :: ns) (w + W).

(** [W] is the weight of a lightest walk from [u] to [v]. *)
Definition is_dist (E : list Edge) (u v W : N) : Prop :=
  (exists ns, walk E u v ns W) /\ (forall ns W', walk E u v ns W' -> W <= W').

(** [W] is attained by entering at one of the [starts], walking, and leaving at one of
    the [ends], paying the two given extra weights. *)
Definition total (E : list Edge) (starts ends : list (N * N)) (s t : N) (ns : list N) (W : N)
  : Prop :=
  exists sw tw W0, In (s, sw) starts /\ In (t, tw) ends /\ walk E s t ns W0 /\ W = sw + W0 + tw.
