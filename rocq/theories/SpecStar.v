(** * SpecStar: stars, where the order decides between the smallest and the largest prepared graph *)
From Verif Require Export SpecFill.
Open Scope N_scope.

(** Node 0 is joined with each of the nodes 1, ..., n-1 by edges of weight 1 in both directions. *)
Definition star_calls (n : N) : list ig_op :=
  map (fun i => OpAddEdge 0 i 1) (rangeN 1 n) ++ map (fun i => OpAddEdge i 0 1) (rangeN 1 n) ++ [OpFreeze].

Definition hub_first (n : N) : list N := rangeN 0 n.
Definition hub_last (n : N) : list N := rangeN 1 n ++ [0].

(** All nodes on lightest walks from [u] to [v] come before both. *)
Definition only_earlier_between (es : list Edge) (order : list N) (u v : N) : Prop :=
  forall y, y <> u -> y <> v -> on_lightest es u y v -> earlier order y u /\ earlier order y v.
