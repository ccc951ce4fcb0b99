(** * SpecRandom: the edges that a stream of random numbers stands for *)
From Verif Require Export Spec SpecGraph RandomTest.
Open Scope N_scope.

(** The [i]-th candidate: its end nodes are below [n] and its weight is between 1 and 99.  It can be a loop. *)
Definition candidate (n : N) (r : rng) (i : nat) : Edge :=
  mkEdge (r (3 * i + 1)%nat mod n) (r (3 * i)%nat mod n) (1 + r (3 * i + 2)%nat mod 99).

(** The first [k] candidates, without the loops. *)
Definition candidates (n : N) (r : rng) (k : nat) : list Edge :=
  filter (fun e => negb (e_from e =? e_to e)) (map (candidate n r) (seq 0 k)).

(** No two shortest paths have the same ends. *)
Definition unique_shortest_paths (E : list Edge) : Prop := forall s t ns ns' W,
  is_dist E s t W -> walk E s t ns W -> walk E s t ns' W -> ns = ns'.
