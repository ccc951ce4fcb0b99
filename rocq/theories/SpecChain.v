(** * SpecChain: chains, the graphs with the deepest nested shortcuts *)
From Verif Require Export SpecShortcut.
Open Scope N_scope.

(** The calls that build the chain 0 -> 1 -> ... -> n-1 with weights 1. *)
Definition chain_calls (n : N) : list ig_op :=
  map (fun i => OpAddEdge i (i + 1) 1) (rangeN 0 (n - 1)) ++ [OpFreeze].

(** The inner nodes from one end to the other, then the two ends. *)
Definition from_one_end (n : N) : list N := rangeN 1 (n - 1) ++ [0; n - 1].
