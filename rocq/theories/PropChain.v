(** * PropChain: C58, how deep unpacking recurses *)
From Verif Require Export ChainProps Examples.
From Verif Require Export SpecShortcut.
Open Scope N_scope.

(** A shortcut nested [k] deep takes exactly [k + 1] nested calls to unpack: with less room the
    recursion does not get to its end, with more it returns. *)
Theorem C58_recursion_depth : forall c fg d id k, nested c fg d id k -> forall room nodes reverse,
  ((room <= N.to_nat k)%nat -> unpack room c fg d nodes id reverse = Diverge) /\
  ((N.to_nat k < room)%nat -> exists l, unpack room c fg d nodes id reverse = Ok (nodes ++ l)).
Proof. exact C58_recursion_proof. Qed.
Print Assumptions C58_recursion_depth.

(** For every number of nodes the bound is attained: by the chain that is contracted from one end to the other. *)
Theorem C58_depth_is_attained : forall c H hinv n, debug_build c = true -> heap_laws H hinv -> 2 <= n ->
  n * n <= umax c / 2 -> 4 * n <= umax c ->
  exists ig fg id, frozen_graph c (chain_calls n) ig /\ ig_num_nodes ig = n /\
    permutation_of_nodes n (from_one_end n) /\
    prepare_with_order_with_params c H ig (from_one_end n) (mkParamsWithOrder n) = Ok (inl fg) /\
    nested c fg Fwd id (n - 2).
Proof. exact C58_attained_proof. Qed.
Print Assumptions C58_depth_is_attained.
Example C58_depth_case : exists ig fg id, frozen_graph cfg64 (chain_calls 1000000) ig /\
  prepare_with_order_with_params cfg64 list_heap ig (from_one_end 1000000) (mkParamsWithOrder 1000000) = Ok (inl fg) /\
  nested cfg64 fg Fwd id 999998.
Proof.
  destruct (C58_depth_is_attained cfg64 list_heap (fun _ => True) 1000000 eq_refl list_heap_laws)
    as (ig & fg & id & H1 & _ & _ & H2 & H3).
  - vm_compute. discriminate.
  - vm_compute. discriminate.
  - vm_compute. discriminate.
  - exists ig, fg, id. split; [exact H1|]. split; [exact H2|exact H3].
Qed.
