(** * PropFlags: C38, the generation counter of the visited flags *)
From Verif Require Export FlagProps.
Open Scope N_scope.

(** C38: after any number of calls, a node is reported as valid iff it was marked after the last reset. *)
Theorem C38_valid_iff_marked : forall n ops, marks_below n ops ->
  exists f, foldM vf_step ops (vf_new n) = Ok f /\
    forall v, v < n -> exists b, vf_is_valid f v = Ok b /\ (b = true <-> marked ops v).
Proof. exact C38_proof. Qed.
Print Assumptions C38_valid_iff_marked.
(** There are histories in which the counter wraps. *)
Theorem C38_wrap_is_reached : exists k f f',
  foldM vf_step (repeat VfReset k ++ [VfSet 1]) (vf_new 3) = Ok f /\ vf_flag f = u32_max /\ vf_is_valid f 1 = Ok true /\
  foldM vf_step (repeat VfReset k ++ [VfSet 1; VfReset]) (vf_new 3) = Ok f' /\ vf_flag f' = 1 /\ vf_is_valid f' 1 = Ok false.
Proof. exact C38_wrap. Qed.
Print Assumptions C38_wrap_is_reached.
