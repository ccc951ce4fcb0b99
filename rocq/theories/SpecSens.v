(** * SpecSens: words for comparing the answers on two similar graphs *)
From Verif Require Export Spec.
Open Scope N_scope.

(** [e] is an edge that some walk from [s] to [t] uses. *)
Definition on_route (E : list Edge) (s t : N) (e : Edge) : Prop :=
  In e E /\ (exists ns W, walk E s (e_from e) ns W) /\ (exists ns W, walk E (e_to e) t ns W).
