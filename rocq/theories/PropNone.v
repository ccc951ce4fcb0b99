(** * PropNone: C33 for ShortestPath::none, the value that stands for a missing path *)
From Verif Require Export NoneFacts PropQuery.
Open Scope N_scope.

(** C33: a program that replaces None by ShortestPath::none(s, t) can use the result as a path: it
    has the source and the target of the query; it is found exactly if there is a walk of a weight
    below WEIGHT_MAX; if it is found, it is a shortest walk, and if not, its node list is empty. *)
Theorem C33_none_stands_for_no_path : forall c ops ig fg s t r p,
  debug_build c = true -> frozen_graph c ops ig -> prepared c ig fg ->
  answer c fg s t r -> p = match r with Some q => q | None => sp_none c s t end ->
  sp_get_source p = s /\ sp_get_target p = t /\
  (sp_is_found c p = true <-> exists ns W, walk (accepted ops) s t ns W /\ W < WEIGHT_MAX c) /\
  (sp_is_found c p = true -> walk (accepted ops) s t (sp_get_nodes p) (sp_get_weight p)) /\
  (sp_is_found c p = false -> sp_get_nodes p = [] /\ sp_get_weight p = WEIGHT_MAX c) /\
  (forall ns W, walk (accepted ops) s t ns W -> W < WEIGHT_MAX c -> sp_get_weight p <= W).
Proof. exact C33_none_proof. Qed.
Print Assumptions C33_none_stands_for_no_path.

(** With this replacement the answers of any two prepared graphs of one graph are equal (==), found
    or not. *)
Theorem C33_none_answers_are_equal : forall c ops ig fg fg' s t r r',
  debug_build c = true -> frozen_graph c ops ig -> prepared c ig fg -> prepared c ig fg' ->
  answer c fg s t r -> answer c fg' s t r' ->
  sp_eqb (match r with Some q => q | None => sp_none c s t end)
         (match r' with Some q => q | None => sp_none c s t end) = true.
Proof. exact C33_none_equal_proof. Qed.
Print Assumptions C33_none_answers_are_equal.

Example C33_case_none : exists p, p = sp_none cfg64 0 5 /\
  sp_get_source p = 0 /\ sp_get_target p = 5 /\ sp_is_found cfg64 p = false /\
  (~ exists ns W, walk (accepted ex_ops) 0 5 ns W /\ W < WEIGHT_MAX cfg64).
Proof.
  exists (sp_none cfg64 0 5).
  destruct (C33_none_stands_for_no_path cfg64 ex_ops ex_ig ex_fg 0 5 None (sp_none cfg64 0 5) eq_refl ex_frozen
    ex_prepared ex_answer_none eq_refl) as (A & B & C & _).
  assert (sp_is_found cfg64 (sp_none cfg64 0 5) = false) as E by (vm_compute; reflexivity).
  repeat split; auto. intros H. apply C in H. congruence.
Qed.
Example C33_case_found : sp_get_source ex_path = 0 /\ sp_get_target ex_path = 4 /\
  walk (accepted ex_ops) 0 4 (sp_get_nodes ex_path) (sp_get_weight ex_path).
Proof.
  destruct (C33_none_stands_for_no_path cfg64 ex_ops ex_ig ex_fg 0 4 (Some ex_path) ex_path eq_refl ex_frozen
    ex_prepared ex_answer eq_refl) as (A & B & _ & C & _).
  repeat split; auto.
Qed.
