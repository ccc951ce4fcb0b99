(** * TermProps: proofs of the properties of SpecTerm *)
From Verif Require Import SpecTerm TermFacts.
Open Scope N_scope.

Lemma query_term c n pc fg ss ts H hinv : heap_laws H hinv -> calculator c n pc ->
  debug_build c = true \/ upward fg -> ~ nesting_cycle c fg -> pc_calc_path_multiple c H pc fg ss ts <> Diverge.
Proof.
  intros HL Hc Hm Hac HE.
  pose proof (calc_term c H hinv HL [] n fg (fun _ => True) (or_introl (fun _ => I)) pc ss ts (calculator_ok _ _ _ Hc)
    (or_introl (fun _ => I)) Hm Hac) as W. rewrite HE in W. exact W.
Qed.

Lemma C68_all_proof c n pc fg H hinv : heap_laws H hinv -> calculator c n pc -> debug_build c = true \/ upward fg ->
  ~ nesting_cycle c fg ->
  (forall s t, calc_path c H fg s t <> Diverge) /\
  (forall ss ts, calc_path_multiple c H fg ss ts <> Diverge) /\
  (forall s t, pc_calc_path c H pc fg s t <> Diverge) /\
  (forall ss ts, pc_calc_path_multiple c H pc fg ss ts <> Diverge).
Proof.
  intros HL Hc Hm Hac.
  assert (forall ss ts, calc_path_multiple c H fg ss ts <> Diverge) as HF.
  { intros ss ts. unfold calc_path_multiple.
    pose proof (query_term c _ _ fg ss ts H hinv HL (calculator_new c _ fg eq_refl) Hm Hac) as W.
    destruct (pc_calc_path_multiple _ _ _ _ _ _) as [[pc' r]| |]; cbn [bind]; congruence. }
  split; [intros s t; apply (HF [(s, 0)] [(t, 0)])|]. split; [exact HF|].
  split; intros; [apply (query_term _ n pc fg _ _ H hinv)|apply (query_term _ n pc fg _ _ H hinv)]; auto.
Qed.

Lemma str_cfg c c' E n fg : umax c = umax c' -> fg_str c E n fg -> fg_str c' E n fg.
Proof.
  intros Hu [A B C D F G K L M]. split; auto; try (rewrite <- Hu; auto; fail).
  - intros d id ed Hg. unfold edge_str. rewrite <- Hu. apply (L d id ed Hg).
Qed.

Lemma str_no_cycle c E n fg : fg_str c E n fg -> ~ nesting_cycle c fg.
Proof. intros S. exact (str_acyclic c E n fg (fun _ => True) (or_introl (fun _ => I)) S). Qed.

