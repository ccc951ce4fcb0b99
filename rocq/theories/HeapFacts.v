(** * HeapFacts: the list-based queues satisfy the container contracts *)
From Verif Require Export HeapImpl BaseFacts.
From Coq Require Import Permutation.
Open Scope N_scope.

Lemma heap_item_le_spec a b : heap_item_le a b = true <-> hi_weight b <= hi_weight a.
Proof.
  unfold heap_item_le, heap_item_cmp.
  destruct (N.compare_spec (hi_weight a) (hi_weight b)); simpl; split; intros; auto; try lia; discriminate.
Qed.

Lemma extract_min_spec l : forall x m r, extract_min x l = (m, r) ->
  Permutation (x :: l) (m :: r) /\ forall y, In y (x :: l) -> hi_weight m <= hi_weight y.
Proof.
  induction l as [|y t IH]; intros x m r E; simpl in E.
  - injection E as <- <-. split; auto. intros y [<-|[]]. lia.
  - destruct (N.ltb_spec (hi_weight y) (hi_weight x)).
    + destruct (extract_min y t) as [m' r'] eqn:E'. injection E as <- <-.
      destruct (IH _ _ _ E') as [P M]. split.
      * rewrite P. apply perm_swap.
      * intros z [<-|Hz]; [|auto]. specialize (M y (or_introl eq_refl)). lia.
    + destruct (extract_min x t) as [m' r'] eqn:E'. injection E as <- <-.
      destruct (IH _ _ _ E') as [P M]. split.
      * rewrite perm_swap, P. apply perm_swap.
      * intros z [<-|[<-|Hz]]; [apply M; simpl; auto| |apply M; simpl; auto].
        specialize (M x (or_introl eq_refl)). lia.
Qed.

Lemma list_heap_laws : heap_laws list_heap (fun _ => True).
Proof.
  split; auto. split; [auto|]. split.
  - intros [|x t] _; simpl; split; intros; congruence.
  - split; [|auto]. intros [|a t] x h' _ E; simpl in E; [discriminate|]. injection E as E.
    destruct (extract_min_spec _ _ _ _ E) as [P M]. split; auto. split; auto.
    intros y Hy. apply heap_item_le_spec. auto.
Qed.

Lemma pq_extract_min_spec l : forall x m r, pq_extract_min x l = (m, r) ->
  Permutation (x :: l) (m :: r) /\ forall y, In y (x :: l) -> snd m <= snd y.
Proof.
  induction l as [|y t IH]; intros x m r E; simpl in E.
  - injection E as <- <-. split; auto. intros y [<-|[]]. lia.
  - destruct (N.ltb_spec (snd y) (snd x)).
    + destruct (pq_extract_min y t) as [m' r'] eqn:E'. injection E as <- <-.
      destruct (IH _ _ _ E') as [P M]. split.
      * rewrite P. apply perm_swap.
      * intros z [<-|Hz]; [|auto]. specialize (M y (or_introl eq_refl)). lia.
    + destruct (pq_extract_min x t) as [m' r'] eqn:E'. injection E as <- <-.
      destruct (IH _ _ _ E') as [P M]. split.
      * rewrite perm_swap, P. apply perm_swap.
      * intros z [<-|[<-|Hz]]; [apply M; simpl; auto| |apply M; simpl; auto].
        specialize (M x (or_introl eq_refl)). lia.
Qed.

Lemma list_pq_laws : pq_laws list_pq (fun _ => True).
Proof.
  split; auto. split; [|split; [|split]].
  - intros q k p _ _. split; auto. simpl. symmetry. apply Permutation_cons_append.
  - intros [|x t] _; simpl; split; intros; congruence.
  - intros [|a t] k p q' _ E; simpl in E; [discriminate|]. injection E as E.
    destruct (pq_extract_min_spec _ _ _ _ E) as [P M]. split; auto. split; auto.
    intros k' p' Hin. apply (M (k', p')). auto.
  - auto.
Qed.
