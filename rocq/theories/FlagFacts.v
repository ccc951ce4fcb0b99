(** * FlagFacts: the validity flags and label tables guarded by them *)
From Verif Require Export BaseFacts ValidFlags.

Definition vf_inv (n : N) (f : ValidFlags) : Prop :=
  lenN (vf_flags f) = n /\ 1 <= vf_flag f <= u32_max /\
  (forall i x, getN (vf_flags f) i = Some x -> x <= vf_flag f).

Definition vfb (f : ValidFlags) (v : N) : bool :=
  match getN (vf_flags f) v with Some x => x =? vf_flag f | None => false end.

Lemma vf_is_valid_ok n f v : vf_inv n f -> v < n -> vf_is_valid f v = Ok (vfb f v).
Proof.
  intros (Hl & _ & _) Hv. unfold vf_is_valid, vfb, idx.
  destruct (getN_lt (vf_flags f) v) as [x ->]; [lia|]. reflexivity.
Qed.
Lemma vf_set_valid_ok n f v : vf_inv n f -> v < n ->
  exists f', vf_set_valid f v = Ok f' /\ vf_inv n f' /\
    (forall u, vfb f' u = (u =? v) || vfb f u).
Proof.
  intros (Hl & Hf & Hx) Hv. unfold vf_set_valid. rewrite upd_eq by lia. simpl.
  eexists; split; [reflexivity|]. split.
  - unfold vf_inv; simpl. rewrite lenN_setN. repeat split; auto; try lia.
    intros i x. rewrite getN_setN. destruct (_ && _); [intros [= <-]; lia|eauto].
  - intros u. unfold vfb; simpl. rewrite getN_setN. rewrite (N.eqb_sym v u).
    destruct (N.eqb_spec u v) as [->|]; simpl; auto.
    destruct (N.ltb_spec v (lenN (vf_flags f))); [|lia]. apply N.eqb_refl.
Qed.
Lemma vf_invalidate_ok n f : vf_inv n f ->
  vf_inv n (vf_invalidate_all f) /\ (forall u, vfb (vf_invalidate_all f) u = false).
Proof.
  intros (Hl & Hf & Hx). unfold vf_invalidate_all.
  destruct (N.eqb_spec (vf_flag f) u32_max) as [E|E]; split.
  - unfold vf_inv; simpl. rewrite lenN_repeat. split; [auto|]. split; [unfold u32_max; lia|].
    intros i x Hi. unfold vec_repeat in Hi. apply getN_In, repeat_spec in Hi. lia.
  - intros u. unfold vfb; simpl. destruct (getN _ u) as [x|] eqn:Eu; auto.
    unfold vec_repeat in Eu. apply getN_In, repeat_spec in Eu. subst; reflexivity.
  - unfold vf_inv; simpl. repeat split; auto; try lia. intros i x Hi. apply Hx in Hi. lia.
  - intros u. unfold vfb; simpl. destruct (getN _ u) as [x|] eqn:Eu; auto.
    apply Hx in Eu. apply N.eqb_neq. lia.
Qed.
Lemma vf_new_ok n : vf_inv n (vf_new n) /\ (forall u, vfb (vf_new n) u = false).
Proof.
  split.
  - unfold vf_inv, vf_new; simpl. rewrite lenN_repeat. split; [auto|]. split; [unfold u32_max; lia|].
    intros i x Hi. unfold vec_repeat in Hi. apply getN_In, repeat_spec in Hi. lia.
  - intros u. unfold vfb, vf_new; simpl. destruct (getN _ u) as [x|] eqn:Eu; auto.
    unfold vec_repeat in Eu. apply getN_In, repeat_spec in Eu. subst; reflexivity.
Qed.

(** The label of [v], if it is valid. *)
Definition view {A} (f : ValidFlags) (d : list A) (v : N) : option A :=
  if vfb f v then getN d v else None.

Lemma view_lt {A} n f (d : list A) v x : vf_inv n f -> view f d v = Some x -> v < n.
Proof.
  intros (Hl & _) H. unfold view, vfb in H. destruct (getN (vf_flags f) v) eqn:E; [|discriminate].
  apply getN_Some_lt in E. lia.
Qed.
