(** * FlagProps: histories of the validity flags *)
From Verif Require Export FlagFacts.
Open Scope N_scope.

(** Marked after the last reset. *)
Definition marked (ops : list vf_op) (v : N) : Prop :=
  exists pre post, ops = pre ++ VfSet v :: post /\ ~ In VfReset post.
(** All marked nodes are below [n]. *)
Definition marks_below (n : N) (ops : list vf_op) : Prop := forall v, In (VfSet v) ops -> v < n.

Lemma marked_snoc ops o v : marked (ops ++ [o]) v <->
  match o with VfSet u => u = v \/ marked ops v | VfReset => False end.
Proof.
  unfold marked. split.
  - intros (pre & post & E & Hn). destruct post as [|x post] using rev_ind.
    + apply app_inj_tail in E as [_ ->]. auto.
    + clear IHpost. rewrite app_comm_cons, app_assoc in E. apply app_inj_tail in E as [E <-].
      assert (o <> VfReset) as Ho. { intros ->. apply Hn. apply in_or_app. simpl; auto. }
      destruct o; [|congruence]. right. exists pre, post. split; auto. intros H. apply Hn. apply in_or_app; auto.
  - destruct o as [u|]; [|tauto]. intros [->|(pre & post & -> & Hn)].
    + exists ops, []. auto.
    + exists pre, (post ++ [VfSet u]). rewrite <- app_assoc. split; auto.
      intros H. apply in_app_or in H as [H|[H|[]]]; auto. discriminate.
Qed.

Lemma foldM_snoc {S A} (f : S -> A -> res S) l a s : foldM f (l ++ [a]) s = bind (foldM f l s) (fun s' => f s' a).
Proof. rewrite foldM_app. destruct (foldM f l s); simpl; auto. destruct (f a0 a); auto. Qed.

Lemma flags_run n ops : marks_below n ops ->
  exists f, foldM vf_step ops (vf_new n) = Ok f /\ vf_inv n f /\ forall v, vfb f v = true <-> marked ops v.
Proof.
  induction ops as [|o ops IH] using rev_ind; intros Hm.
  - exists (vf_new n). destruct (vf_new_ok n) as [H1 H2]. split; auto. split; auto. intros v. rewrite H2.
    split; [discriminate|]. intros (pre & post & E & _). destruct pre; discriminate.
  - destruct IH as (f & Hf & Hi & Hv). { intros v Hin. apply Hm. apply in_or_app; auto. }
    rewrite foldM_snoc, Hf. cbn [bind]. destruct o as [u|]; cbn [vf_step].
    + destruct (vf_set_valid_ok n f u Hi) as (f' & -> & Hi' & Hv'). { apply Hm. apply in_or_app; simpl; auto. }
      exists f'. split; auto. split; auto. intros v. rewrite marked_snoc, Hv', orb_true_iff, N.eqb_eq, Hv. intuition congruence.
    + destruct (vf_invalidate_ok n f Hi) as [Hi' Hv']. eexists. split; [reflexivity|]. split; auto. intros v. rewrite marked_snoc, Hv'.
      intuition congruence.
Qed.

Lemma C38_proof : forall n ops, marks_below n ops ->
  exists f, foldM vf_step ops (vf_new n) = Ok f /\
    forall v, v < n -> exists b, vf_is_valid f v = Ok b /\ (b = true <-> marked ops v).
Proof.
  intros n ops Hm. destruct (flags_run n ops Hm) as (f & Hf & Hi & Hv). exists f. split; auto.
  intros v Hlt. exists (vfb f v). split; [|auto]. eapply vf_is_valid_ok; eauto.
Qed.

Lemma resets_run n k : N.of_nat k + 1 <= u32_max ->
  foldM vf_step (repeat VfReset k) (vf_new n) = Ok (mkValidFlags (vec_repeat 0 n) (1 + N.of_nat k)).
Proof.
  induction k as [|k IH]; intros Hk; [reflexivity|].
  replace (repeat VfReset (S k)) with (repeat VfReset k ++ [VfReset]) by (rewrite <- repeat_cons; auto).
  rewrite foldM_snoc, IH by lia. cbn [bind vf_step]. unfold vf_invalidate_all. cbn [vf_flag vf_flags].
  destruct (N.eqb_spec (1 + N.of_nat k) u32_max); [lia|]. f_equal. f_equal. lia.
Qed.
(** A history that wraps: the counter is at its maximum, node 1 is marked, and the next reset starts again with 1. *)
Lemma C38_wrap : exists k f f',
  foldM vf_step (repeat VfReset k ++ [VfSet 1]) (vf_new 3) = Ok f /\ vf_flag f = u32_max /\ vf_is_valid f 1 = Ok true /\
  foldM vf_step (repeat VfReset k ++ [VfSet 1; VfReset]) (vf_new 3) = Ok f' /\ vf_flag f' = 1 /\ vf_is_valid f' 1 = Ok false.
Proof.
  assert (exists k, 1 + N.of_nat k = u32_max) as (k & Hk) by (exists (N.to_nat (u32_max - 1)); rewrite N2Nat.id; reflexivity).
  assert (foldM vf_step (repeat VfReset k) (vf_new 3) = Ok (mkValidFlags [0; 0; 0] u32_max)) as HR.
  { rewrite resets_run by lia. rewrite Hk. reflexivity. }
  exists k, (mkValidFlags [0; u32_max; 0] u32_max), (mkValidFlags [0; 0; 0] 1).
  rewrite !foldM_app, HR. repeat split.
Qed.
