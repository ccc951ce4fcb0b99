(** * PathFacts: paths over a weighted relation, and their relation to walks *)
From Verif Require Export BaseFacts Spec.

(** Paths in a graph given by the relation [R u v w]: an edge from [u] to [v] of weight [w]. *)
Inductive path (R : N -> N -> N -> Prop) : N -> N -> N -> Prop :=
| path_nil u : path R u u 0
| path_cons u v t w W : R u v w -> path R v t W -> path R u t (w + W).

Lemma path_app R u v t W1 W2 : path R u v W1 -> path R v t W2 -> path R u t (W1 + W2).
Proof.
  induction 1 as [|u x v w W Hr Hp IH]; intros H2; simpl; auto.
  rewrite <- N.add_assoc. econstructor; eauto.
Qed.
Lemma path_one (R : N -> N -> N -> Prop) u v w : R u v w -> path R u v w.
Proof. intros H. rewrite <- (N.add_0_r w). econstructor; [eauto|constructor]. Qed.
Lemma path_snoc (R : N -> N -> N -> Prop) u v t W w : path R u v W -> R v t w -> path R u t (W + w).
Proof. intros. eapply path_app; eauto. apply path_one; auto. Qed.
Lemma path_last R u t W : path R u t W ->
  (u = t /\ W = 0) \/ exists v w W', path R u v W' /\ R v t w /\ W = W' + w.
Proof.
  induction 1 as [|u v t w W Hr Hp IH]; auto. right.
  destruct IH as [[-> ->]|(x & w' & W' & H1 & H2 & ->)].
  - exists u, w, 0. repeat split; auto; [constructor|lia].
  - exists x, w', (w + W'). repeat split; auto; [econstructor; eauto|lia].
Qed.
Lemma path_mono (R R' : N -> N -> N -> Prop) u v W :
  (forall u v w, R u v w -> exists W', W' <= w /\ path R' u v W') ->
  path R u v W -> exists W', W' <= W /\ path R' u v W'.
Proof.
  intros H; induction 1 as [|u x v w W Hr Hp (W1 & Hle & Hp1)].
  - exists 0; split; [lia|constructor].
  - destruct (H _ _ _ Hr) as (W2 & Hle2 & Hp2). exists (W2 + W1).
    split; [lia|]. eapply path_app; eauto.
Qed.
Lemma path_sub (R R' : N -> N -> N -> Prop) u v W :
  (forall u v w, R u v w -> R' u v w) -> path R u v W -> path R' u v W.
Proof. intros H; induction 1; econstructor; eauto. Qed.
Lemma path_inv_nil (R : N -> N -> N -> Prop) u v W :
  (forall v w, ~ R u v w) -> path R u v W -> v = u /\ W = 0.
Proof. intros H; destruct 1; auto. exfalso; eapply H; eauto. Qed.

(** Walks are paths over the edge relation. *)
Definition edge_rel (E : list Edge) (u v w : N) : Prop := In (mkEdge u v w) E.
Lemma walk_path E u v ns W : walk E u v ns W -> path (edge_rel E) u v W.
Proof. induction 1; econstructor; eauto. Qed.
Lemma path_walk E u v W : path (edge_rel E) u v W -> exists ns, walk E u v ns W.
Proof.
  induction 1 as [|u x v w W Hr Hp [ns IH]]; [eexists; constructor|].
  eexists; econstructor; eauto.
Qed.
Lemma walk_head E u v ns W : walk E u v ns W -> exists r, ns = u :: r.
Proof. destruct 1; eauto. Qed.
Lemma walk_last E u v ns W : walk E u v ns W -> exists r, ns = r ++ [v].
Proof.
  induction 1 as [u|u x v w ns W Hr Hp [r ->]]; [exists []; auto|].
  exists (u :: r); reflexivity.
Qed.
Lemma walk_app E u v t ns1 ns2 W1 W2 :
  walk E u v (ns1 ++ [v]) W1 -> walk E v t ns2 W2 -> walk E u t (ns1 ++ ns2) (W1 + W2).
Proof.
  intros H1 H2. remember (ns1 ++ [v]) as l eqn:El.
  revert ns1 El; induction H1 as [u|u x v w ns W Hr Hp IH]; intros ns1 El.
  - destruct ns1 as [|a [|b ns1]]; simpl in El; try discriminate. simpl. auto.
  - destruct ns1 as [|a ns1]; simpl in El.
    + injection El as -> ->. inversion Hp.
    + injection El as -> ->. simpl. rewrite <- N.add_assoc. econstructor; eauto.
Qed.
Lemma walk_one E u v w : In (mkEdge u v w) E -> walk E u v [u; v] w.
Proof. intros H. rewrite <- (N.add_0_r w). econstructor; [eauto|constructor]. Qed.
