(** * OutputProps: proofs about the output of a graph as Rust code *)
From Verif Require Export SpecOutput FileProps.
Open Scope N_scope.

(** ** The text stands for one sequence of calls only *)
Lemma denotes_fun a f f' : denotes a f -> denotes a f' -> f = f'.
Proof. intros (_ & _ & ->) (_ & _ & ->). reflexivity. Qed.
Lemma digits_split a : forall b x y r s,
  (forall d, In d a -> 48 <= d <= 57) -> (forall d, In d b -> 48 <= d <= 57) ->
  ~ 48 <= x <= 57 -> ~ 48 <= y <= 57 -> a ++ x :: r = b ++ y :: s -> a = b /\ x :: r = y :: s.
Proof.
  induction a as [|d a IH]; intros [|d' b] x y r s Ha Hb Hx Hy E; cbn [app] in E.
  - auto.
  - injection E as -> _. elim Hx. apply Hb. left; auto.
  - injection E as -> _. elim Hy. apply Ha. left; auto.
  - injection E as -> E. destruct (IH b x y r s) as [-> ->]; auto; intros; [apply Ha|apply Hb]; right; auto.
Qed.
Ltac literal s E := let x := eval vm_compute in (str s) in change (str s) with x in E.
Lemma code_unique s p : code s p -> forall q, code s q -> p = q.
Proof.
  induction 1 as [|s p H IH|a b d f t w s p Ha Hb Hd H IH]; intros q Hq.
  - inversion Hq; auto.
  - inversion Hq; subst; auto.
  - remember (str "g.add_edge(" ++ a ++ str ", " ++ b ++ str ", " ++ d ++ str ");" ++ s) as x eqn:E.
    destruct Hq as [|s' p' H'|a' b' d' f' t' w' s' p' Ha' Hb' Hd' H'];
      literal "g.add_edge("%string E; literal ", "%string E; literal ");"%string E; cbn [app] in E; try discriminate.
    injection E as E.
    apply digits_split in E as [-> E]; [|apply Ha'|apply Ha|vm_compute; intuition congruence|vm_compute; intuition congruence].
    injection E as E.
    apply digits_split in E as [-> E]; [|apply Hb'|apply Hb|vm_compute; intuition congruence|vm_compute; intuition congruence].
    injection E as E.
    apply digits_split in E as [-> E]; [|apply Hd'|apply Hd|vm_compute; intuition congruence|vm_compute; intuition congruence].
    injection E as E. subst s'.
    rewrite (denotes_fun _ _ _ Ha Ha'), (denotes_fun _ _ _ Hb Hb'), (denotes_fun _ _ _ Hd Hd'), (IH p' H'). reflexivity.
Qed.

(** ** The text of a graph *)
Lemma dec_denotes n : denotes (dec n) n.
Proof. destruct (dec_spec n) as (H1 & H2 & H3 & _). split; [auto|]. split; [auto|]. symmetry. exact H3. Qed.
Lemma code_edge e s p : code s p -> code (edge_output e ++ s) (OpAddEdge (e_from e) (e_to e) (e_weight e) :: p).
Proof.
  intros H. unfold edge_output. rewrite <- !app_assoc. apply code_call; auto; apply dec_denotes.
Qed.
Lemma code_output es : code (join [10] (map edge_output es) ++ [10]) (add_ops es).
Proof.
  induction es as [|e es IH]; [apply code_newline, code_end|]. destruct es as [|e' es].
  - apply code_edge, code_newline, code_end.
  - change (join [10] (map edge_output (e :: e' :: es))) with (edge_output e ++ [10] ++ join [10] (map edge_output (e' :: es))).
    rewrite <- !app_assoc. apply code_edge. apply code_newline. exact IH.
Qed.

(** ** Running the calls gives the graph again *)
Lemma run_file_ok c ops g : (forall o, In o ops -> op_repr c o) -> ids_ok c ops -> ig_run c ig_new ops = Ok g ->
  (forall e, In e (ig_edges g) -> acceptable e = true /\ e_from e < umax c /\ e_to e < umax c /\ e_weight e <= umax c) /\
  ig_num_nodes g = fold_left id_max (ig_edges g) 0 /\ (ig_frozen g = true -> StronglySorted edge_lt (ig_edges g)) /\
  lenN (ig_edges g) <= umax c / 2.
Proof.
  intros Hr Hids Hrun. destruct (run_inv _ _ _ Hrun) as [[H1 H2 H3 H4 H5] HN]. destruct (HN Hids) as [N1 N2].
  pose proof (run_nodes_bound _ _ _ Hrun) as HB.
  assert (forall e, In e (ig_edges g) -> acceptable e = true /\ e_from e < ig_num_nodes g /\ e_to e < ig_num_nodes g /\ e_weight e <= umax c) as HE.
  { intros e He. apply H2 in He. pose proof (accepted_In _ _ He). pose proof (accepted_repr _ _ _ Hr He).
    specialize (N1 _ He). split; [apply acceptable_spec; auto|]. tauto. }
  split; [|split; [|auto]].
  - intros e He. specialize (HE e He). intuition lia.
  - destruct (fold_id_max (ig_edges g) 0) as (_ & F2 & F3). apply N.le_antisymm.
    + destruct N2 as [->|(e & He & ->)]; [apply N.le_0_l|]. destruct (H3 _ He) as (e' & He' & <- & <- & _). apply F2; auto.
    + destruct F3 as [->|(e & He & ->)]; [apply N.le_0_l|]. specialize (HE _ He). lia.
Qed.
Theorem C50_proof c ops g : (forall o, In o ops -> op_repr c o) ->
  (debug_build c = true \/ forall e, In e (accepted ops) -> e_from e < umax c /\ e_to e < umax c) ->
  ig_run c ig_new ops = Ok g ->
  exists calls, code (unit_test_output_string g) calls /\
    (forall o, In o calls -> op_repr c o) /\
    ig_run c ig_new (calls ++ if ig_frozen g then [OpFreeze] else []) = Ok g.
Proof.
  intros Hr Hids Hrun. exists (add_ops (ig_edges g)).
  destruct (run_file_ok c ops g Hr Hids Hrun) as (HE & HN & HS & HC).
  split; [apply code_output|]. split.
  - intros o Ho. unfold add_ops in Ho. apply in_map_iff in Ho as (e & <- & He). destruct (HE e He). simpl. lia.
  - rewrite ig_run_app. rewrite (add_all c (ig_edges g) ig_new eq_refl); [|intros e He; destruct (HE e He); tauto|exact HC].
    cbn [bind ig_edges ig_num_nodes ig_new app]. rewrite <- HN. destruct g as [es n [|]]; cbn [ig_edges ig_num_nodes ig_frozen] in *; [|reflexivity].
    cbn [ig_run ig_step ig_freeze ig_frozen ig_edges ig_num_nodes bind]. rewrite dedup_sort_id; auto.
Qed.
