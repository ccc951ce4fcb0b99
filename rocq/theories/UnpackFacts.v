(** * UnpackFacts: stored edges are real walks, and unpacking lists their nodes *)
From Verif Require Export FgOk PathCalc.
Open Scope N_scope.

Section Unpack.
  Variables (c : cfg) (E : list Edge) (n : N) (fg : FastGraph).
  Hypothesis Hok : fg_base c E n fg.

  Lemma is_shortcut_orig ed : fe_replaced_in ed = umax c -> fe_replaced_out ed = umax c ->
    fe_is_shortcut c ed = Ok false.
  Proof. intros H1 H2. unfold fe_is_shortcut, INVALID_EDGE. rewrite H1, H2, N.eqb_refl. reflexivity. Qed.
  Lemma is_shortcut_sc ed : fe_replaced_in ed <> umax c -> fe_replaced_out ed <> umax c ->
    fe_is_shortcut c ed = Ok true.
  Proof.
    intros H1 H2. unfold fe_is_shortcut, INVALID_EDGE.
    apply N.eqb_neq in H1, H2. rewrite H1, H2. reflexivity.
  Qed.

  Lemma unpack_spec k : forall d id ed, getN (fg_edges fg d) id = Some ed ->
    (N.to_nat (rk fg (fe_base ed)) < k)%nat ->
    exists L, walk E (fsrc d (fe_base ed) (fe_adj ed)) (fdst d (fe_base ed) (fe_adj ed))
                (L ++ [fdst d (fe_base ed) (fe_adj ed)]) (fe_weight ed) /\
      (forall nodes, unpack k c fg d nodes id false = Ok (nodes ++ L)) /\
      (forall nodes, unpack k c fg d nodes id true = Ok (nodes ++ rev L)).
  Proof.
    induction k as [|k IH]; intros d id ed Hed Hk; [lia|].
    destruct (ok_src _ _ _ _ Hok _ _ _ Hed) as [(H1 & H2 & H3)|
      (ei & eo & Hi & Ho & Gi & Go & Hb & Ai & Ao & Hw & Hrk)].
    - exists [fsrc d (fe_base ed) (fe_adj ed)]. split.
      + simpl. apply walk_one; auto.
      + split; intros nodes; simpl; rewrite (idx_Some _ _ _ Hed); cbn [bind];
          rewrite (is_shortcut_orig _ H1 H2); cbn [bind negb]; destruct d; reflexivity.
    - destruct (IH Bwd _ _ Gi) as (Li & Wi & Fi & Ri); [lia|].
      destruct (IH Fwd _ _ Go) as (Lo & Wo & Fo & Ro); [rewrite <- Hb; lia|].
      simpl in Wi, Wo.
      exists (Li ++ Lo). split; [|split].
      + rewrite <- app_assoc, Hw, <- Ai, <- Ao. eapply walk_app; [exact Wi|]. rewrite Hb. exact Wo.
      + intros nodes; simpl; rewrite (idx_Some _ _ _ Hed); cbn [bind];
          rewrite (is_shortcut_sc _ Hi Ho); cbn [bind negb]. rewrite Fi. cbn [bind]. rewrite Fo, app_assoc. auto.
      + intros nodes; simpl; rewrite (idx_Some _ _ _ Hed); cbn [bind];
          rewrite (is_shortcut_sc _ Hi Ho); cbn [bind negb]. rewrite Ro. cbn [bind].
        rewrite Ri, rev_app_distr, app_assoc. auto.
  Qed.

  Lemma edge_path d id ed : getN (fg_edges fg d) id = Some ed ->
    path (edge_rel E) (fsrc d (fe_base ed) (fe_adj ed)) (fdst d (fe_base ed) (fe_adj ed)) (fe_weight ed).
  Proof.
    intros Hed. destruct (unpack_spec (S (N.to_nat (rk fg (fe_base ed)))) d id ed Hed) as (L & HW & _); [lia|].
    eapply walk_path; eauto.
  Qed.
  Lemma up_fwd_path u v W : path (up fg Fwd) u v W -> path (edge_rel E) u v W.
  Proof.
    induction 1 as [|u x v w W (id & ed & Hed & <- & <- & <-) Hp IH]; [constructor|].
    eapply path_app; eauto. apply (edge_path Fwd _ _ Hed).
  Qed.
  Lemma up_bwd_path u v W : path (up fg Bwd) u v W -> path (edge_rel E) v u W.
  Proof.
    induction 1 as [|u x v w W (id & ed & Hed & <- & <- & <-) Hp IH]; [constructor|].
    rewrite N.add_comm. eapply path_app; eauto. apply (edge_path Bwd _ _ Hed).
  Qed.
End Unpack.
