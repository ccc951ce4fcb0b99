(** * UnwindProps: proofs of C64 and C65 *)
From Verif Require Export SpecUnwind UnwindFacts ApiFacts.
Open Scope N_scope.

Lemma mirrors_result {A} (m : PathCalculator * res A) (r : res (PathCalculator * A)) : mirrors m r (fun p => p) ->
  snd m = ('(_, a) <- r ;; Ok a) /\ (forall pc a, r = Ok (pc, a) <-> m = (pc, Ok a)).
Proof.
  destruct r as [[pc a]|p|]; simpl.
  - intros ->. split; auto. intros. split; congruence.
  - intros (s & ->). split; auto. intros. split; congruence.
  - intros (s & ->). split; auto. intros. split; congruence.
Qed.

Lemma C64_same_proof : forall c H fg sources targets pc,
  snd (st_calc_path_multiple c H fg sources targets pc) = result_of (pc_calc_path_multiple c H pc fg sources targets) /\
  forall pc' r, pc_calc_path_multiple c H pc fg sources targets = Ok (pc', r) <->
                st_calc_path_multiple c H fg sources targets pc = (pc', Ok r).
Proof. intros. apply mirrors_result, mirrors_calc. Qed.

Lemma C64_any_proof : forall c n pc H hinv H' fg fg' sources targets sources' targets' pc' out,
  heap_laws H hinv -> calculator c n pc ->
  st_calc_path_multiple c H' fg' sources' targets' pc = (pc', out) ->
  snd (st_calc_path_multiple c H fg sources targets pc') = snd (st_calc_path_multiple c H fg sources targets pc).
Proof.
  intros c n pc H hinv H' fg fg' ss ts ss' ts' pc' out HL Hc E. apply calculator_ok in Hc.
  assert (pc_ok n pc') as Hc'. { pose proof (keeps_calc n c H' fg' ss' ts' pc Hc) as G. rewrite E in G. exact G. }
  destruct (C64_same_proof c H fg ss ts pc') as (-> & _). destruct (C64_same_proof c H fg ss ts pc) as (-> & _).
  pose proof (calc_history c H hinv HL n fg pc' pc ss ts Hc' Hc) as G. unfold result_of, rel_res in *.
  destruct (pc_calc_path_multiple c H pc' fg ss ts) as [[a x]|r|], (pc_calc_path_multiple c H pc fg ss ts) as [[b y]|r'|]; simpl in *; try tauto.
  - destruct G as (-> & _). auto.
  - congruence.
Qed.

(** ** input graphs *)
Lemma step_same c o g :
  match ig_step c g o with
  | Ok (g', out) => st_ig_step c o g = (g', Ok out)
  | Panic r => exists g', st_ig_step c o g = (g', Panic r)
  | Diverge => False
  end.
Proof.
  destruct o; cbn [ig_step st_ig_step].
  1,2: unfold ig_add_edge, ig_add_edge_bidir, ig_do_add_edge, st_bind, st_do_add_edge, st_read, st_bind, st_write, w_push_edge, st_ret;
    destruct (ig_frozen g) eqn:Ef; cbn [bind]; [eauto|]; destruct (from =? to); cbn [bind]; auto; destruct (weight <? 1); cbn [bind]; auto;
    destruct (uadd c (N.max from to) 1) as [m|r|] eqn:Eu; cbn [bind ig_edges ig_num_nodes ig_frozen]; eauto;
    [|unfold uadd in Eu; destruct (_ <=? _); [discriminate|]; destruct (debug_build c); discriminate];
    unfold vpush; destruct (lenN (ig_edges g) <? umax c / 2); cbn [bind ig_edges ig_num_nodes ig_frozen]; eauto;
    try rewrite Ef; auto.
  - destruct (_ <? _); cbn [bind ig_edges ig_num_nodes ig_frozen]; eauto.
  - unfold ig_freeze, st_freeze, st_bind, st_read, st_write, st_ret. destruct (ig_frozen g); cbn [bind]; eauto.
  - auto.
  - unfold ig_get_edges, ig_check_frozen, st_bind, st_read, st_ret. destruct (ig_frozen g); cbn [bind]; eauto.
  - unfold ig_get_num_nodes, ig_check_frozen, st_bind, st_read, st_ret. destruct (ig_frozen g); cbn [bind]; eauto.
  - unfold ig_get_num_edges, ig_check_frozen, st_bind, st_read, st_ret. destruct (ig_frozen g); cbn [bind]; eauto.
Qed.

Lemma step_panic c o g r g' : lenN (ig_edges g) + lenN (requested o) <= umax c / 2 ->
  st_ig_step c o g = (g', Panic r) -> g' = g.
Proof.
  intros Hl. destruct o; cbn [st_ig_step].
  1,2: unfold st_bind, st_do_add_edge, st_read, st_bind, st_write, w_push_edge, st_ret;
    destruct (ig_frozen g) eqn:Ef; [congruence|]; destruct (from =? to); [congruence|]; destruct (weight <? 1); [congruence|];
    destruct (uadd c (N.max from to) 1) as [m|r0|] eqn:Eu; cbn [bind]; [|congruence|congruence];
    unfold vpush; cbn [ig_edges]; unfold lenN in Hl; simpl in Hl;
    destruct (N.ltb_spec (lenN (ig_edges g)) (umax c / 2)); [|unfold lenN in *; lia]; cbn [bind ig_edges]; try congruence.
  - destruct (N.ltb_spec (lenN (ig_edges g ++ [mkEdge from to weight])) (umax c / 2)) as [|X]; cbn [bind]; [congruence|].
    unfold lenN in X. rewrite app_length in X. simpl in X. lia.
  - unfold st_freeze, st_bind, st_read, st_write, st_ret. destruct (ig_frozen g); congruence.
  - discriminate.
  - unfold st_bind, st_read, st_ret. destruct (ig_get_edges g); congruence.
  - unfold st_bind, st_read, st_ret. destruct (ig_get_num_nodes g); congruence.
  - unfold st_bind, st_read, st_ret. destruct (ig_get_num_edges g); congruence.
Qed.

Lemma dedup_len l : lenN (dedup_edges l) <= lenN l.
Proof.
  assert (forall prev l, lenN (dedup_from prev l) <= lenN l) as HD.
  { intros prev l0. revert prev. induction l0 as [|x t IH]; intros prev; simpl; [lia|].
    unfold lenN in *. destruct (_ && _); simpl; [specialize (IH prev)|specialize (IH x)]; lia. }
  destruct l as [|x t]; [simpl; lia|]. specialize (HD x t). unfold lenN in *. simpl. lia.
Qed.

Lemma step_len c o g g' out : st_ig_step c o g = (g', Ok out) -> lenN (ig_edges g') <= lenN (ig_edges g) + lenN (requested o).
Proof.
  destruct o; cbn [st_ig_step].
  1,2: unfold st_bind, st_do_add_edge, st_read, st_bind, st_write, w_push_edge, st_ret, vpush;
    destruct (ig_frozen g) eqn:Ef; [discriminate|]; destruct (from =? to); [intros X; injection X as <- _; lia|];
    destruct (weight <? 1); [intros X; injection X as <- _; lia|];
    destruct (uadd c (N.max from to) 1) as [m|r0|] eqn:Eu; cbn [bind]; try discriminate;
    cbn [ig_edges]; destruct (_ <? _); cbn [bind]; try discriminate; cbn [ig_edges].
  - intros X. injection X as <- _. unfold lenN. simpl. rewrite app_length. simpl. lia.
  - destruct (_ <? _); cbn [bind]; try discriminate. intros X. injection X as <- _. unfold lenN. simpl. rewrite !app_length. simpl. lia.
  - unfold st_freeze, st_bind, st_read, st_write, st_ret. destruct (ig_frozen g); [discriminate|].
    intros X. injection X as <- _. simpl. pose proof (dedup_len (sort_edges (ig_edges g))) as G.
    pose proof (Permutation_length (sort_perm (ig_edges g))) as G'. unfold lenN in *. lia.
  - intros X. injection X as <- _. simpl. lia.
  - unfold st_bind, st_read, st_ret. destruct (ig_get_edges g); intros X; try discriminate; injection X as <- _; lia.
  - unfold st_bind, st_read, st_ret. destruct (ig_get_num_nodes g); intros X; try discriminate; injection X as <- _; lia.
  - unfold st_bind, st_read, st_ret. destruct (ig_get_num_edges g); intros X; try discriminate; injection X as <- _; lia.
Qed.

Lemma C65_same_proof : forall c o g,
  match ig_step c g o with
  | Ok (g', out) => st_ig_step c o g = (g', Ok out)
  | Panic r => snd (st_ig_step c o g) = Panic r
  | Diverge => False
  end.
Proof.
  intros c o g. pose proof (step_same c o g) as G. destruct (ig_step c g o) as [[g' out]|r|]; auto. destruct G as (g' & ->). auto.
Qed.

Lemma C65_unchanged_proof : forall c o g r g', lenN (ig_edges g) + lenN (requested o) <= umax c / 2 ->
  st_ig_step c o g = (g', Panic r) -> g' = g.
Proof. exact step_panic. Qed.

Lemma session_run c : forall ops g0 g outs, lenN (ig_edges g0) + lenN (flat_map requested ops) <= umax c / 2 ->
  st_session c ops g0 = (g, outs) -> ig_run c g0 (returned ops outs) = Ok g.
Proof.
  induction ops as [|o ops IH]; intros g0 g outs Hl E; cbn [st_session] in E.
  - injection E as <- <-. auto.
  - destruct (st_ig_step c o g0) as [g1 out] eqn:E1. destruct (st_session c ops g1) as [g2 outs'] eqn:E2.
    injection E as -> <-. cbn [flat_map] in Hl. unfold lenN in Hl. rewrite app_length in Hl.
    pose proof (step_same c o g0) as G. cbn [returned]. destruct out as [out|r|].
    + cbn [ig_run]. destruct (ig_step c g0 o) as [[g' out']|r|]; [|destruct G; congruence|tauto].
      rewrite E1 in G. injection G as -> ->. cbn [bind]. apply (IH g' g outs'); auto.
      pose proof (step_len _ _ _ _ _ E1). unfold lenN in *. lia.
    + apply step_panic in E1; [|unfold lenN; lia]. subst g1. apply (IH g0 g outs'); auto. unfold lenN. lia.
    + destruct (ig_step c g0 o) as [[g' out']|r|]; [congruence|destruct G; congruence|tauto].
Qed.

Lemma C65_session_proof : forall c ops g outs, lenN (flat_map requested ops) <= umax c / 2 ->
  st_session c ops ig_new = (g, outs) -> ig_run c ig_new (returned ops outs) = Ok g.
Proof. intros c ops g outs Hl. apply session_run. change (lenN (ig_edges ig_new)) with 0. lia. Qed.
