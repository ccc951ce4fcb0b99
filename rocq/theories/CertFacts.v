(** * CertFacts: small stored weights show that a preparation without overflow checks did not overflow *)
From Verif Require Export FileProps Shape TraceFacts RelLinear RelProps ReplayProps ModeMono.
From Coq Require Import Lia.
Open Scope N_scope.

Section Cert.
  Variables (c : cfg) (H : heap_ops) (hinv : list HeapItem -> Prop).
  Hypothesis HL : heap_laws H hinv.
  Hypothesis Hdbg : debug_build c = true.
  Variables (n X B : N).
  Hypothesis Hn : n <= umax c.
  Hypothesis HX : 2 * X <= B.
  Hypothesis HB : 2 * X + B <= umax c.

  (** the sums of a contraction fit if the arcs at the node are stored with small weights *)
  Lemma contract_cert g0 ws x maxs : x < n -> pg_wf n g0 -> pg_bnd B g0 -> ws_base n ws ->
    (forall d a, In a (darcs d g0 x) -> a_weight a <= X) ->
    exists g' ws', contract_node c H g0 ws x maxs = Ok (g', ws') /\ pg_wf n g' /\ ws_base n ws' /\ pg_bnd B g'.
  Proof.
    intros Hx W0 HB0 Hb Hs.
    assert (wp (lim False) (contract_node c H g0 ws x maxs)
              (fun '(g', ws') => pg_wf n g' /\ ws_base n ws' /\ pg_bnd B g')) as G.
    { unfold contract_node. eapply wp_bind_mono.
      - apply (handle_shortcuts_spec c H hinv HL Hdbg n False Hn add_shortcut x B maxs g0 ws tt
          (fun (i j : N) (_ : unit) g => pg_wf n g /\ pg_bnd B g /\ outs g x = outs g0 x /\ ins g x = ins g0 x /\ pg_le g0 g)); auto.
        + intros ie oe Hi Ho Hlt. specialize (Hs Bwd ie Hi) as H1. specialize (Hs Fwd oe Ho) as H2. lia.
        + split; auto. split; auto. split; auto. split; auto. apply pg_le_refl.
        + intros i j s g [p w1 k1] [q w2 k2] Hi Hj (H1 & H2 & H3 & H4 & H5) _ Hne _.
          simpl in *. unfold add_shortcut; simpl.
          pose proof (getN_In _ _ _ Hi) as Hii. pose proof (getN_In _ _ _ Hj) as Hjj.
          assert (In (mkArc x w1 k1) (outs g0 p)) as Hpo by (apply (wf_sym _ _ W0); auto).
          pose proof (wf_arc _ _ W0 _ _ _ _ Hpo) as (_ & Hpx & Hw1).
          pose proof (outs_src _ _ _ _ _ _ W0 Hpo) as Hpn.
          pose proof (wf_arc _ _ W0 _ _ _ _ Hjj) as (Hqn & Hqx & Hw2).
          destruct (add_or_reduce_spec n g p q (w1 + w2) x H1) as
            (g' & -> & W' & Ho' & Hi' & Horig' & Hle' & _); auto; try lia.
          simpl. assert (pg_le g g') as Hleg.
          { intros u v w (k & Hin). destruct (Hle' _ _ _ _ Hin) as (w' & k' & Hin' & Hw').
            exists w'; split; auto. exists k'; auto. }
          split; auto. split; auto. split.
          { intros u v w k Hin. apply Horig' in Hin as [Hin|(-> & -> & -> & ->)]; [eapply H2; eauto|].
            pose proof (Hs Bwd _ Hii) as S1. pose proof (Hs Fwd _ Hjj) as S2. simpl in S1, S2. lia. }
          split; [rewrite Ho' by auto; auto|]. split; [rewrite Hi' by auto; auto|]. eapply pg_le_trans; eauto.
      - intros [[s g1] ws1] ((W1 & HB1 & Ho1 & Hi1 & Hle1) & Hb1).
        destruct (disconnect_spec n g1 x W1 Hx) as (g2 & -> & W2 & Ho2 & Hi2). simpl.
        split; auto. split; auto. intros u v w k Hin. rewrite Ho2 in Hin. destruct (N.eqb_spec u x) as [->|Hu]; [destruct Hin|].
        apply without_In in Hin as [Hin Hv]. eapply HB1; eauto. }
    destruct (wp_lim_false _ _ G) as ([g' ws'] & E & P). exists g', ws'. split; auto.
  Qed.

  (** edges are only added *)
  Lemma order_more c' maxs L : forall fg g ws k fg' g' ws' k',
    foldM (order_body c' H n maxs) L (fg, g, ws, k) = Ok (fg', g', ws', k') -> forall d, incl (fg_edges fg d) (fg_edges fg' d).
  Proof.
    induction L as [|x L IH]; intros fg g ws k fg' g' ws' k' E d; cbn [foldM] in E.
    - injection E as <- <- <- <-. intros e; auto.
    - apply bind_Ok in E as ([[[f1 g1] w1] k1] & F & E). unfold order_body in F.
      destruct (N.leb_spec n x) as [|Hx]; [discriminate|].
      apply bind_Ok in F as (f2 & Es & F). apply bind_Ok in F as ([g2 w2] & Ec & F). injection F as <- <- <- <-.
      apply IH with (d := d) in E. intros e He. apply E. clear E IH.
      unfold store_node in Es. apply bind_Ok in Es as (os & _ & Es). apply bind_Ok in Es as (ef & E1 & Es).
      apply bind_Ok in Es as (ff & _ & Es). apply bind_Ok in Es as (is & _ & Es). apply bind_Ok in Es as (eb & E2 & Es).
      apply bind_Ok in Es as (fb & _ & Es). apply bind_Ok in Es as (rk & _ & Es). injection Es as <-.
      apply store_arcs_eq in E1. apply store_arcs_eq in E2. destruct d; simpl in *; subst; apply in_or_app; auto.
  Qed.

  Lemma store_release fg g k x : store_node (release c) fg g k x = store_node c fg g k x.
  Proof. unfold store_node. cbn [release umax]. reflexivity. Qed.
  Lemma order_body_ok c' maxs fg g ws k x f1 g1 w1 k1 :
    order_body c' H n maxs (fg, g, ws, k) x = Ok (f1, g1, w1, k1) <->
    x < n /\ store_node c' fg g k x = Ok f1 /\ contract_node c' H g ws x maxs = Ok (g1, w1) /\ k1 = k + 1.
  Proof.
    unfold order_body. destruct (N.leb_spec n x) as [Hx|Hx].
    - split; [discriminate|]. intros (H1 & _). lia.
    - split.
      + intros F. apply bind_Ok in F as (f2 & Es & F). apply bind_Ok in F as ([g2 w2] & Ec & F). injection F as <- <- <- <-. auto.
      + intros (_ & -> & H2 & ->). cbn [bind]. rewrite H2. reflexivity.
  Qed.
  Lemma foldM_cons {S A} (f : S -> A -> res S) a l s : foldM f (a :: l) s = bind (f s a) (foldM f l).
  Proof. reflexivity. Qed.
  Lemma foldM_nil {S A} (f : S -> A -> res S) s : foldM f [] s = Ok s.
  Proof. reflexivity. Qed.
  Lemma order_cert maxs L : forall fg g ws k fg' g' ws' k', pg_wf n g -> ws_base n ws -> pg_bnd B g ->
    (forall d e, In e (fg_edges fg' d) -> fe_weight e <= X) ->
    foldM (order_body (release c) H n maxs) L (fg, g, ws, k) = Ok (fg', g', ws', k') ->
    foldM (order_body c H n maxs) L (fg, g, ws, k) = Ok (fg', g', ws', k').
  Proof.
    induction L as [|x L IH]; intros fg g ws k fg' g' ws' k' W Hb HBd Hs E; [rewrite foldM_nil in *; exact E|].
    rewrite foldM_cons in *. apply bind_Ok in E as ([[[f1 g1] w1] k1] & F & E).
    apply order_body_ok in F as (Hx & Es & Ec & ->). rewrite store_release in Es.
    pose proof (order_more _ _ _ _ _ _ _ _ _ _ _ E) as Hm.
    destruct (store_node_eq _ _ _ _ _ _ _ W Hx Es) as (He & _).
    destruct (contract_cert g ws x maxs Hx W HBd Hb) as (g3 & w3 & E3 & W3 & B3 & D3).
    { intros d a Ha. apply (Hs d (enc c x a)). apply Hm. rewrite He. apply in_or_app. right. apply in_map. auto. }
    pose proof (le_contract c H g ws x maxs _ E3) as E3'. rewrite E3' in Ec. injection Ec as -> ->.
    rewrite (proj2 (order_body_ok c maxs fg g ws k x f1 g1 w1 (k + 1))) by auto. apply IH; auto.
  Qed.
End Cert.

(** ** The last step keeps the weights and does no arithmetic *)
Lemma map_setN {A C} (f : A -> C) l i a x : getN l i = Some x -> f a = f x -> map f (setN l i a) = map f l.
Proof.
  intros Hi Hf. apply getN_ext. intros j. rewrite !getN_map. destruct (N.eq_dec j i) as [->|Hj].
  - rewrite getN_setN_eq by (eapply getN_Some_lt; eauto). rewrite Hi. simpl. congruence.
  - rewrite getN_setN_neq by auto. reflexivity.
Qed.
Definition weights (d : dir) (fg : FastGraph) : list N := map fe_weight (fg_edges fg d).
Lemma set_edge_weights fg d i e e0 d' : getN (fg_edges fg d) i = Some e0 -> fe_weight e = fe_weight e0 ->
  weights d' (fg_set_edge fg d i e) = weights d' fg.
Proof. intros Hi Hw. unfold weights. destruct d, d'; simpl in *; auto; eapply map_setN; eauto. Qed.
Lemma finish_edge_weights c d i fg id fg' d' : finish_edge c d i fg id = Ok fg' -> weights d' fg' = weights d' fg.
Proof.
  unfold finish_edge. intros E. apply bind_Ok in E as (e & Ee & E). apply idx_Ok in Ee.
  destruct (_ =? _).
  - apply bind_Ok in E as (? & _ & E). injection E as <-. eapply set_edge_weights; eauto.
  - apply bind_Ok in E as (? & _ & E). apply bind_Ok in E as (? & _ & E). injection E as <-.
    match goal with |- weights d' (fg_set_edge (fg_set_edge fg d id ?e1) d id ?e2) = _ =>
      rewrite (set_edge_weights (fg_set_edge fg d id e1) d id e2 e1 d'); [eapply set_edge_weights; eauto| |reflexivity] end.
    pose proof (getN_Some_lt _ _ _ Ee) as Hl. destruct d; simpl in *; apply getN_setN_eq; auto.
Qed.
Lemma finish_dir_weights c d n fg fg' d' : finish_dir c d n fg = Ok fg' -> weights d' fg' = weights d' fg.
Proof.
  unfold finish_dir. intros E.
  refine (foldM_ok_inv _ (fun f => weights d' f = weights d' fg) _ _ _ _ _ E); [|reflexivity].
  intros i f f' _ Hf Hi. apply bind_Ok in Hi as (b & _ & Hi). apply bind_Ok in Hi as (e & _ & Hi).
  refine (foldM_ok_inv _ (fun f => weights d' f = weights d' fg) _ _ _ _ _ Hi); [|auto].
  intros id f1 f2 _ H1 H2. apply finish_edge_weights with (d' := d') in H2. congruence.
Qed.
Lemma finish_weights c n fg fg' d' : finish_contraction c n fg = Ok fg' -> weights d' fg' = weights d' fg.
Proof.
  unfold finish_contraction. intros E. apply bind_Ok in E as (f1 & E1 & E2).
  apply finish_dir_weights with (d' := d') in E1. apply finish_dir_weights with (d' := d') in E2. congruence.
Qed.

Definition other {A} (m : res A) : Prop := m <> Panic POverflow /\ m <> Panic PCapacity.
Lemma other_Ok {A} (a : A) : other (Ok a).
Proof. split; discriminate. Qed.
Lemma other_bind {A C} (m : res A) (f : A -> res C) : other m -> (forall a, other (f a)) -> other (bind m f).
Proof. intros [H1 H2] Hf. destruct m; simpl; [apply Hf| |split; discriminate]. split; congruence. Qed.
Lemma other_foldM {A C} (f : C -> A -> res C) : (forall b a, other (f b a)) -> forall l b, other (foldM f l b).
Proof. intros Hf. induction l as [|a l IH]; intros b; simpl; [apply other_Ok|]. apply other_bind; auto. Qed.
Lemma other_idx {A} (l : list A) i : other (idx l i).
Proof. unfold idx. destruct (getN l i); [apply other_Ok|split; discriminate]. Qed.
Lemma other_begin fg d v : other (fg_begin_edges fg d v).
Proof. unfold fg_begin_edges. repeat (apply other_bind; [apply other_idx|intros ?]). apply other_idx. Qed.
Lemma other_end fg d v : other (fg_end_edges fg d v).
Proof. unfold fg_end_edges. repeat (apply other_bind; [apply other_idx|intros ?]). apply other_idx. Qed.
Lemma other_find fg d adj : forall ids, other (find_edge_id fg d ids adj).
Proof.
  induction ids as [|i r IH]; simpl; [split; discriminate|]. apply other_bind; [apply other_idx|]. intros e.
  destruct (_ =? _); [apply other_Ok|auto].
Qed.
Lemma other_get fg d v adj : other (get_edge_id fg d v adj).
Proof. unfold get_edge_id. apply other_bind; [apply other_begin|]. intros b. apply other_bind; [apply other_end|]. intros e. apply other_find. Qed.
Lemma other_finish c n fg : other (finish_contraction c n fg).
Proof.
  assert (forall d fg, other (finish_dir c d n fg)) as G.
  { intros d f. unfold finish_dir. apply other_foldM. intros f1 i. apply other_bind; [apply other_begin|]. intros b.
    apply other_bind; [apply other_end|]. intros e. apply other_foldM. intros f2 id. unfold finish_edge.
    apply other_bind; [apply other_idx|]. intros ed. destruct (_ =? _).
    - apply other_bind; [|intros; apply other_Ok]. destruct (debug_build c); [|apply other_Ok]. unfold assert.
      destruct (_ =? _); [apply other_Ok|split; discriminate].
    - apply other_bind; [apply other_get|]. intros ?. apply other_bind; [apply other_get|]. intros ?. apply other_Ok. }
  unfold finish_contraction. apply other_bind; auto.
Qed.

(** ** The certificate *)
Lemma order_body_run c H n fg0 ig order params : run_contraction_with_order c H n fg0 ig order params =
  bind (pg_from_input_graph c ig) (fun g0 =>
    bind (foldM (order_body c H n (po_max_settled_nodes_contraction_with_order params)) order (fg0, g0, ws_new c n, 0))
      (fun '(fg, _, _, _) => finish_contraction c n fg)).
Proof. reflexivity. Qed.

Lemma fg_new_release c n fg0 : 1 <= umax c -> fg_new (release c) n = Ok fg0 -> fg_new c n = Ok fg0 /\ n + 1 <= umax c.
Proof.
  unfold fg_new. cbn [umax release]. intros Hu E. destruct (N.leb_spec n (umax c / 2)) as [Hn|]; [|discriminate].
  assert (n + 1 <= umax c).
  { assert (umax c / 2 < umax c) by (apply N.div_lt; lia). lia. }
  split; auto. unfold uadd in *. cbn [umax release debug_build] in E. rewrite (proj2 (N.leb_le _ _) H) in *. exact E.
Qed.

Lemma cert_order c ops ig H hinv order params fg M X : debug_build c = true -> 1 <= umax c ->
  frozen_graph c ops ig -> ig_ok c ig -> heap_laws H hinv -> permutation_of_nodes (ig_num_nodes ig) order ->
  (forall e, In e (ig_edges ig) -> e_weight e <= M) ->
  (forall d e, In e (fg_edges fg d) -> fe_weight e <= X) ->
  4 * X <= umax c -> 2 * X + M <= umax c ->
  prepare_with_order_with_params (release c) H ig order params = Ok (inl fg) ->
  prepare_with_order_with_params c H ig order params = Ok (inl fg).
Proof.
  intros Hd Hu Hf Hok HL Hperm HM HX HB1 HB2 E.
  destruct (C07_accepts_proof c ops ig H hinv order params Hd Hf HL Hperm) as [(fg1 & E1)|HP].
  { pose proof (le_build_with_order c H ig order params _ E1) as E2. unfold prepare_with_order_with_params in *. congruence. }
  exfalso. unfold prepare_with_order_with_params, build_with_order_with_params in *.
  destruct (ig_get_num_nodes ig) as [n|r|] eqn:En; cbn [bind] in *; [|discriminate..].
  assert (n = ig_num_nodes ig) as -> by (unfold ig_get_num_nodes, ig_check_frozen in En; destruct Hf as (_ & _ & Hfr); rewrite Hfr in En; cbn in En; congruence).
  destruct (negb _); [discriminate|].
  apply bind_Ok in E as (fg0 & E0 & E). apply fg_new_release in E0 as [E0 Hn]; auto. rewrite E0 in HP. cbn [bind] in HP.
  apply bind_Ok in E as (fg' & E & Ef). injection Ef as ->.
  rewrite order_body_run in *.
  destruct (from_input_ok c ig Hok) as (g0 & Hg & W & Hin).
  change (pg_from_input_graph (release c) ig) with (pg_from_input_graph c ig) in E. rewrite Hg in E, HP. cbn [bind] in E, HP.
  apply bind_Ok in E as ([[[f1 g1] w1] k1] & EL & E).
  change (ws_new (release c)) with (ws_new c) in EL.
  assert (HW : forall d e, In e (fg_edges f1 d) -> fe_weight e <= X).
  { intros d e He. apply (in_map fe_weight) in He. fold (weights d f1) in He.
    rewrite <- (finish_weights _ _ _ _ d E) in He. apply in_map_iff in He as (e' & <- & He'). eapply HX; eauto. }
  assert (foldM (order_body c H (ig_num_nodes ig) (po_max_settled_nodes_contraction_with_order params)) order
    (fg0, g0, ws_new c (ig_num_nodes ig), 0) = Ok (f1, g1, w1, k1)) as EL'.
  { eapply (order_cert c H hinv HL Hd (ig_num_nodes ig) X (N.max M (2 * X))); eauto; try lia.
    - apply ws_new_base.
    - intros u v w k Ha. apply Hin in Ha as [_ Ha]. apply HM in Ha. simpl in Ha. lia. }
  rewrite EL' in HP. cbn [bind] in HP. pose proof (other_finish c (ig_num_nodes ig) f1) as [O1 O2].
  destruct (finish_contraction c (ig_num_nodes ig) f1) as [f2|r|]; cbn [bind] in HP; destruct HP as [HP|HP];
    try discriminate; congruence.
Qed.

Lemma cert_prepared c ops ig fg M X : debug_build c = true -> 1 <= umax c ->
  frozen_graph (unchecked c) ops ig -> prepared (unchecked c) ig fg ->
  (forall e, In e (accepted ops) -> e_weight e <= M) ->
  (forall e, In e (fg_edges_fwd fg) \/ In e (fg_edges_bwd fg) -> fe_weight e <= X) ->
  4 * X <= umax c -> 2 * X + M <= umax c ->
  frozen_graph c ops ig /\ prepared c ig fg.
Proof.
  intros Hd Hu Hf Hp HM HX HB1 HB2.
  pose proof (prepared_nodes _ _ _ _ Hf Hp) as Hids.
  pose proof (prepared_ig_ok _ _ _ _ Hf Hp) as Hok.
  assert (ig_num_nodes ig <= umax c) as Hn by (destruct Hf as (_ & Hr & _); exact (run_nodes_bound _ _ _ Hr)).
  assert (frozen_graph c ops ig) as Hf'.
  { apply frozen_release; auto. intros e He. specialize (Hids e He). lia. }
  assert (ig_ok c ig) as Hok'.
  { destruct Hok as [O1 O2 O3]. constructor; auto. }
  split; auto. right.
  assert (HX' : forall d e, In e (fg_edges fg d) -> fe_weight e <= X) by (intros [|] e He; apply HX; auto).
  destruct Hp as [(ps & H & hinv & Q & qinv & HL & QL & HE)|(order & ps & Hperm & H & hinv & HL & HE)].
  - destruct (C61_proof _ _ _ _ _ _ _ QL HE) as (order & P & _ & E).
    exists order. eexists. split; [exact P|]. exists H, hinv. split; [exact HL|].
    eapply cert_order; eauto using accepted_frozen_weight.
  - exists order, ps. split; auto. exists H, hinv. split; [exact HL|].
    eapply cert_order; eauto using accepted_frozen_weight.
Qed.

Lemma cert_call : forall c ops ig H hinv order params fg M X,
  debug_build c = true -> 1 <= umax c -> frozen_graph (unchecked c) ops ig -> heap_laws H hinv ->
  permutation_of_nodes (ig_num_nodes ig) order ->
  prepare_with_order_with_params (unchecked c) H ig order params = Ok (inl fg) ->
  (forall e, In e (accepted ops) -> e_weight e <= M) ->
  (forall e, In e (fg_edges_fwd fg) \/ In e (fg_edges_bwd fg) -> fe_weight e <= X) ->
  4 * X <= umax c -> 2 * X + M <= umax c ->
  prepare_with_order_with_params c H ig order params = Ok (inl fg).
Proof.
  intros c ops ig H hinv order params fg M X Hd Hu Hf HL Hperm HE HM HX HB1 HB2.
  assert (prepared (unchecked c) ig fg) as Hp by (right; exists order, params; split; auto; exists H, hinv; auto).
  destruct (cert_prepared c ops ig fg M X Hd Hu Hf Hp HM HX HB1 HB2) as [Hf' _].
  assert (ig_ok c ig) as Hok' by (destruct (prepared_ig_ok _ _ _ _ Hf Hp) as [O1 O2 O3]; constructor; auto).
  eapply cert_order; eauto using accepted_frozen_weight. intros [|] e He; apply HX; auto.
Qed.

Lemma cert_answers : forall c ops ig fg M X K1 K2 sources targets r,
  debug_build c = true -> 1 <= umax c -> frozen_graph (unchecked c) ops ig -> prepared (unchecked c) ig fg ->
  (forall e, In e (accepted ops) -> e_weight e <= M) ->
  (forall e, In e (fg_edges_fwd fg) \/ In e (fg_edges_bwd fg) -> fe_weight e <= X) ->
  4 * X <= umax c -> 2 * X + M <= umax c ->
  (forall v w, In (v, w) sources -> w = WEIGHT_MAX c \/ w <= K1) ->
  (forall v w, In (v, w) targets -> w = WEIGHT_MAX c \/ w <= K2) ->
  K1 + K2 + 2 * (ig_num_nodes ig - 1) * X <= umax c ->
  answer_multi (unchecked c) fg sources targets r ->
  match r with
  | Some p =>
      total (accepted ops) sources targets (sp_get_source p) (sp_get_target p) (sp_get_nodes p) (sp_get_weight p) /\
      (forall s t ns W, total (accepted ops) sources targets s t ns W -> sp_get_weight p <= W)
  | None => forall s t ns W, total (accepted ops) sources targets s t ns W -> WEIGHT_MAX c <= W
  end.
Proof.
  intros c ops ig fg M X K1 K2 ss ts r Hd Hu Hf Hp HM HX HB1 HB2 HK1 HK2 HB Ha.
  destruct (cert_prepared c ops ig fg M X Hd Hu Hf Hp HM HX HB1 HB2) as [Hf' Hp'].
  eapply C16_stored_proof; eauto.
Qed.
