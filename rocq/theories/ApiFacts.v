(** * ApiFacts: from the API-level vocabulary to the invariants *)
From Verif Require Export SpecApi UnwindFacts HistoryFacts ModeMono QueryResult BuilderFacts InputGraphFacts HeapFacts.
Open Scope N_scope.

Lemma walk_incl E E' u v ns W : (forall e, In e E -> In e E') -> walk E u v ns W -> walk E' u v ns W.
Proof. intros HI. induction 1; econstructor; eauto. Qed.

Lemma walk_dom E E' u v ns W :
  (forall e, In e E -> exists e', In e' E' /\ e_from e' = e_from e /\ e_to e' = e_to e /\
                                  e_weight e' <= e_weight e) ->
  walk E u v ns W -> exists W', walk E' u v ns W' /\ W' <= W.
Proof.
  intros HD. induction 1 as [u|u v t w ns W Hin Hw (W' & IH & HL)].
  - exists 0. split; [constructor|lia].
  - destruct (HD _ Hin) as ([a b w'] & Hin' & Ha & Hb & Hl). simpl in *. subst.
    exists (w' + W'). split; [econstructor; eauto|lia].
Qed.

Lemma frozen_walk c ops ig u v ns W : frozen_graph c ops ig ->
  walk (ig_edges ig) u v ns W -> walk (accepted ops) u v ns W.
Proof.
  intros (_ & Hr & _). apply walk_incl. destruct (run_inv c ops ig Hr) as [HI _]. apply (hg_sub _ _ _ HI).
Qed.

Lemma accepted_walk c ops ig u v ns W : frozen_graph c ops ig ->
  walk (accepted ops) u v ns W -> exists W', walk (ig_edges ig) u v ns W' /\ W' <= W.
Proof.
  intros (_ & Hr & _). apply walk_dom. destruct (run_inv c ops ig Hr) as [HI _]. apply (hg_dom _ _ _ HI).
Qed.

Lemma perm_len n order : permutation_of_nodes n order -> lenN order = n.
Proof.
  intros [HN HI]. assert (Permutation order (rangeN 0 n)) as HP.
  { apply NoDup_Permutation; auto. apply rangeN_NoDup. intros x. rewrite HI, rangeN_In. lia. }
  apply Permutation_length in HP. pose proof (lenN_rangeN 0 n) as HL. unfold lenN in *. lia.
Qed.

(** the largest weight of an edge list *)
Definition max_weight (E : list Edge) : N := fold_right (fun e m => N.max (e_weight e) m) 0 E.
Lemma max_weight_ge E e : In e E -> e_weight e <= max_weight E.
Proof. induction E; simpl; [easy|]. intros [->|HI]; [lia|]. specialize (IHE HI). lia. Qed.

Lemma wp_ok {A} (P : panic_reason -> Prop) (m : res A) Q a : wp P m Q -> m = Ok a -> Q a.
Proof. intros H ->. exact H. Qed.

Theorem prepared_ok c ops ig fg : debug_build c = true -> frozen_graph c ops ig ->
  prepared c ig fg -> fg_ok c (ig_edges ig) (ig_num_nodes ig) fg.
Proof.
  intros Hd Hf Hp.
  assert (ig_ok c ig) as Hok by (apply (frozen_graph_ok c ops); auto; left; auto).
  destruct Hp as [(ps & H & hinv & Q & qinv & HL & QL & HE)|(order & ps & Hperm & H & hinv & HL & HE)].
  - eapply wp_ok; [|exact HE].
    eapply (build_with_params_spec c H hinv HL Hd ig Hok (max_weight (ig_edges ig)) True); eauto.
    intros e He. apply max_weight_ge; auto.
  - pose proof (perm_len _ _ Hperm) as Hlen. destruct Hperm as [HN HI].
    assert (wp (lim True) (build_with_order_with_params c H ig order ps)
      (fun r => exists fg, r = inl fg /\ fg_ok c (ig_edges ig) (ig_num_nodes ig) fg /\
            (forall i v : N, getN order i = Some v -> rk fg v = i))) as HW.
    { eapply (build_with_order_spec c H hinv HL Hd ig Hok (max_weight (ig_edges ig)) True); eauto.
      intros e He. apply max_weight_ge; auto. intros x Hx. apply HI; auto. }
    destruct (wp_ok _ _ _ _ HW HE) as (fg' & Hfg & Hok' & _). injection Hfg as ->. exact Hok'.
Qed.

Lemma calculator_ok c n pc : calculator c n pc -> pc_ok n pc.
Proof.
  induction 1 as [fg <-|H hinv pc fg ss ts pc' r Hc IH HL HE|H hinv pc fg s t pc' r Hc IH HL HE|
    H hinv pc fg ss ts pc' r Hc IH HL HE].
  - apply pc_new_ok.
  - pose proof (calc_history c H hinv HL n fg pc pc ss ts IH IH) as HH. rewrite HE in HH. apply HH.
  - unfold pc_calc_path in HE.
    pose proof (calc_history c H hinv HL n fg pc pc [(s,0)] [(t,0)] IH IH) as HH. rewrite HE in HH. apply HH.
  - pose proof (keeps_calc n c H fg ss ts pc IH) as HH. rewrite HE in HH. exact HH.
Qed.

(** when a query gets past its checks *)
Definition query_ok (pc : PathCalculator) (fg : FastGraph) (ss ts : list (N * N)) : Prop :=
  fg_num_nodes fg = pc_num_nodes pc /\ ss <> [] /\ ts <> [] /\
  (forall v w, In (v, w) ss -> v < pc_num_nodes pc) /\
  (forall v w, In (v, w) ts -> v < pc_num_nodes pc).

Lemma forallb_ids n (l : list (N * N)) :
  forallb (fun '(m, _) => m <? n) l = true <-> (forall v w, In (v, w) l -> v < n).
Proof.
  rewrite forallb_forall. split.
  - intros H v w HI. specialize (H _ HI). simpl in H. apply N.ltb_lt; auto.
  - intros H [v w] HI. apply N.ltb_lt. eapply H; eauto.
Qed.

Lemma query_checks c H pc fg ss ts a :
  pc_calc_path_multiple c H pc fg ss ts = Ok a -> query_ok pc fg ss ts.
Proof.
  unfold pc_calc_path_multiple, assert.
  destruct (N.eqb_spec (fg_num_nodes fg) (pc_num_nodes pc)); simpl; [|discriminate].
  destruct ss as [|s0 ss]; [discriminate|]. destruct ts as [|t0 ts]; [discriminate|].
  cbn [is_nil negb bind].
  destruct (forallb _ (s0 :: ss)) eqn:E1; [|discriminate].
  destruct (forallb _ (t0 :: ts)) eqn:E2; [|discriminate].
  intros _. split; [auto|]. split; [discriminate|]. split; [discriminate|].
  split; apply forallb_ids; auto.
Qed.

(** trivially sufficient bounds *)
Lemma calc_general c E n fg H hinv pc ss ts :
  heap_laws H hinv -> debug_build c = true -> fg_ok c E n fg -> pc_ok n pc -> query_ok pc fg ss ts ->
  wp (ovf True) (pc_calc_path_multiple c H pc fg ss ts)
    (fun '(pc', r) => pc_ok n pc' /\ answer_ok c E ss ts r).
Proof.
  intros HL Hd Hok Hpc (Hn & H1 & H2 & H3 & H4).
  assert (pc_num_nodes pc = n) as Hnn by (apply Hpc). rewrite Hnn in *.
  apply (calc_spec c H hinv HL Hd E n fg Hok ss ts (fun _ => umax c) (fun r => r * umax c) (n * umax c) True) ; auto.
  - intros [] v w HI; eauto.
  - intros d v w _ Hw. lia.
  - intros d id ed HG. destruct (ok_edge _ _ _ _ Hok d id ed HG) as (_ & _ & [_ Hw] & Hr). nia.
  - intros v Hv. pose proof (ok_rank _ _ _ _ Hok v Hv). nia.
Qed.

Lemma answer_multi_pc c fg ss ts r : answer_multi c fg ss ts r ->
  exists H hinv n pc pc', heap_laws H hinv /\ calculator c n pc /\ pc_calc_path_multiple c H pc fg ss ts = Ok (pc', r).
Proof.
  intros (H & hinv & HL & [HE|(n & pc & pc' & Hc & HE)]).
  - exists H, hinv, (fg_get_num_nodes fg), (create_calculator c fg).
    unfold calc_path_multiple in HE.
    destruct (pc_calc_path_multiple c H (create_calculator c fg) fg ss ts) as [[pc' r']| |] eqn:Hq; try discriminate.
    injection HE as ->. exists pc'. split; [exact HL|]. split; [constructor; reflexivity|reflexivity].
  - exists H, hinv, n, pc, pc'. auto.
Qed.

Lemma answer_as_multi c fg s t r : answer c fg s t r <-> answer_multi c fg [(s, 0)] [(t, 0)] r.
Proof. reflexivity. Qed.

Theorem answer_multi_ok c ops ig fg ss ts r : debug_build c = true -> frozen_graph c ops ig ->
  prepared c ig fg -> answer_multi c fg ss ts r ->
  ss <> [] /\ ts <> [] /\ (forall v w, In (v, w) (ss ++ ts) -> v < ig_num_nodes ig) /\
  answer_ok c (ig_edges ig) ss ts r.
Proof.
  intros Hd Hf Hp Ha. pose proof (prepared_ok c ops ig fg Hd Hf Hp) as Hok.
  destruct (answer_multi_pc _ _ _ _ _ Ha) as (H & hinv & n & pc & pc' & HL & Hc & HE).
  pose proof (query_checks _ _ _ _ _ _ _ HE) as Hq.
  pose proof (calculator_ok _ _ _ Hc) as Hpc.
  assert (n = ig_num_nodes ig) as Hn.
  { destruct Hq as [Hq _]. rewrite (ok_n _ _ _ _ Hok) in Hq. destruct Hpc as [Hpc _]. congruence. }
  subst n. pose proof (calc_general c _ _ fg H hinv pc ss ts HL Hd Hok Hpc Hq) as HW.
  pose proof (wp_ok _ _ _ _ HW HE) as [_ HA].
  destruct Hq as (_ & Q1 & Q2 & Q3 & Q4). destruct Hpc as (Hpn & _). rewrite Hpn in *.
  split; [auto|]. split; [auto|]. split; [|exact HA].
  intros v w HI. apply in_app_or in HI. destruct HI; eauto.
Qed.

(** the same over the edges the user added *)
Theorem answer_multi_accepted c ops ig fg ss ts r : debug_build c = true -> frozen_graph c ops ig ->
  prepared c ig fg -> answer_multi c fg ss ts r -> answer_ok c (accepted ops) ss ts r.
Proof.
  intros Hd Hf Hp Ha. destruct (answer_multi_ok c ops ig fg ss ts r Hd Hf Hp Ha) as (_ & _ & _ & HA).
  assert (forall s t ns W, total (accepted ops) ss ts s t ns W ->
     exists W', total (ig_edges ig) ss ts s t ns W' /\ W' <= W) as Hd1.
  { intros s t ns W (sw & tw & W0 & H1 & H2 & H3 & ->).
    destruct (accepted_walk c ops ig s t ns W0 Hf H3) as (W' & H4 & H5).
    exists (sw + W' + tw). split; [exists sw, tw, W'; auto|lia]. }
  destruct r as [sp|]; simpl in *.
  - destruct HA as ((sw & tw & W0 & H1 & H2 & H3 & H4) & Hlt & Hmin). split; [|split; [auto|]].
    + exists sw, tw, W0. split; auto. split; auto. split; auto. eapply frozen_walk; eauto.
    + intros s t ns W HT. destruct (Hd1 _ _ _ _ HT) as (W' & HT' & HL). specialize (Hmin _ _ _ _ HT'). lia.
  - intros s t ns W HT. destruct (Hd1 _ _ _ _ HT) as (W' & HT' & HL). specialize (HA _ _ _ _ HT'). lia.
Qed.
