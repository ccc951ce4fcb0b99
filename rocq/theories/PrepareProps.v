(** * PrepareProps: proofs of the properties of preparation *)
From Verif Require Export Shape QueryProps.
Open Scope N_scope.

(** *** Node ordering *)
Definition order_step (fg : FastGraph) : list N -> N -> res (list N) :=
  fun ordering i => r <- idx (fg_ranks fg) i ;; upd ordering r i.

Lemma node_ordering_wp c E n fg : fg_shape c E n fg ->
  exists l, fg_get_node_ordering fg = Ok l /\ lenN l = n /\
    (forall v, v < n -> getN l (rk fg v) = Some v).
Proof.
  intros Hok. pose proof (sh_lr _ _ _ _ Hok) as Hlr.
  assert (wp (fun _ => False) (fg_get_node_ordering fg)
    (fun l => lenN l = n /\ (forall v, v < n -> getN l (rk fg v) = Some v))) as HW.
  { unfold fg_get_node_ordering. rewrite Hlr.
    apply (wp_foldM_range _ _ (fun i l => lenN l = n /\ forall v, v < i -> getN l (rk fg v) = Some v)) with (b := 0) (e := n).
    - lia.
    - split; [apply lenN_repeat|]. intros v Hv. lia.
    - intros i l Hi [Hl Hv]. rewrite (idx_Some _ _ (rk fg i)).
      2:{ apply (rk_get fg n); auto; lia. }
      simpl. pose proof (sh_rank _ _ _ _ Hok i ltac:(lia)) as Hr. rewrite upd_eq by lia. simpl.
      split; [rewrite lenN_setN; auto|]. intros v Hv'.
      destruct (N.eq_dec v i) as [->|Hne].
      + apply getN_setN_eq. lia.
      + rewrite getN_setN_neq; [apply Hv; lia|]. intros HE.
        apply Hne. symmetry. apply (sh_inj _ _ _ _ Hok); auto; lia. }
  destruct (fg_get_node_ordering fg) as [l| |]; try easy. exists l. destruct HW. auto.
Qed.

Lemma rk_surj c E n fg r : fg_shape c E n fg -> r < n -> exists v, v < n /\ rk fg v = r.
Proof.
  intros Hok Hr.
  assert (In r (map (rk fg) (rangeN 0 n))) as HI.
  { apply (NoDup_cover _ n); auto.
    - assert (forall l, NoDup l -> (forall x, In x l -> x < n) -> NoDup (map (rk fg) l)) as HX.
      { induction 1 as [|x l H1 H2 IH]; intros HB; simpl; constructor.
        - intros HI. apply in_map_iff in HI. destruct HI as (y & Hy & HI).
          apply (sh_inj _ _ _ _ Hok) in Hy; [subst; auto|apply HB; simpl; auto|apply HB; simpl; auto].
        - apply IH. intros y Hy. apply HB. simpl. auto. }
      apply HX; [apply rangeN_NoDup|]. intros x Hx. apply rangeN_In in Hx. lia.
    - intros x Hx. apply in_map_iff in Hx. destruct Hx as (y & <- & Hy). apply rangeN_In in Hy.
      apply (sh_rank _ _ _ _ Hok). lia.
    - rewrite lenN_map, lenN_rangeN. lia. }
  apply in_map_iff in HI. destruct HI as (v & <- & Hv). apply rangeN_In in Hv. exists v. split; [lia|auto].
Qed.

Lemma node_ordering_ok c E n fg l : fg_shape c E n fg -> fg_get_node_ordering fg = Ok l ->
  permutation_of_nodes n l /\ (forall i v, getN l i = Some v <-> v < n /\ rk fg v = i).
Proof.
  intros Hok HE. destruct (node_ordering_wp c E n fg Hok) as (l' & HE' & Hlen & Hv).
  rewrite HE in HE'. injection HE' as <-.
  assert (forall i v, getN l i = Some v <-> v < n /\ rk fg v = i) as HG.
  { intros i v. split.
    - intros Hi. pose proof (getN_Some_lt _ _ _ Hi) as Hlt. rewrite Hlen in Hlt.
      destruct (rk_surj c E n fg i Hok Hlt) as (x & Hx & <-). rewrite (Hv x Hx) in Hi. injection Hi as ->. auto.
    - intros [Hvn <-]. auto. }
  split; [|exact HG]. split.
  - apply NoDup_nth_error. intros i j Hi Hij.
    assert (getN l (N.of_nat i) = getN l (N.of_nat j)) as HEQ by (rewrite !getN_nth, !Nnat.Nat2N.id; auto).
    destruct (getN_lt l (N.of_nat i)) as [x Hx]; [unfold lenN; lia|].
    pose proof Hx as Hx'. rewrite HEQ in Hx'. apply HG in Hx. apply HG in Hx'. destruct Hx, Hx'. lia.
  - intros x. split.
    + intros HI. apply In_getN in HI. destruct HI as (i & _ & Hi). apply HG in Hi. apply Hi.
    + intros Hx. eapply getN_In. apply Hv; auto.
Qed.

Lemma build_order_ok c ops ig H hinv order params : debug_build c = true -> frozen_graph c ops ig ->
  heap_laws H hinv -> permutation_of_nodes (ig_num_nodes ig) order ->
  wp (lim True) (prepare_with_order_with_params c H ig order params)
    (fun r => exists fg, r = inl fg /\ fg_ok c (ig_edges ig) (ig_num_nodes ig) fg /\
       (forall i v, getN order i = Some v -> rk fg v = i)).
Proof.
  intros Hd Hf HL Hperm.
  assert (ig_ok c ig) as Hok by (apply (frozen_graph_ok c ops); auto; left; auto).
  pose proof (perm_len _ _ Hperm) as Hlen. destruct Hperm as [HN HI].
  eapply (build_with_order_spec c H hinv HL Hd ig Hok (max_weight (ig_edges ig)) True); eauto.
  - intros e He. apply max_weight_ge; auto.
  - intros x Hx. apply HI; auto.
Qed.

Lemma wp_lim {A} (m : res A) Q : wp (lim True) m Q ->
  (exists a, m = Ok a /\ Q a) \/ m = Panic POverflow \/ m = Panic PCapacity.
Proof. destruct m as [a|r|]; simpl; [eauto| |tauto]. destruct r; simpl; tauto. Qed.
Lemma wp_ovf {A} (m : res A) Q : wp (ovf True) m Q -> (exists a, m = Ok a /\ Q a) \/ m = Panic POverflow.
Proof. destruct m as [a|r|]; simpl; [eauto| |tauto]. destruct r; simpl; tauto. Qed.
Lemma wp_lim_false {A} (m : res A) Q : wp (lim False) m Q -> exists a, m = Ok a /\ Q a.
Proof. destruct m as [a|r|]; simpl; [eauto| |tauto]. destruct r; simpl; tauto. Qed.
Lemma wp_ovf_false {A} (m : res A) Q : wp (ovf False) m Q -> exists a, m = Ok a /\ Q a.
Proof. destruct m as [a|r|]; simpl; [eauto| |tauto]. destruct r; simpl; tauto. Qed.

Lemma perm_order_eq c E n fg order l : fg_shape c E n fg -> permutation_of_nodes n order ->
  (forall i v, getN order i = Some v -> rk fg v = i) ->
  fg_get_node_ordering fg = Ok l -> l = order.
Proof.
  intros Hok Hp Hrk HE. destruct (node_ordering_ok c E n fg l Hok HE) as [_ HG].
  assert (lenN l = n) as Hl by (apply perm_len; eapply node_ordering_ok; eauto).
  apply getN_ext. intros i. pose proof (perm_len _ _ Hp) as Hlo.
  destruct (getN order i) as [v|] eqn:Hi.
  - apply HG. split; [|auto]. apply Hp. eapply getN_In; eauto.
  - apply getN_None_ge in Hi. apply getN_None. lia.
Qed.

(** *** C10 *)
Lemma C10_proof : forall c ops ig fg,
  1 <= umax c -> frozen_graph c ops ig -> prepared c ig fg ->
  exists l, get_node_ordering fg = Ok l /\ permutation_of_nodes (ig_num_nodes ig) l.
Proof.
  intros c ops ig fg Hu Hf Hp. pose proof (prepared_shape c ops ig fg Hu Hf Hp) as Hok.
  destruct (node_ordering_wp _ _ _ _ Hok) as (l & HE & _). exists l. split; auto.
  eapply node_ordering_ok; eauto.
Qed.

Lemma C10_given_proof : forall c ops ig order params fg,
  1 <= umax c -> frozen_graph c ops ig ->
  permutation_of_nodes (ig_num_nodes ig) order -> prepared_by_order c ig order params fg ->
  get_node_ordering fg = Ok order.
Proof.
  intros c ops ig order params fg Hu Hf Hperm Hp.
  assert (fg_shape c (ig_edges ig) (ig_num_nodes ig) fg) as Hok by (apply (prepared_shape c ops); auto; right; eauto).
  destruct (node_ordering_wp _ _ _ _ Hok) as (l & HE' & _).
  pose proof (perm_order_eq _ _ _ _ _ _ Hok Hperm (ordered_ranks c ops ig order params fg Hu Hf Hperm Hp) HE') as ->. exact HE'.
Qed.

Lemma C07_accepts_proof : forall c ops ig H hinv order params,
  debug_build c = true -> frozen_graph c ops ig -> heap_laws H hinv ->
  permutation_of_nodes (ig_num_nodes ig) order ->
  (exists fg, prepare_with_order_with_params c H ig order params = Ok (inl fg)) \/
  prepare_with_order_with_params c H ig order params = Panic POverflow \/
  prepare_with_order_with_params c H ig order params = Panic PCapacity.
Proof.
  intros c ops ig H hinv order params Hd Hf HL Hperm.
  destruct (wp_lim _ _ (build_order_ok c ops ig H hinv order params Hd Hf HL Hperm)) as [(r & HE & fg & -> & _)|HP]; eauto.
Qed.

Lemma C10_reuse_proof : forall c ops ig fg l ops' ig' H hinv params,
  debug_build c = true -> frozen_graph c ops ig -> prepared c ig fg -> get_node_ordering fg = Ok l ->
  frozen_graph c ops' ig' -> ig_num_nodes ig' = ig_num_nodes ig -> heap_laws H hinv ->
  (exists fg', prepare_with_order_with_params c H ig' l params = Ok (inl fg') /\ get_node_ordering fg' = Ok l) \/
  prepare_with_order_with_params c H ig' l params = Panic POverflow \/
  prepare_with_order_with_params c H ig' l params = Panic PCapacity.
Proof.
  intros c ops ig fg l ops' ig' H hinv params Hd Hf Hp HE Hf' Hn HL.
  pose proof (checked_umax c ops ig fg Hd Hf Hp) as Hu.
  destruct (C10_proof c ops ig fg Hu Hf Hp) as (l' & HE' & Hperm). rewrite HE in HE'. injection HE' as <-.
  rewrite <- Hn in Hperm.
  destruct (C07_accepts_proof c ops' ig' H hinv l params Hd Hf' HL Hperm) as [(fg' & HB)|HP]; [|auto].
  left. exists fg'. split; auto. apply (C10_given_proof c ops' ig' l params); auto. exists H, hinv. auto.
Qed.

(** *** C13 *)
Lemma build_params_ok c ops ig H hinv Q qinv params : debug_build c = true -> frozen_graph c ops ig ->
  heap_laws H hinv -> pq_laws Q qinv ->
  wp (lim True) (prepare_with_params c H Q ig params) (fg_ok c (ig_edges ig) (ig_num_nodes ig)).
Proof.
  intros Hd Hf HL QL.
  assert (ig_ok c ig) as Hok by (apply (frozen_graph_ok c ops); auto; left; auto).
  eapply (build_with_params_spec c H hinv HL Hd ig Hok (max_weight (ig_edges ig)) True); eauto.
  intros e He. apply max_weight_ge; auto.
Qed.
Lemma C13_proof : forall c ops ig H hinv Q qinv params,
  debug_build c = true -> frozen_graph c ops ig -> heap_laws H hinv -> pq_laws Q qinv ->
  (exists fg, prepare_with_params c H Q ig params = Ok fg) \/
  prepare_with_params c H Q ig params = Panic POverflow \/
  prepare_with_params c H Q ig params = Panic PCapacity.
Proof.
  intros c ops ig H hinv Q qinv params Hd Hf HL QL.
  destruct (wp_lim _ _ (build_params_ok c ops ig H hinv Q qinv params Hd Hf HL QL)) as [(r & HE & _)|HP]; eauto.
Qed.

(** *** C14 *)
Lemma accepted_frozen_weight c ops ig M : frozen_graph c ops ig ->
  (forall e, In e (accepted ops) -> e_weight e <= M) -> forall e, In e (ig_edges ig) -> e_weight e <= M.
Proof.
  intros (_ & Hr & _) HM e He. apply HM. destruct (run_inv c ops ig Hr) as [HI _]. apply (hg_sub _ _ _ HI); auto.
Qed.

Lemma C14_params_proof : forall c ops ig M H hinv Q qinv params,
  debug_build c = true -> frozen_graph c ops ig -> heap_laws H hinv -> pq_laws Q qinv ->
  (forall e, In e (accepted ops) -> e_weight e <= M) ->
  prep_bound c (ig_num_nodes ig) M -> ig_num_nodes ig * ig_num_nodes ig <= 2147483647 ->
  exists fg, prepare_with_params c H Q ig params = Ok fg.
Proof.
  intros c ops ig M H hinv Q qinv params Hd Hf HL QL HM (B1 & B2 & B3) B4.
  assert (ig_ok c ig) as Hok by (apply (frozen_graph_ok c ops); auto; left; auto).
  assert (wp (lim False) (prepare_with_params c H Q ig params) (fg_ok c (ig_edges ig) (ig_num_nodes ig))) as HW.
  { eapply (build_with_params_spec c H hinv HL Hd ig Hok M False); eauto; try lia.
    eapply accepted_frozen_weight; eauto. }
  destruct (wp_lim_false _ _ HW) as (fg & HE & _). eauto.
Qed.

Lemma C14_order_proof : forall c ops ig M H hinv order params,
  debug_build c = true -> frozen_graph c ops ig -> heap_laws H hinv ->
  permutation_of_nodes (ig_num_nodes ig) order ->
  (forall e, In e (accepted ops) -> e_weight e <= M) -> prep_bound c (ig_num_nodes ig) M ->
  exists fg, prepare_with_order_with_params c H ig order params = Ok (inl fg).
Proof.
  intros c ops ig M H hinv order params Hd Hf HL Hperm HM (B1 & B2 & B3).
  assert (ig_ok c ig) as Hok by (apply (frozen_graph_ok c ops); auto; left; auto).
  pose proof (perm_len _ _ Hperm) as Hlen. destruct Hperm as [HN HI].
  assert (wp (lim False) (build_with_order_with_params c H ig order params)
    (fun r => exists fg, r = inl fg /\ fg_ok c (ig_edges ig) (ig_num_nodes ig) fg /\
            (forall i v : N, getN order i = Some v -> rk fg v = i))) as HW.
  { eapply (build_with_order_spec c H hinv HL Hd ig Hok M False); eauto; try lia.
    - eapply accepted_frozen_weight; eauto.
    - intros x Hx. apply HI; auto. }
  destruct (wp_lim_false _ _ HW) as (r & HE & fg & -> & _). eauto.
Qed.

(** weights in the prepared graph *)
Lemma pow_le a b : a <= b -> 2 ^ a <= 2 ^ b.
Proof. intros. apply N.pow_le_mono_r; lia. Qed.

Lemma edge_weight_bound c E n fg M : fg_ok c E n fg -> (forall e, In e E -> e_weight e <= M) ->
  forall k d id ed, getN (fg_edges fg d) id = Some ed -> rk fg (fe_base ed) < N.of_nat k ->
  fe_weight ed <= M * 2 ^ rk fg (fe_base ed).
Proof.
  intros Hok HM. induction k as [|k IH]; intros d id ed HG Hk; [lia|].
  destruct (ok_src _ _ _ _ Hok d id ed HG) as [(_ & _ & HI)|(ei & eo & _ & _ & H1 & H2 & Hb & _ & _ & Hw & Hlt)].
  - apply HM in HI. simpl in HI. assert (1 <= 2 ^ rk fg (fe_base ed)) by (apply (pow_le 0); lia). nia.
  - rewrite Hw. assert (fe_weight ei <= M * 2 ^ rk fg (fe_base ei)) as B1 by (eapply IH; [exact H1|lia]).
    assert (fe_weight eo <= M * 2 ^ rk fg (fe_base ei)) as B2 by (rewrite Hb; eapply IH; [exact H2|rewrite <- Hb; lia]).
    assert (2 ^ (rk fg (fe_base ei) + 1) <= 2 ^ rk fg (fe_base ed)) as B3 by (apply pow_le; lia).
    rewrite N.add_1_r, N.pow_succ_r' in B3. nia.
Qed.

(** queries: arbitrary bound [Bd] on the labels by rank *)
Lemma query_no_overflow c E n fg H hinv pc ss ts (K1 K2 : N) (Bd : N -> N) Bm :
  heap_laws H hinv -> debug_build c = true -> fg_ok c E n fg -> pc_ok n pc -> query_ok pc fg ss ts ->
  (forall v w, In (v, w) ss -> w < umax c -> w <= K1) ->
  (forall v w, In (v, w) ts -> w < umax c -> w <= K2) ->
  (forall d id ed, getN (fg_edges fg d) id = Some ed ->
     Bd (rk fg (fe_base ed)) + fe_weight ed <= Bd (rk fg (fe_adj ed))) ->
  (forall v, v < n -> Bd (rk fg v) <= Bm) ->
  K1 + K2 + 2 * Bm <= umax c ->
  exists pc' r, pc_calc_path_multiple c H pc fg ss ts = Ok (pc', r).
Proof.
  intros HL Hd Hok Hpc (Hn & H1 & H2 & H3 & H4) HK1 HK2 HB HBm HS.
  assert (pc_num_nodes pc = n) as Hnn by (apply Hpc). rewrite Hnn in *.
  assert (wp (ovf False) (pc_calc_path_multiple c H pc fg ss ts)
    (fun '(pc', r) => pc_ok n pc' /\ answer_ok c E ss ts r)) as HW.
  { apply (calc_spec c H hinv HL Hd E n fg Hok ss ts (fun d => match d with Fwd => K1 | Bwd => K2 end) Bd Bm False); auto.
    - intros [] v w HI; eauto.
    - intros [] v w HI Hw; eauto.
    - lia. }
  destruct (wp_ovf_false _ _ HW) as ([pc' r] & HE & _). eauto.
Qed.

Lemma query_bound_pow c E n fg M : fg_ok c E n fg -> (forall e, In e E -> e_weight e <= M) ->
  (forall d id ed, getN (fg_edges fg d) id = Some ed ->
     M * (2 ^ rk fg (fe_base ed) - 1) + fe_weight ed <= M * (2 ^ rk fg (fe_adj ed) - 1)).
Proof.
  intros Hok HM d id ed HG.
  pose proof (edge_weight_bound c E n fg M Hok HM (N.to_nat (rk fg (fe_base ed) + 1)) d id ed HG ltac:(lia)) as HW.
  destruct (ok_edge _ _ _ _ Hok d id ed HG) as (_ & _ & _ & Hr).
  assert (2 ^ (rk fg (fe_base ed) + 1) <= 2 ^ rk fg (fe_adj ed)) as HP by (apply pow_le; lia).
  rewrite N.add_1_r, N.pow_succ_r' in HP.
  assert (1 <= 2 ^ rk fg (fe_base ed)) by (apply (pow_le 0); lia). nia.
Qed.

Lemma C14_query_proof : forall c ops ig fg M K1 K2 H hinv pc ss ts,
  debug_build c = true -> frozen_graph c ops ig -> prepared c ig fg -> heap_laws H hinv ->
  calculator c (ig_num_nodes ig) pc ->
  ss <> [] -> ts <> [] ->
  (forall v w, In (v, w) ss -> v < ig_num_nodes ig /\ (w = WEIGHT_MAX c \/ w <= K1)) ->
  (forall v w, In (v, w) ts -> v < ig_num_nodes ig /\ (w = WEIGHT_MAX c \/ w <= K2)) ->
  (forall e, In e (accepted ops) -> e_weight e <= M) ->
  K1 + K2 + M * 2 ^ ig_num_nodes ig <= umax c ->
  exists pc' r, pc_calc_path_multiple c H pc fg ss ts = Ok (pc', r).
Proof.
  intros c ops ig fg M K1 K2 H hinv pc ss ts Hd Hf Hp HL Hc Hss Hts H1 H2 HM HB.
  pose proof (prepared_ok c ops ig fg Hd Hf Hp) as Hok. pose proof (calculator_ok _ _ _ Hc) as Hpc.
  assert (pc_num_nodes pc = ig_num_nodes ig) as Hn by apply Hpc.
  assert (0 < ig_num_nodes ig) as Hpos.
  { destruct ss as [|[v w] ss]; [congruence|]. destruct (H1 v w); simpl; auto. lia. }
  apply (query_no_overflow c (ig_edges ig) (ig_num_nodes ig) fg H hinv pc ss ts K1 K2
           (fun r => M * (2 ^ r - 1)) (M * (2 ^ (ig_num_nodes ig - 1) - 1))); auto.
  - split; [rewrite Hn; apply (ok_n _ _ _ _ Hok)|]. split; auto. split; auto. rewrite Hn.
    split; intros v w HI; [apply (H1 v w HI)|apply (H2 v w HI)].
  - intros v w HI Hw. destruct (H1 v w HI) as [_ [->|]]; auto. unfold WEIGHT_MAX in *. lia.
  - intros v w HI Hw. destruct (H2 v w HI) as [_ [->|]]; auto. unfold WEIGHT_MAX in *. lia.
  - apply (query_bound_pow c (ig_edges ig) (ig_num_nodes ig)); auto. eapply accepted_frozen_weight; eauto.
  - intros v Hv. pose proof (ok_rank _ _ _ _ Hok v Hv).
    assert (2 ^ rk fg v <= 2 ^ (ig_num_nodes ig - 1)) by (apply pow_le; lia). nia.
  - assert (2 ^ ig_num_nodes ig = 2 * 2 ^ (ig_num_nodes ig - 1)) as HE.
    { replace (ig_num_nodes ig) with (N.succ (ig_num_nodes ig - 1)) at 1 by lia. apply N.pow_succ_r'. }
    rewrite HE in HB. assert (1 <= 2 ^ (ig_num_nodes ig - 1)) by (apply (pow_le 0); lia). nia.
Qed.

(** the same in terms of the weights stored in the prepared graph *)
Lemma C14_query_linear_proof : forall c ops ig fg X K1 K2 H hinv pc ss ts,
  debug_build c = true -> frozen_graph c ops ig -> prepared c ig fg -> heap_laws H hinv ->
  calculator c (ig_num_nodes ig) pc ->
  ss <> [] -> ts <> [] ->
  (forall v w, In (v, w) ss -> v < ig_num_nodes ig /\ (w = WEIGHT_MAX c \/ w <= K1)) ->
  (forall v w, In (v, w) ts -> v < ig_num_nodes ig /\ (w = WEIGHT_MAX c \/ w <= K2)) ->
  (forall e, In e (fg_edges_fwd fg) \/ In e (fg_edges_bwd fg) -> fe_weight e <= X) ->
  K1 + K2 + 2 * (ig_num_nodes ig - 1) * X <= umax c ->
  exists pc' r, pc_calc_path_multiple c H pc fg ss ts = Ok (pc', r).
Proof.
  intros c ops ig fg X K1 K2 H hinv pc ss ts Hd Hf Hp HL Hc Hss Hts H1 H2 HX HB.
  pose proof (prepared_ok c ops ig fg Hd Hf Hp) as Hok. pose proof (calculator_ok _ _ _ Hc) as Hpc.
  assert (pc_num_nodes pc = ig_num_nodes ig) as Hn by apply Hpc.
  apply (query_no_overflow c (ig_edges ig) (ig_num_nodes ig) fg H hinv pc ss ts K1 K2
           (fun r => r * X) ((ig_num_nodes ig - 1) * X)); auto.
  - split; [rewrite Hn; apply (ok_n _ _ _ _ Hok)|]. split; auto. split; auto. rewrite Hn.
    split; intros v w HI; [apply (H1 v w HI)|apply (H2 v w HI)].
  - intros v w HI Hw. destruct (H1 v w HI) as [_ [->|]]; auto. unfold WEIGHT_MAX in *. lia.
  - intros v w HI Hw. destruct (H2 v w HI) as [_ [->|]]; auto. unfold WEIGHT_MAX in *. lia.
  - intros d id ed HG. assert (fe_weight ed <= X).
    { apply HX. apply getN_In in HG. destruct d; auto. }
    destruct (ok_edge _ _ _ _ Hok d id ed HG) as (_ & _ & _ & Hr). nia.
  - intros v Hv. pose proof (ok_rank _ _ _ _ Hok v Hv). nia.
  - lia.
Qed.

(** *** C12 *)
Lemma C12_reject_proof : forall c n pc fg H ss ts, calculator c n pc ->
  (fg_get_num_nodes fg <> n ->
     pc_calc_path_multiple c H pc fg ss ts = Panic (PAssert "given graph has invalid node count")) /\
  (fg_get_num_nodes fg = n ->
   (ss = [] ->
      pc_calc_path_multiple c H pc fg ss ts = Panic (PAssert "there has to be at least one start")) /\
   (ss <> [] -> ts = [] ->
      pc_calc_path_multiple c H pc fg ss ts = Panic (PAssert "there has to be at least one end")) /\
   (ss <> [] -> ts <> [] -> (exists v w, In (v, w) ss /\ n <= v) ->
      pc_calc_path_multiple c H pc fg ss ts = Panic (PAssert "invalid start node")) /\
   (ss <> [] -> ts <> [] -> (forall v w, In (v, w) ss -> v < n) -> (exists v w, In (v, w) ts /\ n <= v) ->
      pc_calc_path_multiple c H pc fg ss ts = Panic (PAssert "invalid end node"))).
Proof.
  intros c n pc fg H ss ts Hc. pose proof (calculator_ok _ _ _ Hc) as (Hn & _ & _).
  unfold fg_get_num_nodes, pc_calc_path_multiple, assert. rewrite Hn.
  split.
  - intros Hne. destruct (N.eqb_spec (fg_num_nodes fg) n); [congruence|reflexivity].
  - intros He. destruct (N.eqb_spec (fg_num_nodes fg) n); [|congruence]. cbn [bind].
    split; [intros ->; reflexivity|].
    destruct ss as [|s0 ss]; [repeat split; congruence|].
    split; [intros _ ->; reflexivity|].
    destruct ts as [|t0 ts]; [repeat split; congruence|]. cbn [is_nil negb bind].
    assert (forall l : list (N * N), (exists v w, In (v, w) l /\ n <= v) ->
       forallb (fun '(m, _) => m <? n) l = false) as HF.
    { intros l (v & w & HI & Hv). destruct (forallb _ l) eqn:E; auto.
      rewrite forallb_ids in E. specialize (E v w HI). lia. }
    split.
    + intros _ _ HX. rewrite HF by auto. reflexivity.
    + intros _ _ HA HX. rewrite (proj2 (forallb_ids n (s0 :: ss)) HA). cbn [bind]. rewrite HF by auto. reflexivity.
Qed.

Lemma C12_accept_proof : forall c ops ig fg H hinv pc ss ts,
  1 <= umax c -> frozen_graph c ops ig -> prepared c ig fg -> heap_laws H hinv ->
  calculator c (ig_num_nodes ig) pc ->
  ss <> [] -> ts <> [] ->
  (forall v w, In (v, w) ss -> v < ig_num_nodes ig) ->
  (forall v w, In (v, w) ts -> v < ig_num_nodes ig) ->
  (exists pc' r, pc_calc_path_multiple c H pc fg ss ts = Ok (pc', r)) \/
  debug_build c = true /\ pc_calc_path_multiple c H pc fg ss ts = Panic POverflow.
Proof.
  intros c ops ig fg H hinv pc ss ts Hu Hf Hp HL Hc Hss Hts H1 H2.
  destruct (debug_build c) eqn:Hd.
  2:{ left. destruct (C69_query_proof c ops ig fg H hinv pc ss ts Hd Hu Hf Hp HL Hc Hss Hts) as (pc' & r & HE & _); eauto.
      intros v w HI. apply in_app_iff in HI as [HI|HI]; eauto. }
  pose proof (prepared_ok c ops ig fg Hd Hf Hp) as Hok. pose proof (calculator_ok _ _ _ Hc) as Hpc.
  assert (pc_num_nodes pc = ig_num_nodes ig) as Hn by apply Hpc.
  assert (query_ok pc fg ss ts) as Hq.
  { split; [rewrite Hn; apply (ok_n _ _ _ _ Hok)|]. rewrite Hn. auto. }
  destruct (wp_ovf _ _ (calc_general c _ _ fg H hinv pc ss ts HL Hd Hok Hpc Hq)) as [([pc' r] & HE & _)|HE]; eauto.
Qed.

(** *** C09 *)
Lemma frozen_num c ops ig : frozen_graph c ops ig -> ig_get_num_nodes ig = Ok (ig_num_nodes ig).
Proof. intros (_ & _ & HF). unfold ig_get_num_nodes, ig_check_frozen. rewrite HF. reflexivity. Qed.

Lemma C09_err_proof : forall c ops ig H order params,
  frozen_graph c ops ig ->
  ((exists msg, prepare_with_order_with_params c H ig order params = Ok (inr msg)) <->
   lenN order <> ig_num_nodes ig).
Proof.
  intros c ops ig H order params Hf. unfold prepare_with_order_with_params, build_with_order_with_params.
  rewrite (frozen_num _ _ _ Hf). cbn [bind].
  destruct (N.eqb_spec (ig_num_nodes ig) (lenN order)) as [HE|HE]; cbn [negb].
  - split; [|congruence]. intros (msg & HX). apply bind_Ok in HX. destruct HX as (fg0 & _ & HX).
    apply bind_Ok in HX. destruct HX as (fg & _ & HX). discriminate.
  - split; [congruence|]. eauto.
Qed.

Lemma foldM_order_valid {S} n (f : S -> N -> res S) :
  (forall s x, n <= x -> exists r, f s x = Panic r) ->
  forall order s s', foldM f order s = Ok s' -> forall x, In x order -> x < n.
Proof.
  intros Hf. induction order as [|y order IH]; intros s s' HE x; simpl; [easy|].
  simpl in HE. apply bind_Ok in HE. destruct HE as (s1 & HE1 & HE).
  intros [<-|HI]; [|eapply IH; eauto].
  destruct (N.lt_ge_cases y n) as [|Hge]; auto. destruct (Hf s y Hge) as [r Hr]. congruence.
Qed.

Lemma C09_invalid_proof : forall c ops ig H order params fg,
  frozen_graph c ops ig ->
  prepare_with_order_with_params c H ig order params = Ok (inl fg) ->
  lenN order = ig_num_nodes ig /\ forall x, In x order -> x < ig_num_nodes ig.
Proof.
  intros c ops ig H order params fg Hf. unfold prepare_with_order_with_params, build_with_order_with_params.
  rewrite (frozen_num _ _ _ Hf). cbn [bind].
  destruct (N.eqb_spec (ig_num_nodes ig) (lenN order)) as [HE|HE]; cbn [negb]; [|discriminate].
  intros HX. split; auto. apply bind_Ok in HX. destruct HX as (fg0 & _ & HX).
  apply bind_Ok in HX. destruct HX as (fg1 & HX & _). unfold run_contraction_with_order in HX.
  apply bind_Ok in HX. destruct HX as (g0 & _ & HX). apply bind_Ok in HX. destruct HX as ([[[a b] d] e] & HX & _).
  eapply (foldM_order_valid (ig_num_nodes ig)); [|exact HX]. intros [[[fg2 g2] ws2] rank] x Hx.
  rewrite (proj2 (N.leb_le _ _) Hx). eauto.
Qed.

(** *** C34, C35 *)
Lemma path_stored fg d u v W : path (up fg d) u v W -> exists ns, walk (stored (fg_edges fg d)) u v ns W.
Proof.
  induction 1 as [u|u v t w W (id & ed & HG & <- & <- & <-) HP (ns & IH)]; [exists [u]; constructor|].
  exists (fe_base ed :: ns). econstructor; eauto. apply getN_In in HG.
  apply in_map_iff. exists ed. auto.
Qed.

Lemma stored_path fg d u v ns W : walk (stored (fg_edges fg d)) u v ns W -> path (up fg d) u v W.
Proof.
  induction 1 as [u|u v t w ns W HI HP IH]; [constructor|].
  apply in_map_iff in HI. destruct HI as (ed & HE & HI). injection HE as <- <- <-.
  apply In_getN in HI. destruct HI as (id & _ & HI). econstructor; eauto. exists id, ed. auto.
Qed.

Lemma C34_proof : forall c ops ig fg l,
  debug_build c = true -> frozen_graph c ops ig -> prepared c ig fg -> get_node_ordering fg = Ok l ->
  fg_get_num_nodes fg = ig_num_nodes ig /\
  (forall e, In e (fg_edges_fwd fg) ->
     (exists ns, walk (ig_edges ig) (fe_base e) (fe_adj e) ns (fe_weight e)) /\
     exists i j, i < j /\ getN l i = Some (fe_base e) /\ getN l j = Some (fe_adj e)) /\
  (forall e, In e (fg_edges_bwd fg) ->
     (exists ns, walk (ig_edges ig) (fe_adj e) (fe_base e) ns (fe_weight e)) /\
     exists i j, i < j /\ getN l i = Some (fe_base e) /\ getN l j = Some (fe_adj e)).
Proof.
  intros c ops ig fg l Hd Hf Hp Hl. pose proof (prepared_ok c ops ig fg Hd Hf Hp) as Hok.
  destruct (node_ordering_ok _ _ _ _ _ (ok_shape _ _ _ _ Hok) Hl) as [_ HG].
  assert (forall d e, In e (fg_edges fg d) ->
     exists i j, i < j /\ getN l i = Some (fe_base e) /\ getN l j = Some (fe_adj e)) as HR.
  { intros d e HI. apply In_getN in HI. destruct HI as (id & _ & HI).
    destruct (ok_edge _ _ _ _ Hok d id e HI) as (H1 & H2 & _ & H3).
    exists (rk fg (fe_base e)), (rk fg (fe_adj e)). rewrite !HG. auto. }
  assert (forall d e, In e (fg_edges fg d) -> path (up fg d) (fe_base e) (fe_adj e) (fe_weight e)) as HP.
  { intros d e HI. apply In_getN in HI. destruct HI as (id & _ & HI). apply path_one. exists id, e. auto. }
  split; [apply (ok_n _ _ _ _ Hok)|]. split; intros e HI; split.
  - apply path_walk. eapply up_fwd_path; [exact (ok_base _ _ _ _ Hok)|]. apply (HP Fwd); auto.
  - apply (HR Fwd); auto.
  - apply path_walk. eapply up_bwd_path; [exact (ok_base _ _ _ _ Hok)|]. apply (HP Bwd); auto.
  - apply (HR Bwd); auto.
Qed.

Lemma C35_proof : forall c ops ig fg s t W,
  debug_build c = true -> frozen_graph c ops ig -> prepared c ig fg ->
  is_dist (accepted ops) s t W -> W < WEIGHT_MAX c ->
  exists m ns1 ns2 W1 W2,
    walk (stored (fg_edges_fwd fg)) s m ns1 W1 /\ walk (stored (fg_edges_bwd fg)) t m ns2 W2 /\
    W1 + W2 = W.
Proof.
  intros c ops ig fg s t W Hd Hf Hp ((ns & HW) & Hmin) HL.
  pose proof (prepared_ok c ops ig fg Hd Hf Hp) as Hok.
  destruct (accepted_walk c ops ig s t ns W Hf HW) as (W' & HW' & HL').
  destruct (ok_complete _ _ _ _ Hok s t W' (walk_path _ _ _ _ _ HW') ltac:(unfold WEIGHT_MAX in *; lia))
    as (m & W1 & W2 & P1 & P2 & HS).
  destruct (path_stored _ _ _ _ _ P1) as [ns1 Q1]. destruct (path_stored _ _ _ _ _ P2) as [ns2 Q2].
  exists m, ns1, ns2, W1, W2. split; [exact Q1|]. split; [exact Q2|].
  assert (path (edge_rel (ig_edges ig)) s t (W1 + W2)) as HP.
  { eapply path_app; [eapply up_fwd_path; [exact (ok_base _ _ _ _ Hok)|eauto]|eapply up_bwd_path; [exact (ok_base _ _ _ _ Hok)|eauto]]. }
  apply path_walk in HP. destruct HP as [ns' HP]. apply (frozen_walk c ops ig) in HP; auto. apply Hmin in HP. lia.
Qed.
