(** * RelContract: witness searches and contractions in both build modes, without regard to weights *)
From Verif Require Export TermFacts.
From Coq Require Import ZArith.
Open Scope N_scope.

Notation pg_str := (@pg_wfl 0).

Lemma wf_str n g : pg_wf n g -> pg_str n g.
Proof. intros [A B C D F G K]. constructor; auto. intros u v w k Ha. destruct (K _ _ _ _ Ha) as (K1 & K2 & _). repeat split; auto. lia. Qed.

Section Rel.
  Variables (c : cfg) (H : heap_ops) (hinv : list HeapItem -> Prop).
  Hypothesis HL : heap_laws H hinv.
  Variable n : N.
  Variable P : panic_reason -> Prop.
  Hypothesis HP : debug_build c = false \/ P POverflow.
  Hypothesis Hn : n <= umax c.

  Lemma r_uadd a b (Q : N -> Prop) : (forall s, s <= umax c -> s = (a + b) mod (umax c + 1) -> Q s) -> wp P (uadd c a b) Q.
  Proof.
    intros HQ. unfold uadd. destruct (N.leb_spec (a + b) (umax c)); [apply HQ; auto; symmetry; apply N.mod_small; lia|].
    destruct (debug_build c); [destruct HP as [|HO]; [discriminate|exact HO]|].
    apply HQ; auto. pose proof (N.mod_lt (a + b) (umax c + 1)). lia.
  Qed.

  (** ** Witness search *)
  Definition wlab (ws : WitnessSearch) (v : N) : N := match wl ws v with Some d => wd_weight d | None => umax c end.
  Definition wphi (ws : WitnessSearch) : N := sumN (map (wlab ws) (rangeN 0 n)).
  Definition wmu (ws : WitnessSearch) : N := wphi ws + lenN (ws_heap ws).

  Record ws_str (ws : WitnessSearch) : Prop := mk_ws_str {
    wr_base : ws_base n ws;
    wr_heap : hinv (ws_heap ws);
    wr_item : forall it, In it (ws_heap ws) -> hi_node it < n;
    wr_lab : forall v, wlab ws v <= umax c
  }.
  Definition same_ends (ws ws' : WitnessSearch) : Prop := ws_start ws' = ws_start ws /\ ws_avoid ws' = ws_avoid ws.

  Lemma wphi_le ws : ws_str ws -> wphi ws <= n * umax c.
  Proof.
    intros I. unfold wphi. replace n with (lenN (rangeN 0 n)) at 2 by (rewrite lenN_rangeN; lia).
    generalize (rangeN 0 n). intros l. induction l as [|x l IH]; simpl; [lia|].
    pose proof (wr_lab _ I x). rewrite lenN_cons. lia.
  Qed.

  Lemma relax_str curr target limit ws found a : ws_str ws -> a_adj a < n ->
    wp P (ws_relax c H curr target limit (ws, found) a) (fun '(ws', _) => ws_str ws' /\ wmu ws' <= wmu ws /\ same_ends ws ws').
  Proof.
    intros I Ha. unfold ws_relax. destruct (a_adj a =? ws_avoid ws); [apply wp_Ok; split; [exact I|split; [apply N.le_refl|split; reflexivity]]|].
    apply wp_bind, r_uadd. intros w Hw _.
    rewrite (get_current_weight_ok c n ws _ (wr_base _ I) Ha). cbn [bind]. fold (wlab ws (a_adj a)).
    destruct (N.ltb_spec w (wlab ws (a_adj a))) as [Hlt|]; [|apply wp_Ok; split; [exact I|split; [apply N.le_refl|split; reflexivity]]].
    destruct (update_node_ok n ws (a_adj a) w (wr_base _ I) Ha) as (ws1 & -> & B1 & (Hh1 & Hs1 & Ha1) & Hl1). cbn [bind].
    apply wp_Ok. rewrite Hh1. destruct HL as (_ & Hpush & _).
    destruct (Hpush (ws_heap ws) (mkHeapItem w (a_adj a)) (wr_heap _ I)) as (P1 & P2).
    set (ws' := ws_set_heap ws1 _).
    assert (forall u, wlab ws' u = if u =? a_adj a then w else wlab ws u) as Hl.
    { intros u. unfold wlab. change (wl ws' u) with (wl ws1 u). rewrite Hl1. destruct (u =? a_adj a); auto. }
    split; [|split; [|split; auto]].
    - constructor.
      + apply ws_base_set_heap. auto.
      + exact P1.
      + intros it Hit. eapply Permutation_in in Hit; [|exact P2]. destruct Hit as [<-|Hit]; auto. apply (wr_item _ I); auto.
      + intros v. rewrite Hl. destruct (v =? a_adj a); auto. apply (wr_lab _ I).
    - unfold wmu. unfold ws' at 2. cbn [ws_heap ws_set_heap].
      replace (lenN (hp_push H (ws_heap ws) (mkHeapItem w (a_adj a)))) with (lenN (ws_heap ws) + 1).
      2:{ unfold lenN. rewrite (Permutation_length P2). simpl. lia. }
      assert (wphi ws' + 1 <= wphi ws); [|lia]. unfold wphi.
      apply sumN_less with (v := a_adj a); [apply rangeN_NoDup|apply rangeN_In; lia|rewrite Hl, N.eqb_refl; auto|].
      intros x Hx. rewrite Hl. destruct (N.eqb_spec x (a_adj a)); [congruence|auto].
  Qed.

  Lemma settle_str ws v : ws_str ws -> v < n -> exists ws', ws_settle ws v = Ok ws' /\ ws_str ws' /\ wmu ws' = wmu ws /\ same_ends ws ws'.
  Proof.
    intros I Hv. destruct (settle_ok n ws v (wr_base _ I) Hv) as (ws' & -> & B & (Hh & Hs & Ha) & Hl). exists ws'. split; auto.
    assert (forall u, wlab ws' u = wlab ws u) as Hw.
    { intros u. unfold wlab. rewrite Hl. destruct (N.eqb_spec u v) as [->|]; auto. destruct (wl ws v); auto. }
    split; [|split; [|split; auto]].
    - constructor; auto.
      + rewrite Hh. apply (wr_heap _ I).
      + rewrite Hh. apply (wr_item _ I).
      + intros u. rewrite Hw. apply (wr_lab _ I).
    - unfold wmu, wphi. rewrite Hh. f_equal. apply sumN_ext. auto.
  Qed.

  Lemma r_pop h : hinv h -> h <> [] ->
    exists x h', hp_pop H h = Some (x, h') /\ hp_peek H h = Some x /\ hinv h' /\ Permutation h (x :: h').
  Proof.
    intros Hi Hne. destruct HL as (_ & _ & Hnone & Hsome & Hpeek).
    specialize (Hnone h Hi). specialize (Hpeek h Hi).
    destruct (hp_pop H h) as [[x h']|] eqn:E; [|exfalso; apply Hne, Hnone; auto].
    destruct (Hsome h x h' Hi E) as (H1 & H2 & _). exists x, h'. rewrite Hpeek; simpl. auto.
  Qed.

  Lemma ws_loop_str g target limit maxs : pg_str n g -> forall f ws, ws_str ws -> wmu ws < N.of_nat (fsize f) ->
    wp P (ws_loop f c H ws g target limit maxs) (fun ws' => ws_str ws' /\ same_ends ws ws').
  Proof.
    intros W. induction f as [|f IH]; intros ws I Hf; [simpl in Hf; lia|]. cbn [fsize] in Hf. cbn [ws_loop].
    destruct (ws_heap ws) as [|it0 h0] eqn:Eh; [apply wp_Ok; split; [exact I|split; auto; split; reflexivity]|].
    destruct (maxs <=? ws_settled ws); [apply wp_Ok; split; [exact I|split; auto; split; reflexivity]|].
    destruct (r_pop (ws_heap ws) (wr_heap _ I)) as (curr & h' & Hpop & Hpeek & Hi & Hperm).
    { rewrite Eh. discriminate. }
    rewrite <- Eh, Hpeek, Hpop. destruct (limit <? hi_weight curr); [apply wp_Ok; split; [exact I|split; auto; split; reflexivity]|].
    set (ws1 := ws_set_heap ws h').
    assert (hi_node curr < n) as Hc.
    { apply (wr_item _ I). eapply Permutation_in; [symmetry; exact Hperm|]. simpl; auto. }
    assert (ws_str ws1) as I1.
    { constructor; auto.
      - apply ws_base_set_heap. apply (wr_base _ I).
      - intros it Hit. apply (wr_item _ I). eapply Permutation_in; [symmetry; exact Hperm|]. right. exact Hit.
      - apply (wr_lab _ I). }
    assert (wmu ws1 + 1 = wmu ws) as Hmu.
    { unfold wmu. change (wphi ws1) with (wphi ws). unfold ws1. cbn [ws_heap ws_set_heap].
      unfold lenN. rewrite (Permutation_length Hperm). simpl. lia. }
    rewrite (is_settled_ok n ws1 _ (wr_base _ I1) Hc). cbn [bind].
    destruct (wset ws1 (hi_node curr)).
    { eapply wp_mono; [apply IH; auto; lia|]. intros ws' (I' & E1 & E2). split; auto. split; auto. }
    rewrite (outs_idx _ _ _ W Hc). cbn [bind].
    eapply wp_bind_mono.
    { apply (wp_foldM_inv _ _ (fun '(ws', _) => ws_str ws' /\ wmu ws' <= wmu ws1 /\ same_ends ws1 ws')).
      - split; [exact I1|split; [apply N.le_refl|split; reflexivity]].
      - intros a [ws2 fnd] Ha (I2 & M2 & E1 & E2). eapply wp_mono.
        + apply relax_str; auto. destruct a as [v w k]. apply (wf_arc _ _ W) in Ha. tauto.
        + intros [ws3 fnd'] (I3 & M3 & F1 & F2). split; auto. split; [lia|]. split; congruence. }
    intros [ws2 fnd] (I2 & M2 & E1 & E2).
    destruct (settle_str ws2 (hi_node curr) I2 Hc) as (ws3 & -> & I3 & M3 & F1 & F2). cbn [bind].
    destruct (fnd || (hi_node curr =? target)).
    - apply wp_Ok. split; auto. split; [rewrite F1, E1|rewrite F2, E2]; reflexivity.
    - eapply wp_mono; [apply IH; auto; lia|]. intros ws' (I' & G1 & G2). split; auto.
      split; [rewrite G1, F1, E1|rewrite G2, F2, E2]; reflexivity.
  Qed.

  Lemma init_str s x ws : ws_base n ws -> s < n -> s <> x ->
    exists ws', ws_init c H ws s x = Ok ws' /\ ws_str ws' /\ ws_start ws' = s /\ ws_avoid ws' = x.
  Proof.
    intros [Hn' Hd Hf] Hs Hsx. destruct HL as (Hnil & Hpush & _).
    unfold ws_init, INVALID_NODE.
    destruct (N.eqb_spec s (umax c)) as [|_]; [lia|]. simpl.
    destruct (N.eqb_spec s x) as [|_]; [lia|]. simpl.
    destruct (vf_invalidate_ok n _ Hf) as (Hf' & Hvb).
    set (ws1 := mkWS _ _ _ _ _ _ _).
    assert (ws_base n ws1) as B1 by (constructor; auto).
    destruct (update_node_ok n ws1 s 0 B1 Hs) as (ws2 & -> & B2 & (Hh2 & Hs2 & Ha2) & Hl2).
    simpl. eexists; split; [reflexivity|]. rewrite Hh2. simpl.
    destruct (Hpush [] (mkHeapItem 0 s) Hnil) as (Hi & Hp).
    split; [|auto]. constructor; auto.
    - destruct B2; constructor; auto.
    - intros it Hit. cbn [ws_heap] in Hit. eapply Permutation_in in Hit; [|exact Hp]. destruct Hit as [<-|[]]. auto.
    - intros v. unfold wlab. change (wl _ v) with (wl ws2 v) at 1. rewrite Hl2. destruct (v =? s); simpl; [lia|].
      unfold wl, view, ws1; simpl. rewrite Hvb; auto. lia.
  Qed.

  Lemma find_str g ws target limit maxs : pg_str n g -> ws_str ws -> ws_start ws < n -> ws_start ws <> ws_avoid ws ->
    target < n -> target <> ws_avoid ws ->
    wp P (ws_find_max_weight c H ws g target limit maxs) (fun '(ws', mw) => ws_str ws' /\ same_ends ws ws' /\
      (target = ws_start ws -> mw = 0)).
  Proof.
    intros W I Hs Hsa Ht Hta. unfold ws_find_max_weight.
    rewrite (wf_n _ _ W), (wb_n _ _ (wr_base _ I)), N.eqb_refl. cbn [assert bind]. unfold INVALID_NODE.
    destruct (N.eqb_spec (ws_start ws) (umax c)); [lia|].
    destruct (N.eqb_spec (ws_start ws) (ws_avoid ws)); [congruence|].
    destruct (N.eqb_spec target (ws_avoid ws)); [congruence|]. cbn [negb andb assert bind].
    destruct (N.eqb_spec target (ws_start ws)) as [E|E]; [apply wp_Ok; split; [exact I|split; auto; split; reflexivity]|].
    pose proof (wr_base _ I) as B. rewrite (vf_is_valid_ok n _ _ (wb_f _ _ B) Ht). cbn [bind].
    apply wp_bind, wp_idx; [rewrite (wb_d _ _ B); auto|]. intros d _.
    destruct (_ && _); [apply wp_Ok; split; [exact I|split; [split; reflexivity|congruence]]|].
    eapply wp_bind_mono.
    { apply ws_loop_str; auto. unfold ws_fuel. rewrite fsize_of, N2Nat.id, (wb_n _ _ B). pose proof (wphi_le _ I). unfold wmu. lia. }
    intros ws' (I' & E'). rewrite (get_current_weight_ok c n ws' _ (wr_base _ I') Ht). cbn [bind]. apply wp_Ok.
    split; auto. split; auto. congruence.
  Qed.

  (** ** Shortcuts *)
  Lemma handle_str {S : Type} (handler : S -> PrepGraph -> Shortcut -> res (S * PrepGraph))
    (x maxs : N) (g0 : PrepGraph) (ws0 : WitnessSearch) (s0 : S) (J : S -> PrepGraph -> Prop) :
    x < n -> ws_base n ws0 ->
    (forall s g, J s g -> pg_str n g /\ outs g x = outs g0 x /\ ins g x = ins g0 x) ->
    J s0 g0 ->
    (forall s g ie oe w, In ie (ins g0 x) -> In oe (outs g0 x) -> J s g -> a_adj ie <> a_adj oe ->
        w = (a_weight ie + a_weight oe) mod (umax c + 1) ->
        wp P (handler s g (mkShortcut (a_adj ie) (a_adj oe) x w)) (fun '(s', g') => J s' g')) ->
    wp P (handle_shortcuts c H handler s0 g0 ws0 x maxs) (fun '(s', g', ws') => J s' g' /\ ws_base n ws').
  Proof.
    intros Hx Hb0 HJ J0 Jshort. unfold handle_shortcuts.
    destruct (HJ _ _ J0) as (W0 & _ & _).
    rewrite (ins_idx _ _ _ W0 Hx). cbn [bind].
    apply (wp_foldM_range _ _ (fun i '(s, g, ws) => J s g /\ ws_base n ws)); [lia|auto|].
    intros i [[s g] ws] Hi (Ji & Hb). destruct (HJ _ _ Ji) as (W & Ho & Hin).
    rewrite (ins_idx _ _ _ W Hx). cbn [bind]. rewrite Hin.
    destruct (getN_lt (ins g0 x) i) as [ie Hie]; [lia|]. rewrite (idx_Some _ _ _ Hie). cbn [bind].
    assert (In ie (ins g0 x)) as Hie' by (eapply getN_In; eauto).
    assert (a_adj ie < n /\ a_adj ie <> x) as (Hien & Hiex).
    { destruct ie as [u w k]; simpl. apply (wf_sym _ _ W0) in Hie'.
      split; [exact (outs_src _ _ _ _ _ _ W0 Hie')|]. apply (wf_arc _ _ W0) in Hie' as (_ & Hne & _). auto. }
    destruct (init_str (a_adj ie) x ws Hb Hien Hiex) as (ws1 & -> & I1 & Es & Ea).
    cbn [bind]. rewrite (outs_idx _ _ _ W Hx). cbn [bind]. rewrite Ho.
    eapply wp_mono.
    - apply (wp_foldM_range _ _ (fun j '(s, g, ws) => J s g /\ ws_str ws /\ ws_start ws = a_adj ie /\ ws_avoid ws = x)); [lia|auto|].
      intros j [[s2 g2] ws2] Hj (Jij & I2 & Es2 & Ea2). destruct (HJ _ _ Jij) as (W2 & Ho2 & Hin2).
      rewrite (ins_idx _ _ _ W2 Hx). cbn [bind]. rewrite Hin2, (idx_Some _ _ _ Hie). cbn [bind].
      rewrite (outs_idx _ _ _ W2 Hx). cbn [bind]. rewrite Ho2.
      destruct (getN_lt (outs g0 x) j) as [oe Hoe]; [lia|]. rewrite (idx_Some _ _ _ Hoe). cbn [bind].
      assert (In oe (outs g0 x)) as Hoe' by (eapply getN_In; eauto).
      assert (a_adj oe < n /\ a_adj oe <> x) as (Hoen & Hoex).
      { destruct oe as [u w k]; simpl. apply (wf_arc _ _ W0) in Hoe' as (Hlt & Hne & _). auto. }
      apply wp_bind, r_uadd. intros w Hw Hsum. eapply wp_bind_mono.
      { apply find_str; auto; rewrite ?Es2, ?Ea2; auto. }
      intros [ws3 mw] (I3 & (F1 & F2) & Hst). rewrite Es2 in F1. rewrite Ea2 in F2.
      destruct (N.leb_spec mw w) as [Hle|Hgt]; [simpl; auto|].
      eapply wp_bind_mono.
      { apply (Jshort s2 g2 ie oe w); auto. intros E. rewrite Es2 in Hst. specialize (Hst (eq_sym E)). lia. }
      intros [s3 g3] J3. simpl. auto.
    - intros [[s2 g2] ws2] (J2 & I2 & _). split; auto. apply (wr_base _ I2).
  Qed.

  Record cstr (g : PrepGraph) (x : N) (g' : PrepGraph) : Prop := mk_cstr {
    ct_wf : pg_str n g';
    ct_out : outs g' x = [];
    ct_in : ins g' x = [];
    ct_origin : forall u v w k, In (mkArc v w k) (outs g' u) -> u <> x /\ v <> x /\
      (In (mkArc v w k) (outs g u) \/
       (k = x /\ exists w1 k1 w2 k2, In (mkArc x w1 k1) (outs g u) /\ In (mkArc v w2 k2) (outs g x) /\
          w = (w1 + w2) mod (umax c + 1)))
  }.

  Lemma contract_str g0 ws x maxs : x < n -> pg_str n g0 -> ws_base n ws ->
    wp P (contract_node c H g0 ws x maxs) (fun '(g', ws') => cstr g0 x g' /\ ws_base n ws').
  Proof.
    intros Hx W0 Hb. unfold contract_node.
    set (J := fun (_ : unit) (g : PrepGraph) =>
      pg_str n g /\ outs g x = outs g0 x /\ ins g x = ins g0 x /\
      forall u v w k, In (mkArc v w k) (outs g u) -> In (mkArc v w k) (outs g0 u) \/
        (k = x /\ exists w1 k1 w2 k2, In (mkArc x w1 k1) (outs g0 u) /\ In (mkArc v w2 k2) (outs g0 x) /\
          w = (w1 + w2) mod (umax c + 1))).
    eapply wp_bind_mono.
    - apply (handle_str add_shortcut x maxs g0 ws tt J); auto.
      + intros s g (H1 & H2 & H3 & _). auto.
      + unfold J. repeat (split; auto).
      + intros s g [p w1 k1] [q w2 k2] w Hii Hjj (H1 & H3 & H4 & H6) Hne Hsum.
        simpl in *. unfold add_shortcut; simpl.
        assert (In (mkArc x w1 k1) (outs g0 p)) as Hpo by (apply (wf_sym _ _ W0); auto).
        pose proof (wf_arc _ _ W0 _ _ _ _ Hpo) as (_ & Hpx & _).
        pose proof (outs_src _ _ _ _ _ _ W0 Hpo) as Hpn.
        pose proof (wf_arc _ _ W0 _ _ _ _ Hjj) as (Hqn & Hqx & _).
        destruct (add_or_reduce_spec n g p q w x H1) as (g' & -> & W' & Ho' & Hi' & Horig' & _); auto; try lia.
        simpl. unfold J. split; auto. split; [rewrite Ho' by auto; auto|]. split; [rewrite Hi' by auto; auto|].
        intros u v w' k Hin. apply Horig' in Hin as [Hin|(-> & -> & -> & ->)]; auto.
        right. split; auto. exists w1, k1, w2, k2. auto.
    - intros [[s g1] ws1] ((W1 & Ho1 & Hi1 & Hor1) & Hb1).
      destruct (disconnect_spec n g1 x W1 Hx) as (g2 & -> & W2 & Ho2 & Hi2). simpl. split; auto.
      constructor; auto.
      + rewrite Ho2, N.eqb_refl; auto.
      + rewrite Hi2, N.eqb_refl; auto.
      + intros u v w k Hin. rewrite Ho2 in Hin. destruct (N.eqb_spec u x) as [->|Hu]; [destruct Hin|].
        apply without_In in Hin as [Hin Hv]. simpl in Hv. split; auto.
  Qed.

  Lemma relevance_str g ws params x level maxs : x < n -> pg_str n g -> ws_base n ws ->
    wp P (calc_relevance c H g params ws x level maxs) (fun '(_, g', ws') => g' = g /\ ws_base n ws').
  Proof.
    intros Hx W Hb. unfold calc_relevance.
    eapply wp_bind_mono.
    - apply (handle_str (count_shortcut c) x maxs g ws 0%Z (fun _ g' => g' = g)); auto.
      + intros s g' ->. auto.
      + intros s g' ie oe w _ _ -> _ _. unfold count_shortcut.
        destruct (s <? 2147483647)%Z; simpl; auto.
        destruct (debug_build c); simpl; auto. destruct HP as [|HO]; [discriminate|exact HO].
    - intros [[s g'] ws'] (-> & Hb').
      rewrite (outs_idx _ _ _ W Hx). cbn [bind]. rewrite (ins_idx _ _ _ W Hx). cbn [bind].
      simpl. auto.
  Qed.
End Rel.
