(** * EffortPrepFacts: proofs about the witness searches of a preparation *)
From Verif Require Export SpecEffortPrep EffortFacts RelContract RelFacts RelProps TermFacts.
From Coq Require Import Permutation ZArith.
Open Scope N_scope.

(** ** Forgetting the steps *)
Lemma forget_ws_loop c H g target limit maxs : forall f ws,
  forget (l_ws_loop f c H ws g target limit maxs) = ws_loop f c H ws g target limit maxs.
Proof.
  induction f as [|rest IH]; [|specialize (IH tt)]; intros ws; cbn [l_ws_loop ws_loop]; auto.
  destruct (ws_heap ws) as [|it h]; auto. destruct (maxs <=? ws_settled ws); auto.
  destruct (hp_peek H (it :: h)) as [curr|]; auto. destruct (limit <? hi_weight curr); auto. cbv zeta.
  rewrite forget_lbind, forget_lift. apply bind_cong; auto. intros s. destruct s; auto.
  rewrite forget_lbind, forget_lift. apply bind_cong; auto. intros arcs.
  rewrite forget_lbind, forget_lift. apply bind_cong; auto. intros [ws2 found].
  rewrite forget_lbind, forget_lift. apply bind_cong; auto. intros ws3.
  rewrite forget_lbind, forget_log. cbn [bind]. destruct (found || (hi_node curr =? target)); auto.
Qed.
Lemma forget_find c H ws g target limit maxs :
  forget (l_ws_find_max_weight c H ws g target limit maxs) = ws_find_max_weight c H ws g target limit maxs.
Proof.
  unfold l_ws_find_max_weight, ws_find_max_weight.
  do 3 (rewrite forget_lbind, forget_lift; apply bind_cong; auto; intros []).
  rewrite forget_if. destruct (target =? ws_start ws); auto.
  rewrite forget_lbind, forget_lift. apply bind_cong; auto. intros v.
  rewrite forget_lbind, forget_lift. apply bind_cong; auto. intros d.
  rewrite forget_if. destruct (v && _); auto.
  rewrite forget_lbind, forget_ws_loop. apply bind_cong; auto. intros ws'.
  rewrite forget_lbind, forget_lift. apply bind_cong; auto.
Qed.
Lemma forget_handle {S} c H why (handler : S -> PrepGraph -> Shortcut -> res (S * PrepGraph)) s0 g0 ws0 node maxs :
  forget (l_handle_shortcuts c H why handler s0 g0 ws0 node maxs) = handle_shortcuts c H handler s0 g0 ws0 node maxs.
Proof.
  unfold l_handle_shortcuts, handle_shortcuts. rewrite forget_lbind, forget_lift. apply bind_cong; auto. intros ins0.
  apply forget_fold. intros [[s g] ws] i.
  rewrite forget_lbind, forget_lift. apply bind_cong; auto. intros ins1.
  rewrite forget_lbind, forget_lift. apply bind_cong; auto. intros ie. cbv zeta.
  rewrite forget_lbind, forget_log. cbn [bind].
  rewrite forget_lbind, forget_lift. apply bind_cong; auto. intros ws1.
  rewrite forget_lbind, forget_lift. apply bind_cong; auto. intros outs0.
  apply forget_fold. intros [[s' g'] ws'] j.
  rewrite forget_lbind, forget_lift. apply bind_cong; auto. intros ins2.
  rewrite forget_lbind, forget_lift. apply bind_cong; auto. intros ie2.
  rewrite forget_lbind, forget_lift. apply bind_cong; auto. intros outs2.
  rewrite forget_lbind, forget_lift. apply bind_cong; auto. intros oe2.
  rewrite forget_lbind, forget_lift. apply bind_cong; auto. intros w.
  rewrite forget_lbind, forget_find. apply bind_cong; auto. intros [ws2 mw].
  rewrite forget_if. destruct (mw <=? w); auto.
  rewrite forget_lbind, forget_lift. apply bind_cong; auto. intros [s3 g3]. auto.
Qed.
Lemma forget_contract c H g ws node maxs : forget (l_contract_node c H g ws node maxs) = contract_node c H g ws node maxs.
Proof.
  unfold l_contract_node, contract_node. rewrite forget_lbind, forget_handle. apply bind_cong; auto. intros [[s g1] ws1].
  rewrite forget_lbind, forget_lift. apply bind_cong; auto.
Qed.
Lemma forget_relevance c H why g params ws node level maxs :
  forget (l_calc_relevance c H why g params ws node level maxs) = calc_relevance c H g params ws node level maxs.
Proof.
  unfold l_calc_relevance, calc_relevance. rewrite forget_lbind, forget_handle. apply bind_cong; auto. intros [[s g1] ws1].
  rewrite forget_lbind, forget_lift. apply bind_cong; auto. intros o.
  rewrite forget_lbind, forget_lift. apply bind_cong; auto.
Qed.
Lemma forget_with_order c H n fg0 ig order params :
  forget (l_run_contraction_with_order c H n fg0 ig order params) = run_contraction_with_order c H n fg0 ig order params.
Proof.
  unfold l_run_contraction_with_order, run_contraction_with_order. rewrite forget_lbind, forget_lift. apply bind_cong; auto.
  intros g0. rewrite forget_lbind.
  erewrite forget_fold; [apply bind_cong; [reflexivity|]; intros [[[fg g] ws] rank]; apply forget_lift|].
  intros [[[fg g] ws] rank] node. rewrite forget_if. destruct (n <=? node); auto.
  rewrite forget_lbind, forget_lift. apply bind_cong; auto. intros fg'.
  rewrite forget_lbind, forget_contract. apply bind_cong; auto. intros [g' ws']. auto.
Qed.
Lemma forget_init_queue c H Q params st node :
  forget (l_init_queue_step c H Q params st node) = init_queue_step c H Q params st node.
Proof.
  unfold l_init_queue_step, init_queue_step. rewrite forget_lbind, forget_relevance. apply bind_cong; auto.
  intros [[r g] ws]. auto.
Qed.
Lemma forget_update c H Q params node st nb :
  forget (l_update_neighbor c H Q params node st nb) = update_neighbor c H Q params node st nb.
Proof.
  unfold l_update_neighbor, update_neighbor. rewrite forget_lbind, forget_lift. apply bind_cong; auto. intros ln.
  rewrite forget_lbind, forget_lift. apply bind_cong; auto. intros lx. cbv zeta.
  rewrite forget_lbind, forget_lift. apply bind_cong; auto. intros lv.
  rewrite forget_lbind, forget_relevance. apply bind_cong; auto. intros [[r g] ws]. auto.
Qed.
Lemma forget_contraction_loop c H Q params : forall k st,
  forget (l_contraction_loop k c H Q params st) = contraction_loop k c H Q params st.
Proof.
  induction k as [|k IH]; intros st; cbn [l_contraction_loop contraction_loop]; auto.
  destruct (pq_pop Q (bs_queue st)) as [[[node p] q]|]; auto.
  rewrite forget_lbind, forget_lift. apply bind_cong; auto. intros nbs.
  rewrite forget_lbind, forget_lift. apply bind_cong; auto. intros fg'.
  rewrite forget_lbind, forget_contract. apply bind_cong; auto. intros [g' ws'].
  rewrite forget_lbind, (forget_fold _ _ (forget_update c H Q params node)). apply bind_cong; auto.
Qed.
Lemma forget_run c H Q n fg0 ig params : forget (l_run_contraction c H Q n fg0 ig params) = run_contraction c H Q n fg0 ig params.
Proof.
  unfold l_run_contraction, run_contraction. rewrite forget_lbind, forget_lift. apply bind_cong; auto. intros g0.
  rewrite forget_lbind, (forget_fold _ _ (forget_init_queue c H Q params)). apply bind_cong; auto. intros st0.
  rewrite forget_lbind, forget_contraction_loop. apply bind_cong; auto. intros st. apply forget_lift.
Qed.
Lemma C73_same_proof c H Q ig :
  (forall params, forget (l_build_with_params c H Q ig params) = prepare_with_params c H Q ig params) /\
  (forall order params, forget (l_build_with_order_with_params c H ig order params) = prepare_with_order_with_params c H ig order params).
Proof.
  split.
  - intros params. unfold l_build_with_params, prepare_with_params, build_with_params.
    rewrite forget_lbind, forget_lift. apply bind_cong; auto. intros n.
    rewrite forget_lbind, forget_lift. apply bind_cong; auto. intros fg0. apply forget_run.
  - intros order params. unfold l_build_with_order_with_params, prepare_with_order_with_params, build_with_order_with_params.
    rewrite forget_lbind, forget_lift. apply bind_cong; auto. intros n.
    rewrite forget_if. destruct (negb _); auto.
    rewrite forget_lbind, forget_lift. apply bind_cong; auto. intros fg0.
    rewrite forget_lbind, forget_with_order. apply bind_cong; auto.
Qed.

(** ** Counting *)
Lemma searches_app why l l' : searches why (l ++ l') = searches why l ++ searches why l'. Proof. apply flat_map_app. Qed.
Lemma settled_app l l' : settled (l ++ l') = settled l ++ settled l'. Proof. apply flat_map_app. Qed.
Lemma respects_le l : forall k k', k <= k' -> respects k l -> respects k' l.
Proof.
  induction l as [|[p a b m|v] l IH]; intros k k' Hk; simpl; auto. intros (H1 & H2). split; [lia|].
  apply (IH (k - 1)); auto. lia.
Qed.
Lemma respects_app l : forall k l', respects k l -> respects 0 l' -> respects k (l ++ l').
Proof.
  induction l as [|[p a b m|v] l IH]; intros k l'; simpl; auto.
  - intros _ Hl. apply (respects_le _ 0); auto. lia.
  - intros (H1 & H2) Hl. split; auto.
Qed.
Lemma respects_settled k l : respects k (map Settled l) <-> lenN l <= k.
Proof.
  revert k. induction l as [|v l IH]; intros k; simpl; [rewrite lenN_nil; split; auto; lia|].
  rewrite IH, lenN_cons. lia.
Qed.
Lemma searches_settled why l : searches why (map Settled l) = [].
Proof. induction l; simpl; auto. Qed.
Lemma settled_settled l : settled (map Settled l) = l.
Proof. induction l; simpl; auto. f_equal; auto. Qed.

(** the steps of calls that are all for [why], with the limit [m] *)
Definition only (why : purpose) (m : N) (k : N) (l : list search_step) : Prop :=
  respects 0 l /\ lenN (searches why l) = k /\ (forall p, p <> why -> searches p l = []) /\
  (forall a b m', In (a, b, m') (searches why l) -> m' = m).
Lemma only_nil why m : only why m 0 [].
Proof. split; [exact Logic.I|]. split; auto. split; auto. intros a b m' []. Qed.
Lemma only_app why m k k' l l' : only why m k l -> only why m k' l' -> only why m (k + k') (l ++ l').
Proof.
  intros (A1 & A2 & A3 & A4) (B1 & B2 & B3 & B4). split; [apply respects_app; auto|].
  split; [rewrite searches_app, lenN_app; lia|]. split.
  - intros p Hp. rewrite searches_app, A3, B3 by auto. auto.
  - intros a b m'. rewrite searches_app, in_app_iff. intros [Hi|Hi]; eauto.
Qed.

Lemma loop_steps c H g target limit maxs : forall f ws ws' l,
  l_ws_loop f c H ws g target limit maxs = Ok (ws', l) ->
  exists vs, l = map Settled vs /\ ws_settled ws' = ws_settled ws + lenN vs /\ ws_settled ws' <= N.max maxs (ws_settled ws).
Proof.
  assert (forall curr arcs ws fd ws' fd', foldM (ws_relax c H curr target limit) arcs (ws, fd) = Ok (ws', fd') ->
            ws_settled ws' = ws_settled ws) as HR.
  { intros curr. induction arcs as [|a arcs IH]; intros ws fd ws' fd'; cbn [foldM]; [intros E; injection E as <- <-; auto|].
    intros E. apply bind_Ok in E as ([w1 f1] & E1 & E2). apply IH in E2. rewrite E2. clear E2.
    unfold ws_relax in E1. destruct (a_adj a =? ws_avoid ws); [injection E1 as <- <-; auto|].
    apply bind_Ok in E1 as (x & _ & E1). apply bind_Ok in E1 as (y & _ & E1).
    destruct (x <? y); [|injection E1 as <- <-; auto]. apply bind_Ok in E1 as (w2 & Eu & E1).
    injection E1 as <- <-. cbn [ws_settled ws_set_heap]. apply update_node_settled in Eu. auto. }
  induction f as [|rest IH]; [|specialize (IH tt)]; intros ws ws' l; cbn [l_ws_loop]; [discriminate|].
  assert (forall r, lret ws = Ok (ws', r) -> exists vs, r = map Settled vs /\ ws_settled ws' = ws_settled ws + lenN vs /\
            ws_settled ws' <= N.max maxs (ws_settled ws)) as Hstop.
  { intros r E. injection E as <- <-. exists []. split; auto. rewrite lenN_nil. lia. }
  destruct (ws_heap ws) as [|it h]; auto. destruct (N.leb_spec maxs (ws_settled ws)); auto.
  destruct (hp_peek H (it :: h)) as [curr|]; [|discriminate]. destruct (limit <? hi_weight curr); auto. cbv zeta. intros E.
  linv E as s X1. destruct s.
  - apply IH in E as (vs & -> & Hs & Hm). exists vs. cbn [ws_settled ws_set_heap] in Hs, Hm. auto.
  - linv E as arcs X2. linv E as wf X3. destruct wf as [ws2 found]. linv E as ws3 X4. linv_log E.
    apply HR in X3. cbn [ws_settled ws_set_heap] in X3. apply settle_settled in X4.
    destruct (found || (hi_node curr =? target)).
    + injection E as <- <-. exists [hi_node curr]. split; [reflexivity|]. change (lenN [hi_node curr]) with 1. lia.
    + apply IH in E as (vs & -> & Hs & Hm). exists (hi_node curr :: vs). split; [reflexivity|]. rewrite lenN_cons. lia.
Qed.
Lemma find_steps c H ws g target limit maxs ws' w l :
  l_ws_find_max_weight c H ws g target limit maxs = Ok (ws', w, l) ->
  exists vs, l = map Settled vs /\ ws_settled ws' = ws_settled ws + lenN vs /\ ws_settled ws' <= N.max maxs (ws_settled ws).
Proof.
  assert (forall x r, lret (ws, x) = Ok (ws', w, r) -> exists vs, r = map Settled vs /\ ws_settled ws' = ws_settled ws + lenN vs /\
            ws_settled ws' <= N.max maxs (ws_settled ws)) as Hstop.
  { intros x r E. injection E as <- <- <-. exists []. split; auto. rewrite lenN_nil. lia. }
  unfold l_ws_find_max_weight. intros E. linv E as u1 X1. linv E as u2 X2. linv E as u3 X3.
  destruct (target =? ws_start ws); eauto. linv E as v X4. linv E as d X5. destruct (v && _); eauto.
  apply lbind_Ok in E as (ws2 & la & lb & E1 & E & ->). apply loop_steps in E1 as (vs & -> & Hs & Hm).
  linv E as x X6. injection E as <- <- <-. exists vs. rewrite app_nil_r. auto.
Qed.
Lemma init_settled c H ws s x ws' : ws_init c H ws s x = Ok ws' -> ws_settled ws' = 0.
Proof.
  unfold ws_init. intros E. apply bind_Ok in E as (u1 & _ & E). apply bind_Ok in E as (u2 & _ & E). cbv zeta in E.
  repeat (apply bind_Ok in E as (? & ? & E)). injection E as <-. reflexivity.
Qed.

Lemma lfold_range {T S} (f : S -> N -> recorded T S) (I : S -> list T -> Prop) : forall ids s l0 s' l,
  I s l0 -> (forall s1 i s2 l1 l2, I s1 l1 -> In i ids -> f s1 i = Ok (s2, l2) -> I s2 (l1 ++ l2)) ->
  lfold f ids s = Ok (s', l) -> I s' (l0 ++ l).
Proof.
  induction ids as [|i ids IH]; intros s l0 s' l Hi Hf E; cbn [lfold] in E.
  - injection E as <- <-. rewrite app_nil_r. auto.
  - apply lbind_Ok in E as (s1 & l1 & l2 & E1 & E2 & ->). rewrite app_assoc. eapply IH; [| |exact E2].
    + eapply Hf; eauto. left; auto.
    + intros; eapply Hf; eauto. right; auto.
Qed.

Lemma lfold_only {S A} (f : S -> A -> traced S) why m (k : A -> N) (I : S -> Prop) : forall ids s s' l,
  I s -> (forall s1 i s2 l2, I s1 -> In i ids -> f s1 i = Ok (s2, l2) -> I s2 /\ only why m (k i) l2) ->
  lfold f ids s = Ok (s', l) -> I s' /\ only why m (sumN (map k ids)) l.
Proof.
  induction ids as [|i ids IH]; intros s s' l Hi Hf E; cbn [lfold] in E.
  - injection E as <- <-. split; auto. apply only_nil.
  - apply lbind_Ok in E as (s1 & l1 & l2 & E1 & E2 & ->).
    destruct (Hf s i s1 l1) as (I1 & O1); auto; [left; auto|].
    destruct (IH s1 s' l2) as (I2 & O2); auto. { intros; eapply Hf; eauto. right; auto. }
    split; auto. cbn [map sumN fold_right]. apply only_app; auto.
Qed.

Lemma handle_steps {S} c H why (handler : S -> PrepGraph -> Shortcut -> res (S * PrepGraph)) s0 g0 ws0 node maxs r l :
  l_handle_shortcuts c H why handler s0 g0 ws0 node maxs = Ok (r, l) ->
  exists ins0, idx (pg_in g0) node = Ok ins0 /\ only why maxs (lenN ins0) l.
Proof.
  unfold l_handle_shortcuts. intros E. linv E as ins0 X0. exists ins0. split; auto.
  apply (lfold_only _ why maxs (fun _ => 1) (fun _ => True)) in E as (_ & O); auto.
  - rewrite (sumN_const _ 1) in O by auto. rewrite lenN_rangeN in O. replace (lenN ins0) with ((lenN ins0 - 0) * 1) by lia. exact O.
  - clear E. intros [[s g] ws] i s2 l2 _ _ E. split; auto. linv E as ins1 X1. linv E as ie X2. cbv zeta in E.
    linv_log E. linv E as ws1 X3. linv E as outs0 X4. apply init_settled in X3.
    apply (lfold_range _ (fun '(s, g, ws) lg => exists vs, lg = map Settled vs /\ ws_settled ws = lenN vs /\ lenN vs <= maxs)
             _ _ []) in E.
    + destruct s2 as [[s' g'] ws']. destruct E as (vs & Ev & _ & Hle). cbn [app] in Ev. rewrite Ev.
      split; [|split; [|split]].
      * cbn [respects app]. apply respects_settled. auto.
      * cbn [searches flat_map app]. fold (searches why (map Settled vs)). rewrite searches_settled.
        destruct why; reflexivity.
      * intros p Hp. cbn [searches flat_map app]. fold (searches p (map Settled vs)). rewrite searches_settled.
        destruct why, p; try reflexivity; congruence.
      * intros a b m'. cbn [searches flat_map app]. fold (searches why (map Settled vs)). rewrite searches_settled.
        destruct why; cbn [is_for app]; intros [Hi|[]]; injection Hi as <- <- <-; auto.
    + exists []. split; auto. rewrite lenN_nil. split; auto. lia.
    + clear E. intros [[sa ga] wa] j [[sb gb] wb] la lb (vs & -> & Hs & Hle) _ E.
      linv E as y1 Y1. linv E as y2 Y2. linv E as y3 Y3. linv E as y4 Y4. linv E as y5 Y5. cbv zeta in E.
      apply lbind_Ok in E as ([wc mw] & lc & ld & E1 & E & ->). apply find_steps in E1 as (vs' & -> & Hs' & Hm).
      assert (ld = [] /\ wb = wc) as (-> & ->).
      { destruct (mw <=? y5); [injection E as <- <- <- <-; auto|]. linv E as hg Z. destruct hg as [sd gd]. injection E as <- <- <- <-; auto. }
      exists (vs ++ vs'). rewrite app_nil_r, map_app, lenN_app. split; auto. lia.
Qed.
Lemma contract_steps c H g ws node maxs r l : l_contract_node c H g ws node maxs = Ok (r, l) ->
  exists ins0, idx (pg_in g) node = Ok ins0 /\ only Contraction maxs (lenN ins0) l.
Proof.
  unfold l_contract_node. intros E. apply lbind_Ok in E as ([[s g1] ws1] & la & lb & E1 & E & ->).
  linv E as g2 X. injection E as <- <-. rewrite app_nil_r. eapply handle_steps; eauto.
Qed.
Lemma relevance_steps c H why g params ws node level maxs r l : l_calc_relevance c H why g params ws node level maxs = Ok (r, l) ->
  exists ins0, idx (pg_in g) node = Ok ins0 /\ only why maxs (lenN ins0) l.
Proof.
  unfold l_calc_relevance. intros E. apply lbind_Ok in E as ([[s g1] ws1] & la & lb & E1 & E & ->).
  linv E as g2 X. linv E as g3 X3. injection E as <- <-. rewrite app_nil_r. eapply handle_steps; eauto.
Qed.

(** ** Stored edges *)
Lemma store_arcs_len c node arcs : forall es es', store_arcs c node es arcs = Ok es' -> lenN es' = lenN es + lenN arcs.
Proof.
  unfold store_arcs. induction arcs as [|a arcs IH]; intros es es'; cbn [foldM]; [intros E; injection E as <-; rewrite lenN_nil; lia|].
  intros E. apply bind_Ok in E as (e1 & E1 & E2). apply IH in E2. unfold vpush in E1.
  destruct (_ <? _); [|discriminate]. injection E1 as <-. rewrite E2, lenN_app, !lenN_cons, lenN_nil. lia.
Qed.
Lemma store_node_edges c fg g rank node fg' : store_node c fg g rank node = Ok fg' -> exists os is,
  idx (pg_out g) node = Ok os /\ idx (pg_in g) node = Ok is /\
  lenN (fg_edges_fwd fg') = lenN (fg_edges_fwd fg) + lenN os /\ lenN (fg_edges_bwd fg') = lenN (fg_edges_bwd fg) + lenN is.
Proof.
  unfold store_node. intros E. apply bind_Ok in E as (os & E1 & E). apply bind_Ok in E as (ef & E2 & E).
  apply bind_Ok in E as (ff & _ & E). apply bind_Ok in E as (is & E3 & E). apply bind_Ok in E as (eb & E4 & E).
  apply bind_Ok in E as (fb & _ & E). apply bind_Ok in E as (rk & _ & E). injection E as <-.
  apply store_arcs_len in E2. apply store_arcs_len in E4. exists os, is. cbn [fg_edges_fwd fg_edges_bwd]. auto.
Qed.
Lemma foldM_keep {S A} (f : S -> A -> res S) (R : S -> S -> Prop) : (forall s, R s s) -> (forall a b d, R a b -> R b d -> R a d) ->
  (forall s a s', f s a = Ok s' -> R s s') -> forall l s s', foldM f l s = Ok s' -> R s s'.
Proof.
  intros Hr Ht Hf. induction l as [|a l IH]; intros s s' E; cbn [foldM] in E; [injection E as <-; auto|].
  apply bind_Ok in E as (s1 & E1 & E2). eauto.
Qed.
Definition same_len (fg fg' : FastGraph) : Prop := forall d, lenN (fg_edges fg' d) = lenN (fg_edges fg d).
Lemma set_edge_len fg d i e : same_len fg (fg_set_edge fg d i e).
Proof. intros []; destruct d; cbn [fg_set_edge fg_edges fg_edges_fwd fg_edges_bwd]; rewrite ?lenN_setN; auto. Qed.
Lemma same_len_trans a b d : same_len a b -> same_len b d -> same_len a d.
Proof. intros X Y dd. rewrite Y, X. auto. Qed.
Lemma finish_len c n fg fg' : finish_contraction c n fg = Ok fg' -> same_len fg fg'.
Proof.
  assert (forall d fg fg', finish_dir c d n fg = Ok fg' -> same_len fg fg') as G.
  { intros d. unfold finish_dir. apply (foldM_keep _ same_len); [intros ? ?; auto|exact same_len_trans|].
    intros fg1 i fg2 E. apply bind_Ok in E as (b & _ & E). apply bind_Ok in E as (e & _ & E). revert E.
    apply (foldM_keep _ same_len); [intros ? ?; auto|exact same_len_trans|]. clear. intros fg id fg' E.
    unfold finish_edge in E. apply bind_Ok in E as (e & _ & E). destruct (_ =? _).
    - apply bind_Ok in E as (u & _ & E). injection E as <-. apply set_edge_len.
    - apply bind_Ok in E as (ri & _ & E). apply bind_Ok in E as (ro & _ & E). injection E as <-.
      eapply same_len_trans; apply set_edge_len. }
  unfold finish_contraction. intros E. apply bind_Ok in E as (f1 & E1 & E2). eapply same_len_trans; eauto.
Qed.

(** ** Preparing with an order *)
Lemma C73_order_proof c H ig order params fg l :
  l_build_with_order_with_params c H ig order params = Ok (inl fg, l) ->
  only Contraction (po_max_settled_nodes_contraction_with_order params) (lenN (fg_edges_bwd fg)) l.
Proof.
  unfold l_build_with_order_with_params. intros E. linv E as n X1. destruct (negb _); [discriminate|].
  linv E as fg0 X2. apply lbind_Ok in E as (fg' & la & lb & E1 & E & ->). injection E as -> <-. rewrite app_nil_r.
  unfold l_run_contraction_with_order in E1. linv E1 as g0 X3.
  apply lbind_Ok in E1 as ([[[fg1 g1] ws1] rk1] & lc & ld & E1 & E & ->). apply lift_Ok in E as (E & ->). rewrite app_nil_r.
  apply finish_len in E. specialize (E Bwd). cbn [fg_edges] in E. rewrite E. clear E.
  set (m := po_max_settled_nodes_contraction_with_order params) in *.
  assert (lenN (fg_edges_bwd fg0) = 0) as Z.
  { unfold fg_new in X2. destruct (_ <=? _); [|discriminate]. apply bind_Ok in X2 as (u & _ & X2).
    destruct (_ <=? _); [|discriminate]. injection X2 as <-. reflexivity. }
  apply (lfold_range _ (fun '(fg, _, _, _) lg => only Contraction m (lenN (fg_edges_bwd fg)) lg) _ _ []) in E1.
  - exact E1.
  - rewrite Z. apply only_nil.
  - clear. intros [[[fg g] ws] rk] node [[[fg' g'] ws'] rk'] la lb O _ E.
    destruct (n <=? node); [discriminate|]. linv E as fg2 X1. apply lbind_Ok in E as ([g2 ws2] & lc & ld & E1 & E & ->).
    injection E as <- <- <- <- <-. rewrite app_nil_r.
    apply store_node_edges in X1 as (os & is & _ & Hi & _ & ->). apply contract_steps in E1 as (is' & Hi' & O').
    assert (is' = is) by congruence. subst. apply only_app; auto.
Qed.

(** ** Preparing with priorities *)
Lemma sumN_app l l' : sumN (l ++ l') = sumN l + sumN l'.
Proof. induction l; simpl; auto. rewrite IHl. lia. Qed.
Lemma sum_rows (l : list (list Arc)) :
  sumN (map (fun v => lenN (match getN l v with Some a => a | None => [] end)) (rangeN 0 (lenN l))) = lenN (concat l).
Proof.
  induction l as [|a l IH] using rev_ind; auto.
  rewrite concat_app. cbn [concat]. rewrite app_nil_r, (lenN_app l), (lenN_app (concat l)). change (lenN [a]) with 1.
  rewrite (rangeN_app 0 (lenN l)) by lia. rewrite map_app, sumN_app. f_equal.
  - rewrite <- IH. apply sumN_ext. intros v Hv. apply rangeN_In in Hv. rewrite getN_app1 by lia. auto.
  - rewrite rangeN_cons by lia. rewrite rangeN_nil by lia. cbn [map sumN fold_right].
    rewrite getN_app2 by lia. rewrite N.sub_diag. cbn [getN]. simpl. lia.
Qed.
Lemma concat_set (l : list (list Arc)) i a b : getN l i = Some a -> lenN (concat (setN l i b)) + lenN a = lenN (concat l) + lenN b.
Proof.
  intros Hg. destruct (setN_Permutation l i a b Hg) as (l1 & l2 & -> & ->). rewrite !concat_app, !lenN_app. cbn [concat].
  rewrite !lenN_app. lia.
Qed.
Lemma from_input_arcs c ig g : ig_frozen ig = true -> pg_from_input_graph c ig = Ok g -> lenN (concat (pg_in g)) = lenN (ig_edges ig).
Proof.
  intros Hf. unfold pg_from_input_graph, ig_get_num_nodes, ig_get_edges, ig_check_frozen. rewrite Hf. cbn [bind].
  assert (forall es g0 g, foldM (fun g e => pg_add_edge c g (e_from e) (e_to e) (e_weight e)) es g0 = Ok g ->
            lenN (concat (pg_in g)) = lenN (concat (pg_in g0)) + lenN es) as G.
  { induction es as [|e es IH]; intros g0 g'; cbn [foldM]; [intros E; injection E as <-; rewrite lenN_nil; lia|].
    intros E. apply bind_Ok in E as (g1 & E1 & E2). apply IH in E2. rewrite E2, lenN_cons. clear E2.
    unfold pg_add_edge, pg_add_edge_or_shortcut in E1. apply bind_Ok in E1 as (u & _ & E1). apply bind_Ok in E1 as (os & _ & E1).
    apply bind_Ok in E1 as (o' & _ & E1). apply bind_Ok in E1 as (is & Ei & E1). apply bind_Ok in E1 as (i' & Ei' & E1).
    injection E1 as <-. cbn [pg_in]. unfold idx in Ei. destruct (getN (pg_in g0) (e_to e)) as [a|] eqn:Ea; [|discriminate].
    injection Ei as ->. unfold upd in Ei'. destruct (_ <? _); [|discriminate]. injection Ei' as <-.
    pose proof (concat_set _ _ _ (is ++ [mkArc (e_from e) (e_weight e) (INVALID_NODE c)]) Ea) as C.
    rewrite lenN_app, lenN_cons, lenN_nil in C. lia. }
  intros E. apply G in E. rewrite E. assert (lenN (concat (pg_in (pg_new (ig_num_nodes ig)))) = 0); [|lia].
  unfold pg_new, vec_repeat. cbn [pg_in]. generalize (N.to_nat (ig_num_nodes ig)). intros k. induction k; simpl; auto.
Qed.
Lemma btree_insert_len x l : lenN (btree_insert x l) <= lenN l + 1.
Proof.
  induction l as [|y l IH]; simpl; [rewrite lenN_cons; lia|]. destruct (x ?= y); rewrite !lenN_cons; lia.
Qed.
Lemma neighbors_len g x l os is : neighbors_of g x = Ok l -> idx (pg_out g) x = Ok os -> idx (pg_in g) x = Ok is ->
  lenN l <= lenN os + lenN is.
Proof.
  unfold neighbors_of. intros E Ho Hi. rewrite Ho, Hi in E. cbn [bind] in E. injection E as <-.
  assert (forall (l : list Arc) s, lenN (fold_left (fun s a => btree_insert (a_adj a) s) l s) <= lenN s + lenN l) as G.
  { induction l as [|a l IH]; intros s; simpl; [rewrite lenN_nil; lia|]. specialize (IH (btree_insert (a_adj a) s)).
    pose proof (btree_insert_len (a_adj a) s). rewrite lenN_cons. lia. }
  specialize (G (os ++ is) []). rewrite lenN_nil, lenN_app in G. lia.
Qed.

Record counts (params : Params) (kI kN kC : N) (l : list search_step) : Prop := mk_counts {
  ct_resp : respects 0 l;
  ct_lim : forall p a b m, In (a, b, m) (searches p l) -> m = limit_of params p;
  ct_I : lenN (searches Initial l) = kI;
  ct_N : lenN (searches Neighbor l) <= kN;
  ct_C : lenN (searches Contraction l) = kC
}.
Lemma counts_app params a1 b1 c1 a2 b2 c2 l l' : counts params a1 b1 c1 l -> counts params a2 b2 c2 l' ->
  counts params (a1 + a2) (b1 + b2) (c1 + c2) (l ++ l').
Proof.
  intros [A1 A2 A3 A4 A5] [B1 B2 B3 B4 B5]. constructor.
  - apply respects_app; auto.
  - intros p a b m. rewrite searches_app, in_app_iff. intros [Hi|Hi]; eauto.
  - rewrite searches_app, lenN_app. lia.
  - rewrite searches_app, lenN_app. lia.
  - rewrite searches_app, lenN_app. lia.
Qed.
Lemma counts_le params a b b' d l : counts params a b d l -> b <= b' -> counts params a b' d l.
Proof. intros [A1 A2 A3 A4 A5] Hb. constructor; auto. lia. Qed.
Lemma only_counts params why k l : only why (limit_of params why) k l ->
  counts params (if is_for why Initial then k else 0) (if is_for why Neighbor then k else 0) (if is_for why Contraction then k else 0) l.
Proof.
  intros (A1 & A2 & A3 & A4).
  assert (forall p a b m, In (a, b, m) (searches p l) -> m = limit_of params p) as G.
  { intros p a b m Hi. destruct why, p; try (exact (A4 _ _ _ Hi)); rewrite A3 in Hi by discriminate; destruct Hi. }
  constructor; auto; destruct why; cbn [is_for]; try (rewrite A3 by discriminate; reflexivity); auto; try lia;
    rewrite A3 by discriminate; rewrite lenN_nil; lia.
Qed.

Section Prep.
  Variables (c : cfg) (H : heap_ops) (hinv : list HeapItem -> Prop).
  Hypothesis HL : heap_laws H hinv.
  Variable Q : pq_ops.
  Variable params : Params.
  Variable n : N.
  Hypothesis Hn : n <= umax c.

  Definition keeps (st : BState) : Prop := pg_str n (bs_pg st) /\ ws_base n (bs_ws st).

  Lemma idx_lt {A} (l : list A) i a : idx l i = Ok a -> i < lenN l /\ getN l i = Some a.
  Proof. unfold idx. destruct (getN l i) eqn:E; [|discriminate]. intros X; injection X as ->. split; auto. eapply getN_Some_lt; eauto. Qed.

  Lemma prep_relevance why g ws node level maxs r g' ws' l : pg_str n g -> ws_base n ws ->
    l_calc_relevance c H why g params ws node level maxs = Ok (r, g', ws', l) ->
    g' = g /\ ws_base n ws' /\ node < n /\ only why maxs (lenN (ins g node)) l.
  Proof.
    intros W B E. pose proof (forget_Ok _ _ _ E) as F. rewrite forget_relevance in F.
    apply relevance_steps in E as (is & Hi & O). apply idx_lt in Hi as (Hlt & Hg). rewrite (wf_li _ _ W) in Hlt.
    pose proof (relevance_str c H hinv HL n (fun _ => True) (or_intror Logic.I) Hn g ws params node level maxs Hlt W B) as R.
    rewrite F in R. destruct R as (-> & B'). split; auto. split; auto. split; auto. unfold ins. rewrite Hg. auto.
  Qed.
  Lemma prep_contract g ws node maxs g' ws' l : pg_str n g -> ws_base n ws ->
    l_contract_node c H g ws node maxs = Ok (g', ws', l) ->
    pg_str n g' /\ ws_base n ws' /\ node < n /\ only Contraction maxs (lenN (ins g node)) l.
  Proof.
    intros W B E. pose proof (forget_Ok _ _ _ E) as F. rewrite forget_contract in F.
    apply contract_steps in E as (is & Hi & O). apply idx_lt in Hi as (Hlt & Hg). rewrite (wf_li _ _ W) in Hlt.
    pose proof (contract_str c H hinv HL n (fun _ => True) (or_intror Logic.I) Hn g ws node maxs Hlt W B) as R.
    rewrite F in R. destruct R as (C & B'). split; [apply (ct_wf _ _ _ _ _ C)|]. split; auto. split; auto. unfold ins. rewrite Hg. auto.
  Qed.
  Lemma ins_le g u : pg_str n g -> lenN (ins g u) <= n.
  Proof.
    intros W. rewrite <- (lenN_map a_adj). apply NoDup_bounded_len; [apply (wf_ndi _ _ W)|].
    intros v Hv. apply in_map_iff in Hv as ([v' w k] & <- & Hin). apply (wf_sym _ _ W) in Hin.
    eapply outs_src; eauto.
  Qed.

  Lemma init_counts st0 st l : keeps st0 -> lfold (l_init_queue_step c H Q params) (rangeN 0 n) st0 = Ok (st, l) ->
    keeps st /\ bs_fg st = bs_fg st0 /\ counts params (lenN (concat (pg_in (bs_pg st0)))) 0 0 l.
  Proof.
    intros K E.
    apply (lfold_only _ Initial (limit_of params Initial) (fun v => lenN (ins (bs_pg st0) v))
             (fun st => keeps st /\ bs_pg st = bs_pg st0 /\ bs_fg st = bs_fg st0)) in E as ((K1 & Hp & Hf) & O); auto.
    - split; auto. split; auto. destruct K as (W & _).
      pose proof (sum_rows (pg_in (bs_pg st0))) as SR. rewrite (wf_li _ _ W) in SR.
      unfold ins in O. rewrite SR in O. exact (only_counts params Initial _ _ O).
    - clear E. intros s1 i s2 l2 ((W & B) & Hp & Hf) _ E. unfold l_init_queue_step in E.
      apply lbind_Ok in E as ([[r g] ws] & la & lb & E1 & E & ->). injection E as <- <-. rewrite app_nil_r.
      apply prep_relevance in E1 as (-> & B' & _ & O); auto. rewrite Hp in O.
      split; auto. split; [split; auto|]. auto.
  Qed.

  Lemma update_counts node : forall nbs st0 st l, keeps st0 -> lfold (l_update_neighbor c H Q params node) nbs st0 = Ok (st, l) ->
    keeps st /\ bs_fg st = bs_fg st0 /\ counts params 0 (lenN nbs * n) 0 l.
  Proof.
    induction nbs as [|nb nbs IH]; intros st0 st l K E; cbn [lfold] in E.
    - injection E as <- <-. split; auto. split; auto. exact (only_counts params Neighbor _ _ (only_nil _ _)).
    - apply lbind_Ok in E as (st1 & la & lb & E1 & E2 & ->). unfold l_update_neighbor in E1.
      linv E1 as ln X1. linv E1 as lx X2. cbv zeta in E1. linv E1 as lv X3.
      apply lbind_Ok in E1 as ([[r g] ws] & lc & ld & E1 & E & ->). injection E as <- <-. rewrite app_nil_r.
      destruct K as (W & B). apply prep_relevance in E1 as (-> & B' & _ & O); auto.
      apply IH in E2 as (K2 & Hf & C2); [|split; auto]. split; auto. split; auto.
      pose proof (only_counts params Neighbor _ _ O) as C1. cbn [is_for] in C1.
      eapply counts_le; [exact (counts_app _ _ _ _ _ _ _ _ _ C1 C2)|]. pose proof (ins_le (bs_pg st0) nb W). rewrite lenN_cons. lia.
  Qed.

  Lemma loop_counts : forall k st0 st l, keeps st0 -> l_contraction_loop k c H Q params st0 = Ok (st, l) ->
    exists dF dB, lenN (fg_edges_fwd (bs_fg st)) = lenN (fg_edges_fwd (bs_fg st0)) + dF /\
      lenN (fg_edges_bwd (bs_fg st)) = lenN (fg_edges_bwd (bs_fg st0)) + dB /\ counts params 0 ((dF + dB) * n) dB l.
  Proof.
    induction k as [|k IH]; intros st0 st l (W & B) E; cbn [l_contraction_loop] in E; [discriminate|].
    destruct (pq_pop Q (bs_queue st0)) as [[[node p] q]|].
    - linv E as nbs X1. linv E as fg' X2. apply lbind_Ok in E as ([g' ws'] & la & lb & E1 & E & ->).
      apply lbind_Ok in E as (st1 & lc & ld & E2 & E & ->).
      apply store_node_edges in X2 as (os & is & Ho & Hi & Lf & Lb). pose proof (neighbors_len _ _ _ _ _ X1 Ho Hi) as Hnb.
      apply prep_contract in E1 as (W1 & B1 & Hlt & O1); auto.
      assert (is = ins (bs_pg st0) node) as Eis. { apply idx_lt in Hi as (_ & Hi). unfold ins. rewrite Hi. auto. }
      rewrite <- Eis in O1. pose proof (only_counts params Contraction _ _ O1) as C1. cbn [is_for] in C1.
      apply update_counts in E2 as (K2 & Hf & C2); [|split; auto]. cbn [bs_fg] in Hf.
      apply IH in E as (dF & dB & Gf & Gb & C3); [|exact K2]. cbn [bs_fg] in Gf, Gb.
      exists (lenN os + dF), (lenN is + dB). rewrite Gf, Gb, Hf, Lf, Lb. split; [lia|]. split; [lia|].
      pose proof (counts_app _ _ _ _ _ _ _ _ _ C1 (counts_app _ _ _ _ _ _ _ _ _ C2 C3)) as C. rewrite N.add_0_r in C.
      eapply counts_le; [exact C|]. nia.
    - injection E as <- <-. exists 0, 0. split; [lia|]. split; [lia|]. exact (only_counts params Neighbor _ _ (only_nil _ _)).
  Qed.
End Prep.

Lemma C73_counts_proof c ops ig H hinv Q params fg l : frozen_graph c ops ig -> heap_laws H hinv ->
  l_build_with_params c H Q ig params = Ok (fg, l) ->
  counts params (lenN (ig_edges ig)) (ig_num_nodes ig * (lenN (fg_edges_fwd fg) + lenN (fg_edges_bwd fg))) (lenN (fg_edges_bwd fg)) l.
Proof.
  intros Hfz HL E. pose proof Hfz as (_ & _ & Hfr). unfold l_build_with_params, ig_get_num_nodes, ig_check_frozen in E.
  rewrite Hfr in E. cbn [bind] in E. linv E as m X0. injection X0 as <-. linv E as fg0 X1.
  assert (lenN (fg_edges_bwd fg0) = 0 /\ lenN (fg_edges_fwd fg0) = 0 /\ ig_num_nodes ig <= umax c) as (Zb & Zf & Hn).
  { unfold fg_new in X1. destruct (N.leb_spec (ig_num_nodes ig) (umax c / 2)) as [Hle|]; [|discriminate].
    apply bind_Ok in X1 as (u & _ & X1). destruct (_ <=? _); [|discriminate]. injection X1 as <-. split; [reflexivity|]. split; [reflexivity|].
    pose proof (N.div_le_upper_bound (umax c) 2 (umax c)). lia. }
  unfold l_run_contraction in E. linv E as g0 X2.
  pose proof (from_input_arcs c ig g0 Hfr X2) as Harcs.
  assert (ig_ok c ig) as Hok.
  { eapply frozen_ok_if; eauto. pose proof (from_input_checks c ig Hfr) as C. rewrite X2 in C. exact C. }
  destruct (from_input_ok c ig Hok) as (g0' & Eg & W & _). assert (g0' = g0) by congruence. subst g0'.
  apply lbind_Ok in E as (st0 & la & lb & E1 & E & ->). apply lbind_Ok in E as (st & lc & ld & E2 & E & ->).
  apply lift_Ok in E as (E & ->). rewrite app_nil_r. apply finish_len in E.
  apply (init_counts c H hinv HL) in E1 as (K & Hf & C1); auto; [|split; [apply wf_str; exact W|apply ws_new_base]].
  cbn [bs_pg bs_fg] in Hf, C1. rewrite Harcs in C1.
  apply (loop_counts c H hinv HL Q params (ig_num_nodes ig) Hn) in E2 as (dF & dB & Gf & Gb & C2); auto.
  pose proof (E Fwd) as Ef. pose proof (E Bwd) as Eb. cbn [fg_edges] in Ef, Eb. rewrite Hf in Gf, Gb.
  pose proof (counts_app _ _ _ _ _ _ _ _ _ C1 C2) as C. rewrite N.add_0_r, !N.add_0_l in C.
  replace (lenN (fg_edges_bwd fg)) with dB by lia. replace (lenN (fg_edges_fwd fg)) with dF by lia.
  rewrite N.mul_comm. exact C.
Qed.

Lemma settled_le params kI kN kC l : counts params kI kN kC l ->
  lenN (settled l) <= p_max_settled_nodes_initial_relevance params * kI + p_max_settled_nodes_neighbor_relevance params * kN +
    p_max_settled_nodes_contraction params * kC.
Proof.
  intros [A1 A2 A3 A4 A5].
  assert (forall k l, respects k l -> (forall p a b m, In (a, b, m) (searches p l) -> m = limit_of params p) ->
    lenN (settled l) <= k + limit_of params Initial * lenN (searches Initial l) + limit_of params Neighbor * lenN (searches Neighbor l) +
      limit_of params Contraction * lenN (searches Contraction l)) as G.
  { clear. intros k l. revert k. induction l as [|[p a b m|v] l IH]; intros k Hr Hl.
    - cbn. rewrite !lenN_nil. lia.
    - cbn [respects] in Hr. specialize (IH _ Hr).
      assert (m = limit_of params p) as ->. { apply (Hl p a b). destruct p; left; reflexivity. }
      assert (forall q a0 b0 m0, In (a0, b0, m0) (searches q l) -> m0 = limit_of params q) as Hl'.
      { intros q a0 b0 m0 Hi. apply (Hl q a0 b0). cbn [searches flat_map]. apply in_app_iff. right. exact Hi. }
      specialize (IH Hl'). change (settled (Searched p a b (limit_of params p) :: l)) with (settled l).
      assert (forall q, lenN (searches q (Searched p a b (limit_of params p) :: l)) = (if is_for p q then 1 else 0) + lenN (searches q l)) as Hc.
      { intros q. cbn [searches flat_map]. rewrite lenN_app. fold (searches q l). destruct (is_for p q); reflexivity. }
      rewrite !Hc. destruct p; cbn [is_for]; lia.
    - destruct Hr as (Hk & Hr). specialize (IH _ Hr Hl). change (settled (Settled v :: l)) with (v :: settled l).
      change (searches Initial (Settled v :: l)) with (searches Initial l). change (searches Neighbor (Settled v :: l)) with (searches Neighbor l).
      change (searches Contraction (Settled v :: l)) with (searches Contraction l). rewrite lenN_cons. lia. }
  specialize (G 0 l A1 A2). rewrite A3, A5 in G. cbn [limit_of] in G. nia.
Qed.

Lemma C73_limits_proof c H :
  (forall ops ig hinv Q params fg l, frozen_graph c ops ig -> heap_laws H hinv -> l_build_with_params c H Q ig params = Ok (fg, l) ->
     respects 0 l /\ forall why a b m, In (a, b, m) (searches why l) -> m = limit_of params why) /\
  (forall ig order params fg l, l_build_with_order_with_params c H ig order params = Ok (inl fg, l) ->
     respects 0 l /\ forall why a b m, In (a, b, m) (searches why l) -> m = po_max_settled_nodes_contraction_with_order params).
Proof.
  split.
  - intros ops ig hinv Q params fg l Hf HL E. destruct (C73_counts_proof _ _ _ _ _ _ _ _ _ Hf HL E) as [A1 A2 _ _ _]. auto.
  - intros ig order params fg l E. destruct (C73_order_proof _ _ _ _ _ _ _ E) as (A1 & _ & A3 & A4). split; auto.
    intros why a b m Hi. destruct why; [rewrite A3 in Hi by discriminate; destruct Hi|rewrite A3 in Hi by discriminate; destruct Hi|].
    eapply A4; eauto.
Qed.
Lemma C73_with_order_proof c H ig order params fg l :
  l_build_with_order_with_params c H ig order params = Ok (inl fg, l) ->
  lenN (searches Contraction l) = lenN (fg_edges_bwd fg) /\ searches Initial l = [] /\ searches Neighbor l = [] /\
  lenN (settled l) <= po_max_settled_nodes_contraction_with_order params * lenN (fg_edges_bwd fg).
Proof.
  intros E. pose proof (C73_order_proof _ _ _ _ _ _ _ E) as O. pose proof O as (_ & A2 & A3 & _).
  split; auto. split; [apply A3; discriminate|]. split; [apply A3; discriminate|].
  set (m := po_max_settled_nodes_contraction_with_order params) in *.
  pose proof (only_counts (mkParams (f32_of_Z 0) (f32_of_Z 0) 0 0 m) Contraction _ _ O) as C. apply settled_le in C. simpl in C. lia.
Qed.
Lemma C73_prepare_proof c ops ig H hinv Q params fg l : frozen_graph c ops ig -> heap_laws H hinv ->
  l_build_with_params c H Q ig params = Ok (fg, l) ->
  let stored := lenN (fg_edges_fwd fg) + lenN (fg_edges_bwd fg) in
  lenN (searches Initial l) = lenN (ig_edges ig) /\
  lenN (searches Contraction l) = lenN (fg_edges_bwd fg) /\
  lenN (searches Neighbor l) <= ig_num_nodes ig * stored /\
  lenN (settled l) <= p_max_settled_nodes_initial_relevance params * lenN (ig_edges ig) +
    p_max_settled_nodes_neighbor_relevance params * (ig_num_nodes ig * stored) +
    p_max_settled_nodes_contraction params * lenN (fg_edges_bwd fg).
Proof.
  intros Hf HL E stored. pose proof (C73_counts_proof _ _ _ _ _ _ _ _ _ Hf HL E) as C. pose proof (settled_le _ _ _ _ _ C) as G.
  destruct C as [_ _ A3 A4 A5]. auto.
Qed.
