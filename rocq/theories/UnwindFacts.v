(** * UnwindFacts: calculators and input graphs after a panic *)
From Verif Require Export Unwind QueryResult.
Open Scope N_scope.

(** ** What every call keeps, whether it returns or panics *)
Definition keeps {S A} (I : S -> Prop) (m : st S A) : Prop := forall s, I s -> I (fst (m s)).

Lemma keeps_ret {S A} (I : S -> Prop) (a : A) : keeps I (st_ret a).
Proof. intros s Hs. auto. Qed.
Lemma keeps_read {S A} (I : S -> Prop) (f : S -> res A) : keeps I (st_read f).
Proof. intros s Hs. auto. Qed.
Lemma keeps_bind {S A B} (I : S -> Prop) (m : st S A) (k : A -> st S B) :
  keeps I m -> (forall a, keeps I (k a)) -> keeps I (st_bind m k).
Proof.
  intros Hm Hk s Hs. unfold st_bind. specialize (Hm s Hs). destruct (m s) as [s' [a| |]]; simpl in *; auto. apply Hk. auto.
Qed.
Lemma keeps_write {S} (I : S -> Prop) (f : S -> res S) : (forall s s', I s -> f s = Ok s' -> I s') -> keeps I (st_write f).
Proof. intros Hf s Hs. unfold st_write. destruct (f s) eqn:E; simpl; eauto. Qed.
Lemma keeps_fold {S L A} (I : S -> Prop) (f : L -> A -> st S L) l : (forall x a, keeps I (f x a)) -> forall x, keeps I (st_fold f l x).
Proof.
  intros Hf. induction l as [|a l IH]; intros x; simpl; [apply keeps_ret|]. apply keeps_bind; auto.
Qed.

Section Keep.
  Variable n : N.

  Lemma keeps_side d f : (forall s s', side_base n s -> f s = Ok s' -> side_base n s') -> keeps (pc_ok n) (st_side d f).
  Proof.
    intros Hf. apply keeps_write. intros pc pc' (Hn & Bf & Bb) E. apply bind_Ok in E as (s & Es & X). injection X as <-.
    destruct d; simpl in *; (split; [auto|split; eauto]); simpl; eauto.
  Qed.
  Lemma set_valid_base v s s' : side_base n s -> w_set_valid v s = Ok s' -> side_base n s'.
  Proof.
    intros [V L] E. unfold w_set_valid in E. apply bind_Ok in E as (fl & Ef & X). injection X as <-. split; auto. simpl.
    assert (v < n) as Hv.
    { unfold vf_set_valid in Ef. apply bind_Ok in Ef as (l & El & _). apply upd_Ok in El as (Hv & _). destruct V as (V1 & _). lia. }
    destruct (vf_set_valid_ok n (s_flags s) v V Hv) as (f' & Ef' & V' & _). congruence.
  Qed.
  Lemma data_base f v s s' : side_base n s -> w_data f v s = Ok s' -> side_base n s'.
  Proof.
    intros [V L] E. unfold w_data in E. apply bind_Ok in E as (d & Ed & E). apply bind_Ok in E as (l & El & X).
    injection X as <-. apply upd_Ok in El as (_ & ->). split; auto. simpl. rewrite lenN_setN. auto.
  Qed.

  Lemma keeps_update d v w p i : keeps (pc_ok n) (st_update_node d v w p i).
  Proof.
    unfold st_update_node. apply keeps_bind; [apply keeps_side, set_valid_base|intros _].
    do 3 (apply keeps_bind; [apply keeps_side, data_base|intros _]). apply keeps_side, data_base.
  Qed.
  Lemma keeps_push d H it : keeps (pc_ok n) (st_side d (w_push H it)).
  Proof. apply keeps_side. intros s s' [V L] E. injection E as <-. split; auto. Qed.
  Lemma keeps_relax c H fg d curr u i : keeps (pc_ok n) (st_relax_edge c H fg d curr u i).
  Proof.
    unfold st_relax_edge. do 3 (apply keeps_bind; [apply keeps_read|intros ?]). destruct (_ <? _); [|apply keeps_ret].
    apply keeps_bind; [apply keeps_update|intros _; apply keeps_push].
  Qed.
  Lemma keeps_search c H fg d : forall fuel bw mn, keeps (pc_ok n) (st_search_dir fuel c H fg d bw mn).
  Proof.
    induction fuel as [|fuel IH]; intros bw mn; cbn [st_search_dir]; [apply keeps_read|].
    intros pc Hpc. destruct (hp_pop H (s_heap (side_of d pc))) as [[curr h']|]; [|auto]. revert pc Hpc.
    apply keeps_bind; [apply keeps_side; intros s s' [V L] E; injection E as <-; split; auto|intros _].
    apply keeps_bind; [apply keeps_read|intros []]; [apply IH|].
    destruct (_ <? _); [apply keeps_ret|].
    apply keeps_bind; [apply keeps_read|intros []]; [apply IH|].
    do 2 (apply keeps_bind; [apply keeps_read|intros ?]).
    apply keeps_bind; [apply keeps_fold; intros; apply keeps_relax|intros _].
    apply keeps_bind; [apply keeps_side, data_base|intros _].
    apply keeps_bind; [apply keeps_read|intros []]; [|apply keeps_ret].
    do 2 (apply keeps_bind; [apply keeps_read|intros ?]). destruct (_ <? _); apply keeps_ret.
  Qed.
  Lemma keeps_main c H fg : forall fuel bw mn, keeps (pc_ok n) (st_main_loop fuel c H fg bw mn).
  Proof.
    induction fuel as [|rest IH]; [|specialize (IH tt)]; intros bw mn; cbn [st_main_loop]; [apply keeps_read|].
    intros pc Hpc.
    assert (keeps (pc_ok n)
      ('(bw1, mn1) <~ (fun pc => st_search_dir (S (List.length (s_heap (pc_fwd pc)))) c H fg Fwd bw mn pc) ;;
       '(bw2, mn2) <~ (fun pc => st_search_dir (S (List.length (s_heap (pc_bwd pc)))) c H fg Bwd bw1 mn1 pc) ;;
       st_main_loop (rest tt) c H fg bw2 mn2)) as G.
    { apply keeps_bind; [intros pc' H'; apply keeps_search; auto|intros [bw1 mn1]].
      apply keeps_bind; [intros pc' H'; apply keeps_search; auto|intros [bw2 mn2]]. apply IH. }
    destruct (s_heap (pc_fwd pc)); [|apply G; auto]. destruct (s_heap (pc_bwd pc)); [auto|apply G; auto].
  Qed.
  Lemma keeps_init c H d items : keeps (pc_ok n) (st_init_side c H d items).
  Proof.
    apply keeps_fold. intros _ [v w]. apply keeps_bind; [apply keeps_read|intros x]. destruct (_ <? _); [|apply keeps_ret].
    apply keeps_bind; [apply keeps_update|intros _; apply keeps_push].
  Qed.

  (** A calculator stays usable, whatever graph it is used on and whatever happens. *)
  Lemma keeps_calc c H fg starts ends : keeps (pc_ok n) (st_calc_path_multiple c H fg starts ends).
  Proof.
    unfold st_calc_path_multiple. do 5 (apply keeps_bind; [apply keeps_read|intros _]).
    do 2 (apply keeps_bind; [apply keeps_side; intros s s' [V L] E; injection E as <-; split; auto|intros _]).
    do 2 (apply keeps_bind; [apply keeps_side; intros s s' [V L] E; injection E as <-; split; auto; apply vf_invalidate_ok; auto|intros _]).
    apply keeps_bind; [apply keeps_read|intros [bw mn]].
    do 2 (apply keeps_bind; [apply keeps_init|intros _]).
    apply keeps_bind; [apply keeps_main|intros [bw' mn']]. destruct (_ =? _); [apply keeps_ret|].
    do 5 (apply keeps_bind; [apply keeps_read|intros ?]). apply keeps_ret.
  Qed.
End Keep.

(** ** The results are those of the model without states of panics *)
Definition mirrors {S A B} (m : S * res A) (r : res B) (f : B -> S * A) : Prop :=
  match r with
  | Ok b => m = (fst (f b), Ok (snd (f b)))
  | Panic p => exists s, m = (s, Panic p)
  | Diverge => exists s, m = (s, Diverge)
  end.

Lemma mirrors_bind {S A B A' B'} (m : st S A) (k : A -> st S B) s (r : res A') (k' : A' -> res B') f g :
  mirrors (m s) r f -> (forall b, r = Ok b -> mirrors (k (snd (f b)) (fst (f b))) (k' b) g) ->
  mirrors (st_bind m k s) (bind r k') g.
Proof.
  intros Hm Hk. unfold st_bind. destruct r as [b|p|]; simpl in Hm.
  - rewrite Hm. apply Hk. auto.
  - destruct Hm as (s' & ->). simpl. eauto.
  - destruct Hm as (s' & ->). simpl. eauto.
Qed.
Lemma mirrors_read {S A} (h : S -> res A) s : mirrors (st_read h s) (h s) (fun a => (s, a)).
Proof. unfold st_read. destruct (h s); simpl; eauto. Qed.
Lemma mirrors_const {S A} (r : res A) (s : S) : mirrors (st_read (fun _ => r) s) r (fun a => (s, a)).
Proof. exact (mirrors_read (fun _ => r) s). Qed.
Lemma mirrors_side d f pc : mirrors (st_side d f pc) (f (side_of d pc)) (fun s => (with_side d pc s, tt)).
Proof. unfold st_side, st_write. destruct (f (side_of d pc)); simpl; eauto. Qed.
Lemma mirrors_ok {S A B} (m : S * res A) (b : B) f s a : m = (s, Ok a) -> f b = (s, a) -> mirrors m (Ok b) f.
Proof. intros -> E. simpl. rewrite E. auto. Qed.

Lemma side_with d pc s : side_of d (with_side d pc s) = s.
Proof. destruct d; auto. Qed.
Lemma side_with_opp d pc s : side_of (opp d) (with_side d pc s) = side_of (opp d) pc.
Proof. destruct d; auto. Qed.
Lemma with_with d pc s s' : with_side d (with_side d pc s) s' = with_side d pc s'.
Proof. destruct d; auto. Qed.
Lemma with_same d pc : with_side d pc (side_of d pc) = pc.
Proof. destruct d, pc; auto. Qed.

Lemma mirrors_own {A} d pc s (h : Side -> res A) :
  mirrors (st_read (fun pc => h (side_of d pc)) (with_side d pc s)) (h s) (fun a => (with_side d pc s, a)).
Proof. pose proof (mirrors_read (fun pc => h (side_of d pc)) (with_side d pc s)) as G. cbv beta in G. rewrite side_with in G. exact G. Qed.
Lemma mirrors_other {A} d pc s (h : Side -> res A) :
  mirrors (st_read (fun pc => h (side_of (opp d) pc)) (with_side d pc s)) (h (side_of (opp d) pc)) (fun a => (with_side d pc s, a)).
Proof. pose proof (mirrors_read (fun pc => h (side_of (opp d) pc)) (with_side d pc s)) as G. cbv beta in G. rewrite side_with_opp in G. exact G. Qed.

Lemma st_side_ok d f pc s : f (side_of d pc) = Ok s -> st_side d f pc = (with_side d pc s, Ok tt).
Proof. intros E. unfold st_side, st_write. rewrite E. auto. Qed.
Lemma w_data_ok f v s dt : getN (s_data s) v = Some dt -> w_data f v s = Ok (mkSide (setN (s_data s) v (f dt)) (s_flags s) (s_heap s)).
Proof.
  intros E. unfold w_data. rewrite (idx_Some _ _ _ E). simpl. rewrite upd_eq; [auto|]. eapply getN_Some_lt; eauto.
Qed.
Lemma setN_setN {A} (l : list A) i x y : setN (setN l i x) i y = setN l i y.
Proof.
  revert i. induction l as [|a l IH]; intros i; simpl; auto. destruct (N.eqb_spec i 0) as [->|Hi]; simpl; auto.
  destruct (N.eqb_spec i 0); [tauto|]. rewrite IH. auto.
Qed.

Section Mirror.
  Variables (c : cfg) (H : heap_ops) (fg : FastGraph).

  Lemma update_writes v w p i s :
    s_update_node s v w p i =
    (s1 <- w_set_valid v s ;;
     s2 <- w_data (fun x => mkData false (d_weight x) (d_parent x) (d_inc_edge x)) v s1 ;;
     s3 <- w_data (fun x => mkData (d_settled x) w (d_parent x) (d_inc_edge x)) v s2 ;;
     s4 <- w_data (fun x => mkData (d_settled x) (d_weight x) p (d_inc_edge x)) v s3 ;;
     w_data (fun x => mkData (d_settled x) (d_weight x) (d_parent x) i) v s4).
  Proof.
    unfold s_update_node, w_set_valid. destruct (vf_set_valid (s_flags s) v) as [fl|r|]; cbn [bind]; auto.
    destruct (N.lt_ge_cases v (lenN (s_data s))) as [Hv|Hv].
    - destruct (getN_lt _ _ Hv) as (dt & Ed). rewrite upd_eq by auto. cbn [bind].
      do 4 (erewrite w_data_ok; [|first [exact Ed|simpl; rewrite getN_setN_eq by (rewrite ?lenN_setN; auto); reflexivity]]; cbn [bind]).
      simpl. rewrite !setN_setN. auto.
    - unfold upd. destruct (N.ltb_spec v (lenN (s_data s))); [lia|]. unfold w_data, idx. simpl. rewrite getN_None by auto. auto.
  Qed.

  Lemma mirrors_side' d f pc s : mirrors (st_side d f (with_side d pc s)) (f s) (fun s' => (with_side d pc s', tt)).
  Proof.
    pose proof (mirrors_side d f (with_side d pc s)) as G. rewrite side_with in G. destruct (f s); simpl in *; auto.
    rewrite with_with in G. auto.
  Qed.

  Lemma mirrors_update d v w p i pc s :
    mirrors (st_update_node d v w p i (with_side d pc s)) (s_update_node s v w p i) (fun s' => (with_side d pc s', tt)).
  Proof.
    rewrite update_writes. unfold st_update_node.
    do 4 (eapply mirrors_bind; [apply mirrors_side'|intros ? _; cbn [fst snd]]). apply mirrors_side'.
  Qed.

  Lemma mirrors_relax d curr i pc s :
    mirrors (st_relax_edge c H fg d curr tt i (with_side d pc s)) (relax_edge c H fg d curr s i) (fun s' => (with_side d pc s', tt)).
  Proof.
    unfold st_relax_edge, relax_edge.
    eapply mirrors_bind; [apply mirrors_const|intros e _; cbn [fst snd]].
    eapply mirrors_bind; [apply mirrors_const|intros w _; cbn [fst snd]].
    eapply mirrors_bind; [apply (mirrors_own d pc _ (fun s => s_get_weight c s (fe_adj e)))|intros cw _; cbn [fst snd]].
    destruct (w <? cw); [|eapply mirrors_ok; reflexivity].
    eapply mirrors_bind; [apply mirrors_update|intros s1 _; cbn [fst snd]].
    apply mirrors_side' with (f := w_push H (mkHeapItem w (fe_adj e))).
  Qed.

  Lemma mirrors_fold {A} d pc (f : unit -> A -> st PathCalculator unit) (g : Side -> A -> res Side) l :
    (forall a s, mirrors (f tt a (with_side d pc s)) (g s a) (fun s' => (with_side d pc s', tt))) ->
    forall s, mirrors (st_fold f l tt (with_side d pc s)) (foldM g l s) (fun s' => (with_side d pc s', tt)).
  Proof.
    intros Hf. induction l as [|a l IH]; intros s; simpl; [reflexivity|].
    eapply mirrors_bind; [apply Hf|]. intros s' _. cbn [fst snd]. apply IH.
  Qed.

  Lemma settle_writes v s :
    s_settle s v = w_data (fun x => mkData true (d_weight x) (d_parent x) (d_inc_edge x)) v s.
  Proof. reflexivity. Qed.

  Lemma mirrors_search d : forall fuel pc s bw mn,
    mirrors (st_search_dir fuel c H fg d bw mn (with_side d pc s))
      (search_dir fuel c H fg d s (side_of (opp d) pc) bw mn)
      (fun '(s', bw', mn') => (with_side d pc s', (bw', mn'))).
  Proof.
    induction fuel as [|fuel IH]; intros pc s bw mn; cbn [st_search_dir search_dir]; [simpl; unfold st_read; eauto|].
    rewrite side_with. destruct (hp_pop H (s_heap s)) as [[curr h']|]; [|reflexivity].
    unfold st_bind at 1. rewrite (st_side_ok d (fun s => Ok (s_set_heap s h')) (with_side d pc s) (s_set_heap s h')) by (rewrite side_with; auto).
    rewrite with_with. set (s1 := s_set_heap s h').
    eapply mirrors_bind; [apply (mirrors_own d pc _ (fun s => s_is_settled s (hi_node curr)))|intros st _; cbn [fst snd]].
    destruct st; [apply IH|]. destruct (bw <? hi_weight curr); [reflexivity|].
    eapply mirrors_bind; [apply (mirrors_own d pc _ (fun s => is_stallable c fg d s curr))|intros st _; cbn [fst snd]].
    destruct st; [apply IH|].
    eapply mirrors_bind; [apply mirrors_const|intros b _; cbn [fst snd]].
    eapply mirrors_bind; [apply mirrors_const|intros e _; cbn [fst snd]].
    eapply mirrors_bind; [apply mirrors_fold; intros; apply mirrors_relax|intros s2 _; cbn [fst snd]].
    eapply mirrors_bind; [rewrite settle_writes; apply mirrors_side'|intros s3 _; cbn [fst snd]].
    eapply mirrors_bind; [apply (mirrors_other d pc _ (fun s => vf_is_valid (s_flags s) (hi_node curr)))|intros v _; cbn [fst snd]].
    destruct v; [|reflexivity].
    eapply mirrors_bind; [apply (mirrors_other d pc _ (fun s => s_get_weight c s (hi_node curr)))|intros ow _; cbn [fst snd]].
    eapply mirrors_bind; [apply mirrors_const|intros w _; cbn [fst snd]].
    destruct (w <? bw); reflexivity.
  Qed.

  Lemma mirrors_main k : forall fuel f b bw mn,
    mirrors (st_main_loop fuel c H fg bw mn (mkPC k f b)) (main_loop fuel c H fg f b bw mn)
      (fun '(f', b', bw', mn') => (mkPC k f' b', (bw', mn'))).
  Proof.
    induction fuel as [|rest IH]; [|specialize (IH tt)]; intros f b bw mn; cbn [st_main_loop main_loop]; [simpl; unfold st_read; eauto|].
    cbn [pc_fwd pc_bwd].
    assert (mirrors
      (('(bw1, mn1) <~ (fun pc => st_search_dir (S (List.length (s_heap (pc_fwd pc)))) c H fg Fwd bw mn pc) ;;
        '(bw2, mn2) <~ (fun pc => st_search_dir (S (List.length (s_heap (pc_bwd pc)))) c H fg Bwd bw1 mn1 pc) ;;
        st_main_loop (rest tt) c H fg bw2 mn2) (mkPC k f b))
      ('(fwd', bw1, mn1) <- search_dir (S (List.length (s_heap f))) c H fg Fwd f b bw mn ;;
       '(bwd', bw2, mn2) <- search_dir (S (List.length (s_heap b))) c H fg Bwd b fwd' bw1 mn1 ;;
       main_loop (rest tt) c H fg fwd' bwd' bw2 mn2)
      (fun '(f', b', bw', mn') => (mkPC k f' b', (bw', mn')))) as G.
    { eapply mirrors_bind; [exact (mirrors_search Fwd _ (mkPC k f b) f bw mn)|]. intros [[f' bw1] mn1] _. cbn [fst snd].
      eapply mirrors_bind; [exact (mirrors_search Bwd _ (mkPC k f' b) b bw1 mn1)|]. intros [[b' bw2] mn2] _. cbn [fst snd].
      apply IH. }
    destruct (s_heap f) eqn:Ef; [|exact G]. destruct (s_heap b) eqn:Eb; [reflexivity|exact G].
  Qed.

  Lemma mirrors_init d items pc s :
    mirrors (st_init_side c H d items (with_side d pc s)) (init_side c H s items) (fun s' => (with_side d pc s', tt)).
  Proof.
    unfold st_init_side, init_side. revert s. apply mirrors_fold. intros [v w] s.
    eapply mirrors_bind; [apply (mirrors_own d pc _ (fun s => s_get_weight c s v))|intros cw _; cbn [fst snd]].
    destruct (w <? cw); [|reflexivity].
    eapply mirrors_bind; [apply mirrors_update|intros s1 _; cbn [fst snd]].
    apply mirrors_side' with (f := w_push H (mkHeapItem w v)).
  Qed.

  Lemma mirrors_calc starts ends pc :
    mirrors (st_calc_path_multiple c H fg starts ends pc) (pc_calc_path_multiple c H pc fg starts ends) (fun p => p).
  Proof.
    unfold st_calc_path_multiple, pc_calc_path_multiple.
    eapply mirrors_bind; [apply (mirrors_read (fun pc => assert (fg_num_nodes fg =? pc_num_nodes pc) _))|intros [] _; cbn [fst snd]].
    do 2 (eapply mirrors_bind; [apply mirrors_const|intros [] _; cbn [fst snd]]).
    eapply mirrors_bind; [apply (mirrors_read (fun pc => assert (forallb (fun '(n, _) => n <? pc_num_nodes pc) starts) _))|intros [] _; cbn [fst snd]].
    eapply mirrors_bind; [apply (mirrors_read (fun pc => assert (forallb (fun '(n, _) => n <? pc_num_nodes pc) ends) _))|intros [] _; cbn [fst snd]].
    destruct pc as [k f b]. cbn [pc_num_nodes pc_fwd pc_bwd].
    do 4 (unfold st_bind at 1; erewrite st_side_ok by reflexivity; cbn [with_side side_of pc_fwd pc_bwd pc_num_nodes]).
    fold (reset_side f) (reset_side b). 
    eapply mirrors_bind; [apply mirrors_const|intros [bw mn] _; cbn [fst snd]].
    eapply mirrors_bind; [exact (mirrors_init Fwd starts (mkPC k f (reset_side b)) (reset_side f))|intros f1 _; cbn [fst snd]].
    eapply mirrors_bind; [exact (mirrors_init Bwd ends (mkPC k f1 b) (reset_side b))|intros b1 _; cbn [fst snd]].
    eapply mirrors_bind; [apply mirrors_main|intros [[[f2 b2] bw'] mn'] _; cbn [fst snd]].
    destruct (mn' =? INVALID_NODE c); [reflexivity|].
    eapply mirrors_bind; [apply mirrors_const|intros [] _; cbn [fst snd]].
    eapply mirrors_bind; [exact (mirrors_read (fun pc => extract_nodes c fg (pc_fwd pc) (pc_bwd pc) mn') (mkPC k f2 b2))|intros nodes _; cbn [fst snd]].
    do 3 (eapply mirrors_bind; [apply mirrors_const|intros ? _; cbn [fst snd]]). reflexivity.
  Qed.
End Mirror.
