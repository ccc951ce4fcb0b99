(** * ModeMono: a normal result of a build with overflow checks is also the result of a build
    without them *)
From Verif Require Export Lib BaseFacts.
From Coq Require Import ZArith.
Open Scope N_scope.

(** the same target, without overflow checks and debug assertions *)
Definition release (c : cfg) : cfg := mkCfg (umax c) false.

Definition le_res {A} (m m' : res A) : Prop := forall a, m = Ok a -> m' = Ok a.

Lemma le_refl {A} (m : res A) : le_res m m.
Proof. intros a H; auto. Qed.
Lemma le_bind {A B} (m m' : res A) (k k' : A -> res B) :
  le_res m m' -> (forall a, le_res (k a) (k' a)) -> le_res (bind m k) (bind m' k').
Proof. intros H1 H2 b. destruct m as [a| |]; simpl; try discriminate. rewrite (H1 a eq_refl). simpl. apply H2. Qed.
Lemma le_foldM {S A} (f f' : S -> A -> res S) l : (forall s a, le_res (f s a) (f' s a)) ->
  forall s, le_res (foldM f l s) (foldM f' l s).
Proof.
  intros Hf. induction l as [|a l IH]; intros s; simpl; [apply le_refl|].
  apply le_bind; auto.
Qed.
Lemma le_uadd c a b : le_res (uadd c a b) (uadd (release c) a b).
Proof.
  unfold uadd; simpl. destruct (a + b <=? umax c); [apply le_refl|].
  destruct (debug_build c); [discriminate|apply le_refl].
Qed.

Ltac mono1 :=
  match goal with
  | |- context [WEIGHT_MAX (release ?c)] => change (WEIGHT_MAX (release c)) with (WEIGHT_MAX c)
  | |- context [umax (release ?c)] => change (umax (release c)) with (umax c)
  | |- context [INVALID_NODE (release ?c)] => change (INVALID_NODE (release c)) with (INVALID_NODE c)
  | |- context [INVALID_EDGE (release ?c)] => change (INVALID_EDGE (release c)) with (INVALID_EDGE c)
  | |- le_res ?a ?a => apply le_refl
  | |- le_res (uadd ?c _ _) (uadd (release ?c) _ _) => apply le_uadd
  | |- le_res (bind _ _) (bind _ _) => apply le_bind; [|intros]
  | |- le_res (foldM _ _ _) (foldM _ _ _) => apply le_foldM; intros
  | |- le_res (if ?b then _ else _) (if ?b then _ else _) => destruct b
  | |- le_res (match ?x with _ => _ end) _ => destruct x
  | |- le_res ((match ?x with _ => _ end) _) _ => destruct x
  | |- le_res (Panic _) _ => intros ? ?; discriminate
  | |- le_res Diverge _ => intros ? ?; discriminate
  | |- le_res _ _ => solve [apply le_refl]
  end.
Ltac mono := repeat (auto; mono1).

(** ** Preparation *)
Lemma le_ws_relax c H curr t wl st a : le_res (ws_relax c H curr t wl st a) (ws_relax (release c) H curr t wl st a).
Proof. unfold ws_relax. mono. Qed.
Local Hint Resolve le_ws_relax : core.
Lemma le_ws_loop c H g t wl sl : forall fuel ws,
  le_res (ws_loop fuel c H ws g t wl sl) (ws_loop fuel (release c) H ws g t wl sl).
Proof. induction fuel as [|rest IH]; [|specialize (IH tt)]; intros ws; cbn [ws_loop]; mono. Qed.
Local Hint Resolve le_ws_loop : core.
Lemma le_find_max c H ws g t wl sl :
  le_res (ws_find_max_weight c H ws g t wl sl) (ws_find_max_weight (release c) H ws g t wl sl).
Proof. unfold ws_find_max_weight. mono. Qed.
Local Hint Resolve le_find_max : core.
Lemma le_ws_init c H ws s a : le_res (ws_init c H ws s a) (ws_init (release c) H ws s a).
Proof. unfold ws_init. mono. Qed.
Local Hint Resolve le_ws_init : core.
Lemma le_handle {S} c H (h h' : S -> PrepGraph -> Shortcut -> res (S * PrepGraph)) s g ws x m :
  (forall s g sc, le_res (h s g sc) (h' s g sc)) ->
  le_res (handle_shortcuts c H h s g ws x m) (handle_shortcuts (release c) H h' s g ws x m).
Proof. intros Hh. unfold handle_shortcuts. mono. Qed.
Lemma le_contract c H g ws x m : le_res (contract_node c H g ws x m) (contract_node (release c) H g ws x m).
Proof. unfold contract_node. apply le_bind; [apply le_handle; intros; apply le_refl|]. intros. mono. Qed.
Local Hint Resolve le_contract : core.
Lemma le_relevance c H g p ws x l m :
  le_res (calc_relevance c H g p ws x l m) (calc_relevance (release c) H g p ws x l m).
Proof.
  unfold calc_relevance. apply le_bind; [apply le_handle|intros; mono].
  intros s g' sc. unfold count_shortcut; simpl. destruct (s <? 2147483647)%Z; [apply le_refl|].
  destruct (debug_build c); mono.
Qed.
Local Hint Resolve le_relevance : core.

Lemma le_finish_edge c d i fg id : le_res (finish_edge c d i fg id) (finish_edge (release c) d i fg id).
Proof.
  unfold finish_edge. apply le_bind; [mono|]. intros e. unfold INVALID_NODE; simpl. destruct (_ =? _).
  - destruct (debug_build c); mono. unfold assert. destruct (_ =? _); simpl; mono.
  - mono.
Qed.
Local Hint Resolve le_finish_edge : core.
Lemma le_finish c n fg : le_res (finish_contraction c n fg) (finish_contraction (release c) n fg).
Proof. unfold finish_contraction, finish_dir. mono. Qed.
Local Hint Resolve le_finish : core.
Lemma le_fg_new c n : le_res (fg_new c n) (fg_new (release c) n).
Proof. unfold fg_new. simpl. destruct (n <=? umax c / 2); [|mono]. apply le_bind; [mono|]. intros m. simpl. mono. Qed.
Local Hint Resolve le_fg_new : core.

Lemma le_build_with_order c H ig order p :
  le_res (build_with_order_with_params c H ig order p) (build_with_order_with_params (release c) H ig order p).
Proof. unfold build_with_order_with_params, run_contraction_with_order. mono. Qed.

Lemma le_init_queue c H Q p st x :
  le_res (init_queue_step c H Q p st x) (init_queue_step (release c) H Q p st x).
Proof. unfold init_queue_step. mono. Qed.
Lemma le_update_nb c H Q p x st y :
  le_res (update_neighbor c H Q p x st y) (update_neighbor (release c) H Q p x st y).
Proof. unfold update_neighbor. mono. Qed.
Local Hint Resolve le_init_queue le_update_nb : core.
Lemma le_cloop c H Q p : forall fuel st,
  le_res (contraction_loop fuel c H Q p st) (contraction_loop fuel (release c) H Q p st).
Proof. induction fuel as [|fuel IH]; intros st; simpl; mono. Qed.
Local Hint Resolve le_cloop : core.
Lemma le_build_with_params c H Q ig p :
  le_res (build_with_params c H Q ig p) (build_with_params (release c) H Q ig p).
Proof. unfold build_with_params, run_contraction. mono. Qed.

(** ** Queries *)
Lemma le_stall c fg d s curr ids :
  le_res (stall_loop c fg d s curr ids) (stall_loop (release c) fg d s curr ids).
Proof. induction ids as [|i r IH]; cbn [stall_loop]; mono. Qed.
Local Hint Resolve le_stall : core.
Lemma le_stallable c fg d s curr : le_res (is_stallable c fg d s curr) (is_stallable (release c) fg d s curr).
Proof. unfold is_stallable. mono. Qed.
Local Hint Resolve le_stallable : core.
Lemma le_relax_edge c H fg d curr s i :
  le_res (relax_edge c H fg d curr s i) (relax_edge (release c) H fg d curr s i).
Proof. unfold relax_edge. mono. Qed.
Local Hint Resolve le_relax_edge : core.
Lemma le_search c H fg d other : forall fuel own bw mn,
  le_res (search_dir fuel c H fg d own other bw mn) (search_dir fuel (release c) H fg d own other bw mn).
Proof. induction fuel as [|fuel IH]; intros own bw mn; cbn [search_dir]; mono. Qed.
Local Hint Resolve le_search : core.
Lemma le_main c H fg : forall fuel fwd bwd bw mn,
  le_res (main_loop fuel c H fg fwd bwd bw mn) (main_loop fuel (release c) H fg fwd bwd bw mn).
Proof. induction fuel as [|rest IH]; [|specialize (IH tt)]; intros fwd bwd bw mn; cbn [main_loop]; mono. Qed.
Local Hint Resolve le_main : core.
Lemma le_init_best c s e : le_res (init_best c s e) (init_best (release c) s e).
Proof. unfold init_best. mono. Qed.
Local Hint Resolve le_init_best : core.
Lemma le_unpack c fg : forall fuel d nodes id r,
  le_res (unpack fuel c fg d nodes id r) (unpack fuel (release c) fg d nodes id r).
Proof. induction fuel as [|fuel IH]; intros; cbn [unpack]; mono. Qed.
Local Hint Resolve le_unpack : core.
Lemma le_unpack_tree c fg d s : forall fuel result node,
  le_res (unpack_tree fuel c fg d s result node) (unpack_tree fuel (release c) fg d s result node).
Proof. induction fuel as [|fuel IH]; intros; cbn [unpack_tree]; mono. Qed.
Local Hint Resolve le_unpack_tree : core.
Lemma le_extract c fg f b m : le_res (extract_nodes c fg f b m) (extract_nodes (release c) fg f b m).
Proof. unfold extract_nodes. mono. Qed.
Local Hint Resolve le_extract : core.
Lemma le_calc_multiple c H pc fg s e :
  le_res (pc_calc_path_multiple c H pc fg s e) (pc_calc_path_multiple (release c) H pc fg s e).
Proof. unfold pc_calc_path_multiple. mono. Qed.

(** ** Input graphs *)
Lemma le_add c g f t w b : le_res (ig_do_add_edge c g f t w b) (ig_do_add_edge (release c) g f t w b).
Proof. unfold ig_do_add_edge. mono. Qed.
Lemma le_run c ops : forall g, le_res (ig_run c g ops) (ig_run (release c) g ops).
Proof.
  induction ops as [|o r IH]; intros g; simpl; mono. destruct o; simpl; unfold ig_add_edge, ig_add_edge_bidir; mono; apply le_add.
Qed.
