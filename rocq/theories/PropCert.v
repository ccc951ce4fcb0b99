(** * PropCert: C84, a check after the preparation that its arithmetic did not wrap around *)
From Verif Require Export CertFacts PropPrepare.
From Coq Require Import Lia.
Open Scope N_scope.

(** C84: a build without overflow checks built and prepared a graph, all accepted weights are at most [M] and all stored
    weights at most [X].  If [4 * X] and [2 * X + M] fit into usize then nothing wrapped around: the build with overflow
    checks builds the same graph, and stores the same prepared graph. *)
Theorem C84_small_weights_certify : forall c ops ig fg M X,
  debug_build c = true -> 1 <= umax c -> frozen_graph (unchecked c) ops ig -> prepared (unchecked c) ig fg ->
  (forall e, In e (accepted ops) -> e_weight e <= M) ->
  (forall e, In e (fg_edges_fwd fg) \/ In e (fg_edges_bwd fg) -> fe_weight e <= X) ->
  4 * X <= umax c -> 2 * X + M <= umax c ->
  frozen_graph c ops ig /\ prepared c ig fg.
Proof. exact cert_prepared. Qed.
Print Assumptions C84_small_weights_certify.

(** for the same call, if the order was given *)
Theorem C84_same_call : forall c ops ig H hinv order params fg M X,
  debug_build c = true -> 1 <= umax c -> frozen_graph (unchecked c) ops ig -> heap_laws H hinv ->
  permutation_of_nodes (ig_num_nodes ig) order ->
  prepare_with_order_with_params (unchecked c) H ig order params = Ok (inl fg) ->
  (forall e, In e (accepted ops) -> e_weight e <= M) ->
  (forall e, In e (fg_edges_fwd fg) \/ In e (fg_edges_bwd fg) -> fe_weight e <= X) ->
  4 * X <= umax c -> 2 * X + M <= umax c ->
  prepare_with_order_with_params c H ig order params = Ok (inl fg).
Proof. exact cert_call. Qed.
Print Assumptions C84_same_call.

(** and then the queries of the build without overflow checks are right if the sums they can form fit as well *)
Theorem C84_answers_right : forall c ops ig fg M X K1 K2 sources targets r,
  debug_build c = true -> 1 <= umax c -> frozen_graph (unchecked c) ops ig -> prepared (unchecked c) ig fg ->
  (forall e, In e (accepted ops) -> e_weight e <= M) ->
  (forall e, In e (fg_edges_fwd fg) \/ In e (fg_edges_bwd fg) -> fe_weight e <= X) ->
  4 * X <= umax c -> 2 * X + M <= umax c ->
  (forall v w, In (v, w) sources -> w = WEIGHT_MAX c \/ w <= K1) ->
  (forall v w, In (v, w) targets -> w = WEIGHT_MAX c \/ w <= K2) ->
  K1 + K2 + 2 * (ig_num_nodes ig - 1) * X <= umax c ->
  answer_multi (unchecked c) fg sources targets r ->
  match r with
  | Some p =>
      total (accepted ops) sources targets (sp_get_source p) (sp_get_target p) (sp_get_nodes p) (sp_get_weight p) /\
      (forall s t ns W, total (accepted ops) sources targets s t ns W -> sp_get_weight p <= W)
  | None => forall s t ns W, total (accepted ops) sources targets s t ns W -> WEIGHT_MAX c <= W
  end.
Proof. exact cert_answers. Qed.
Print Assumptions C84_answers_right.

Lemma ex_frozen_unchecked : frozen_graph (unchecked cfg64) ex_ops ex_ig.
Proof. destruct ex_frozen as (H1 & H2 & H3). split; [exact H1|]. split; [exact (le_run cfg64 _ _ _ H2)|exact H3]. Qed.
Lemma ex_prepared_unchecked : prepared (unchecked cfg64) ex_ig ex_fg.
Proof.
  left. exists params_default, list_heap, (fun _ => True), list_pq, (fun _ => True).
  split; [exact list_heap_laws|]. split; [exact list_pq_laws|]. vm_compute. reflexivity.
Qed.
Example C84_case : frozen_graph cfg64 ex_ops ex_ig /\ prepared cfg64 ex_ig ex_fg.
Proof.
  assert (4 * 7 <= umax cfg64) as B1 by (vm_compute; discriminate).
  assert (2 * 7 + 100 <= umax cfg64) as B2 by (vm_compute; discriminate).
  refine (C84_small_weights_certify cfg64 ex_ops ex_ig ex_fg 100 7 eq_refl _ ex_frozen_unchecked ex_prepared_unchecked _ _ B1 B2).
  - vm_compute. discriminate.
  - intros e He. vm_compute in He. repeat (destruct He as [<-|He]; [vm_compute; discriminate|]). destruct He.
  - intros e [He|He]; vm_compute in He; repeat (destruct He as [<-|He]; [vm_compute; discriminate|]); destruct He.
Qed.
Example C84_case_answers : forall s t ns W, total (accepted ex_ops) ex_sources ex_targets s t ns W -> 11 <= W.
Proof.
  assert (4 * 7 <= umax cfg64) as B1 by (vm_compute; discriminate).
  assert (2 * 7 + 100 <= umax cfg64) as B2 by (vm_compute; discriminate).
  refine (proj2 (C84_answers_right cfg64 ex_ops ex_ig ex_fg 100 7 100 100 ex_sources ex_targets (Some ex_path_multi)
    eq_refl _ ex_frozen_unchecked ex_prepared_unchecked _ _ B1 B2 _ _ _ _)).
  - vm_compute. discriminate.
  - intros e He. vm_compute in He. repeat (destruct He as [<-|He]; [vm_compute; discriminate|]). destruct He.
  - intros e [He|He]; vm_compute in He; repeat (destruct He as [<-|He]; [vm_compute; discriminate|]); destruct He.
  - intros v w He. simpl in He.
    repeat (destruct He as [He|He]; [inversion He; first [left; reflexivity|right; vm_compute; discriminate]|]). destruct He.
  - intros v w He. simpl in He.
    repeat (destruct He as [He|He]; [inversion He; first [left; reflexivity|right; vm_compute; discriminate]|]). destruct He.
  - vm_compute. discriminate.
  - exists list_heap, (fun _ => True). split; [exact list_heap_laws|]. left. vm_compute. reflexivity.
Qed.
