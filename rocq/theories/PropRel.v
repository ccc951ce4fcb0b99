(** * PropRel: preparation ends, and release builds stay safe when weights wrap (C69) *)
From Verif Require Import SpecRel RelProps ApiFacts.
From Verif Require Import Examples.
Open Scope N_scope.

(** C69: preparing a frozen graph ends, with a result or with a panic, in both build modes: for all weights, parameters,
    and orders (also orders that list nodes twice or list numbers that are no nodes). *)
Theorem C69_preparation_ends : forall c ops ig H hinv, 1 <= umax c -> frozen_graph c ops ig -> heap_laws H hinv ->
  (forall Q qinv, pq_laws Q qinv -> prepare c H Q ig <> Diverge) /\
  (forall Q qinv params, pq_laws Q qinv -> prepare_with_params c H Q ig params <> Diverge) /\
  (forall order, prepare_with_order c H ig order <> Diverge) /\
  (forall order params, prepare_with_order_with_params c H ig order params <> Diverge).
Proof. exact C69_ends_proof. Qed.
Print Assumptions C69_preparation_ends.

(** C69: in a release build, preparation never panics because of the weights: it returns a graph unless the number of
    nodes comes near the square root of what a vector can hold. *)
Theorem C69_release_preparation_returns : forall c ops ig H hinv Q qinv, debug_build c = false ->
  (forall e, In e (accepted ops) -> e_from e < umax c /\ e_to e < umax c) ->
  ig_num_nodes ig * ig_num_nodes ig <= umax c / 2 -> ig_num_nodes ig + 1 <= umax c / 2 ->
  frozen_graph c ops ig -> heap_laws H hinv -> pq_laws Q qinv ->
  (forall params, exists fg, prepare_with_params c H Q ig params = Ok fg) /\
  (forall order params, permutation_of_nodes (ig_num_nodes ig) order ->
     exists fg, prepare_with_order_with_params c H ig order params = Ok (inl fg)).
Proof. exact C69_success_proof. Qed.
Print Assumptions C69_release_preparation_returns.

(** C69: on a graph prepared by a release build every proper query returns, whatever the weights; a returned node list is a
    path of added edges from a listed source to a listed target.  (Its reported weight can be wrong, see C16_refuted.) *)
Theorem C69_release_answers_are_paths : forall c ops ig fg H hinv pc sources targets, debug_build c = false -> 1 <= umax c ->
  frozen_graph c ops ig -> prepared c ig fg -> heap_laws H hinv -> calculator c (ig_num_nodes ig) pc ->
  sources <> [] -> targets <> [] -> (forall v w, In (v, w) (sources ++ targets) -> v < ig_num_nodes ig) ->
  exists pc' r, pc_calc_path_multiple c H pc fg sources targets = Ok (pc', r) /\
    calc_path_multiple c H fg sources targets = Ok r /\
    forall p, r = Some p -> (exists w, In (sp_get_source p, w) sources) /\ (exists w, In (sp_get_target p, w) targets) /\
      exists W, walk (accepted ops) (sp_get_source p) (sp_get_target p) (sp_get_nodes p) W.
Proof. exact C69_query_proof. Qed.
Print Assumptions C69_release_answers_are_paths.

(** C69: in both build modes every edge of a prepared graph is an input edge, or stands for two stored edges with its
    weight being theirs added modulo the range of usize. *)
Theorem C69_stored_weights : forall c ops ig fg d id e, 1 <= umax c ->
  frozen_graph c ops ig -> prepared c ig fg -> getN (fg_edges fg d) id = Some e -> edge_or_sum c (ig_edges ig) fg d e.
Proof. exact C69_stored_proof. Qed.
Print Assumptions C69_stored_weights.

(** Two edges of weight 2^63 and one of weight 10.  The shortcut over node 1 has weight 0 in a release build; a debug build
    panics. *)
Definition ex_wrap_ops : list ig_op :=
  [OpAddEdge 0 1 9223372036854775808; OpAddEdge 1 2 9223372036854775808; OpAddEdge 0 2 10; OpFreeze].
Definition ex_wrap_ig : InputGraph :=
  mkInputGraph [mkEdge 0 1 9223372036854775808; mkEdge 0 2 10; mkEdge 1 2 9223372036854775808] 3 true.
Definition ex_wrap_fg : FastGraph :=
  Eval vm_compute in match prepare_with_order (unchecked cfg64) list_heap ex_wrap_ig [1; 0; 2] with Ok (inl fg) => fg | _ => ex_fg end.
Lemma ex_wrap_frozen : frozen_graph (unchecked cfg64) ex_wrap_ops ex_wrap_ig.
Proof.
  split; [|split; vm_compute; reflexivity]. intros o [<-|[<-|[<-|[<-|[]]]]]; cbn; repeat split; discriminate.
Qed.
Lemma ex_wrap_perm : permutation_of_nodes 3 [1; 0; 2].
Proof.
  split; [repeat constructor; simpl; intuition discriminate|].
  intros x. simpl. split; [intros [<-|[<-|[<-|[]]]]; lia|]. intros Hx.
  assert (x = 0 \/ x = 1 \/ x = 2) as [-> |[-> | ->]] by lia; auto.
Qed.
Lemma ex_wrap_prepared : prepared (unchecked cfg64) ex_wrap_ig ex_wrap_fg.
Proof.
  right. exists [1; 0; 2], params_with_order_default. split; [exact ex_wrap_perm|].
  exists list_heap, (fun _ => True). split; [exact list_heap_laws|]. vm_compute. reflexivity.
Qed.
Example C69_case :
  frozen_graph (unchecked cfg64) ex_wrap_ops ex_wrap_ig /\ prepared (unchecked cfg64) ex_wrap_ig ex_wrap_fg /\
  calculator (unchecked cfg64) 3 (create_calculator (unchecked cfg64) ex_wrap_fg) /\
  (exists p, calc_path (unchecked cfg64) list_heap ex_wrap_fg 0 2 = Ok (Some p) /\ sp_get_nodes p = [0; 1; 2] /\ sp_get_weight p = 0) /\
  prepare_with_order cfg64 list_heap ex_wrap_ig [1; 0; 2] = Panic POverflow /\
  (exists r, prepare_with_order cfg64 list_heap ex_wrap_ig [1; 1; 7] = Panic r).
Proof.
  split; [exact ex_wrap_frozen|]. split; [exact ex_wrap_prepared|]. split; [constructor; reflexivity|].
  split; [eexists; split; [vm_compute; reflexivity|split; reflexivity]|].
  split; [vm_compute; reflexivity|]. eexists. vm_compute. reflexivity.
Qed.
Example C69_case_returns : exists fg, prepare_with_order_with_params (unchecked cfg64) list_heap ex_wrap_ig [1; 0; 2] params_with_order_default = Ok (inl fg).
Proof.
  apply (C69_release_preparation_returns (unchecked cfg64) ex_wrap_ops ex_wrap_ig list_heap (fun _ => True) list_pq (fun _ => True)).
  - reflexivity.
  - intros e He. vm_compute in He. destruct He as [<-|[<-|[<-|[]]]]; simpl; lia.
  - vm_compute. discriminate.
  - vm_compute. discriminate.
  - exact ex_wrap_frozen.
  - exact list_heap_laws.
  - exact list_pq_laws.
  - exact ex_wrap_perm.
Qed.
