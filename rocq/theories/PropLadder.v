(** * PropLadder: limits on settled nodes and exponential weights (C79) *)
From Verif Require Export PropLimits.
From Verif Require Export LadderProps.
Open Scope N_scope.

(** Whatever the limit on settled nodes: there are graphs of 3L+1+limit nodes with weights up to M, for which
    preparation with that limit either does not succeed or stores a weight of at least M * 2^L. *)
Theorem C79_weights_double : forall c H hinv L limit M,
  debug_build c = true -> heap_laws H hinv -> 2 <= limit -> L + 4 <= M ->
  3 * ladder_nodes L limit <= umax c / 2 -> rung_weight L M L < umax c ->
  exists ig, frozen_graph c (ladder_calls L limit M) ig /\ ig_num_nodes ig = 3 * L + 1 + limit /\
    permutation_of_nodes (ig_num_nodes ig) (ladder_order L limit) /\
    (forall e, In e (accepted (ladder_calls L limit M)) -> e_weight e <= M) /\
    forall fg, prepare_with_order_with_params c H ig (ladder_order L limit) (mkParamsWithOrder limit) = Ok (inl fg) ->
      exists w, stored_edge fg (3 * L) (3 * L + 1) w /\ M * 2 ^ L <= w.
Proof. exact C79_weights_proof. Qed.
Print Assumptions C79_weights_double.

(** In a word that is large enough, preparation of these graphs does succeed. *)
Theorem C79_weights_double_and_succeed : forall c H hinv L limit M,
  debug_build c = true -> heap_laws H hinv -> 2 <= limit -> L + 4 <= M ->
  3 * ladder_nodes L limit <= umax c / 2 -> prep_bound c (ladder_nodes L limit) M ->
  exists ig fg w, frozen_graph c (ladder_calls L limit M) ig /\ ig_num_nodes ig = 3 * L + 1 + limit /\
    prepare_with_order_with_params c H ig (ladder_order L limit) (mkParamsWithOrder limit) = Ok (inl fg) /\
    stored_edge fg (3 * L) (3 * L + 1) w /\ M * 2 ^ L <= w.
Proof. exact C79_succeed_proof. Qed.
Print Assumptions C79_weights_double_and_succeed.

(** The two nodes are close to each other all the same: the distance is at most L+4. *)
Theorem C79_nodes_are_close : forall L limit M, 2 <= limit -> L + 4 <= M -> 1 <= L ->
  exists p, walk (accepted (ladder_calls L limit M)) (3 * L) (3 * L + 1) p (L + 4).
Proof. exact C79_close_proof. Qed.
Print Assumptions C79_nodes_are_close.

(** When the weight of the top rung does not fit, preparation overflows, with every heap. *)
Theorem C79_overflow : forall c H hinv L limit M,
  debug_build c = true -> heap_laws H hinv -> 2 <= limit -> L + 4 <= M -> 1 <= L ->
  ladder_nodes L limit * ladder_nodes L limit <= umax c / 2 ->
  rung_weight L M (L - 1) + (L + 4) < umax c -> umax c < rung_weight L M L ->
  exists ig, frozen_graph c (ladder_calls L limit M) ig /\ ig_num_nodes ig = 3 * L + 1 + limit /\
    permutation_of_nodes (ig_num_nodes ig) (ladder_order L limit) /\
    prepare_with_order_with_params c H ig (ladder_order L limit) (mkParamsWithOrder limit) = Panic POverflow.
Proof. exact C79_overflow_all_proof. Qed.
Print Assumptions C79_overflow.

(** So it does with default parameters on a 64 bit platform, for a graph of 263 nodes and weights up to 1000. *)
Theorem C79_default_parameters_overflow : exists ops ig order,
  frozen_graph cfg64 ops ig /\ ig_num_nodes ig = 263 /\ permutation_of_nodes 263 order /\
  (forall e, In e (accepted ops) -> e_weight e <= 1000) /\
  forall H hinv, heap_laws H hinv -> prepare_with_order cfg64 H ig order = Panic POverflow.
Proof. exact C79_default_proof. Qed.
Print Assumptions C79_default_parameters_overflow.

(** A ladder of three rungs above the base, prepared with a limit of four. *)
Example C79_case : exists fg,
  prepare_with_order_with_params cfg64 list_heap
    (get_ok (ig_run cfg64 ig_new (ladder_calls 3 4 1000)) ig_new) (ladder_order 3 4) (mkParamsWithOrder 4) = Ok (inl fg) /\
  existsb (fun e => (e_from e =? 9) && (e_to e =? 10) && (e_weight e =? 8056)) (stored (fg_edges_fwd fg)) = true.
Proof. eexists. split; vm_compute; reflexivity. Qed.
Example C79_case_weight : rung_weight 3 1000 3 = 8056 /\ ladder_nodes 3 4 = 14 /\ prep_bound cfg64 (ladder_nodes 3 4) 1000 /\
  3 * ladder_nodes 3 4 <= umax cfg64 / 2.
Proof. repeat split; vm_compute; try reflexivity; discriminate. Qed.
Example C79_case_overflow : ladder_nodes 54 100 * ladder_nodes 54 100 <= umax cfg64 / 2 /\
  rung_weight 54 1000 53 + 58 < umax cfg64 /\ umax cfg64 < rung_weight 54 1000 54.
Proof. repeat split; vm_compute; try reflexivity; discriminate. Qed.
