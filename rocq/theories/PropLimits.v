(** * PropLimits: the linear bounds of C60 need the limits on settled nodes *)
From Verif Require Export PropShortcut PropQuery.
Open Scope N_scope.

(** Level [i] joins nodes 3i+3 and 3i+4 with each other over node 3i and, lighter, over node 3i+5. *)
Definition doubling_level (i back : N) : list ig_op :=
  let a := 3 * i in let u := 3 * i + 3 in let v := 3 * i + 4 in let y := 3 * i + 5 in
  [OpAddEdge u a 1; OpAddEdge a u back; OpAddEdge u y 50; OpAddEdge y u 1;
   OpAddEdge v a 1; OpAddEdge a v back; OpAddEdge v y 50; OpAddEdge y v 1].
(** Twelve levels above two nodes that are joined by edges of weight [M]. *)
Definition doubling_ops (M : N) : list ig_op :=
  [OpAddEdge 0 1 M; OpAddEdge 1 0 M; OpAddEdge 0 2 1] ++
  concat (map (fun i => doubling_level i 200) [0; 1; 2; 3; 4; 5; 6; 7; 8; 9; 10]) ++
  doubling_level 11 411 ++ [OpFreeze].
Definition doubling_order : list N :=
  [0; 1; 3; 4; 6; 7; 9; 10; 12; 13; 15; 16; 18; 19; 21; 22; 24; 25; 27; 28; 30; 31; 33; 34; 36; 37;
   2; 5; 8; 11; 14; 17; 20; 23; 26; 29; 32; 35; 38].
Definition doubling_ig (M : N) : InputGraph := get_ok (ig_run cfg64 ig_new (doubling_ops M)) ig_new.
Definition wrapping_M : N := 4503599627370295.
Definition small_fg : FastGraph :=
  Eval vm_compute in
    match prepare_with_order_with_params cfg64 list_heap (doubling_ig 1000) doubling_order (mkParamsWithOrder 2) with
    | Ok (inl g) => g | _ => fg_dummy end.
Definition wrapped_fg : FastGraph :=
  Eval vm_compute in
    match prepare_with_order_with_params (unchecked cfg64) list_heap (doubling_ig wrapping_M) doubling_order
            (mkParamsWithOrder 2) with
    | Ok (inl g) => g | _ => fg_dummy end.

Ltac all_ops := intros o Ho; vm_compute in Ho;
  repeat (destruct Ho as [<-|Ho]; [cbn; repeat split; discriminate|]); destruct Ho.
Ltac all_edges := intros e He; vm_compute in He;
  repeat (destruct He as [<-|He]; [vm_compute; discriminate|]); destruct He.
Lemma doubling_frozen_small : frozen_graph cfg64 (doubling_ops 1000) (doubling_ig 1000).
Proof. split; [all_ops|split; vm_compute; reflexivity]. Qed.
Lemma doubling_frozen : frozen_graph cfg64 (doubling_ops wrapping_M) (doubling_ig wrapping_M).
Proof. split; [all_ops|split; vm_compute; reflexivity]. Qed.
Lemma doubling_frozen_unchecked : frozen_graph (unchecked cfg64) (doubling_ops wrapping_M) (doubling_ig wrapping_M).
Proof. split; [all_ops|split; vm_compute; reflexivity]. Qed.
Lemma doubling_perm : permutation_of_nodes 39 doubling_order.
Proof.
  split.
  - unfold doubling_order. repeat constructor; simpl; intuition discriminate.
  - intros x. split.
    + intros H. repeat (destruct H as [<-|H]; [reflexivity|]). destruct H.
    + intros H. unfold doubling_order. simpl.
      assert (x = 0 \/ x = 1 \/ x = 2 \/ x = 3 \/ x = 4 \/ x = 5 \/ x = 6 \/ x = 7 \/ x = 8 \/ x = 9 \/
        x = 10 \/ x = 11 \/ x = 12 \/ x = 13 \/ x = 14 \/ x = 15 \/ x = 16 \/ x = 17 \/ x = 18 \/ x = 19 \/
        x = 20 \/ x = 21 \/ x = 22 \/ x = 23 \/ x = 24 \/ x = 25 \/ x = 26 \/ x = 27 \/ x = 28 \/ x = 29 \/
        x = 30 \/ x = 31 \/ x = 32 \/ x = 33 \/ x = 34 \/ x = 35 \/ x = 36 \/ x = 37 \/ x = 38)
        as D by lia.
      repeat (destruct D as [->|D]; [tauto|]). subst. tauto.
Qed.

(** With a limit of two settled nodes a stored weight can exceed the bound of [C60_stored_weights]: here it
    is more than a hundred times (n-1)*M. *)
Theorem C60_low_limits_break_it : exists c ops ig fg M order limit u v w,
  debug_build c = true /\ frozen_graph c ops ig /\ 0 < limit /\
  permutation_of_nodes (ig_num_nodes ig) order /\ prepared_by_order c ig order (mkParamsWithOrder limit) fg /\
  (forall e, In e (accepted ops) -> e_weight e <= M) /\
  stored_edge fg u v w /\ 100 * ((ig_num_nodes ig - 1) * M) < w.
Proof.
  exists cfg64, (doubling_ops 1000), (doubling_ig 1000), small_fg, 1000, doubling_order, 2, 36, 37, 4919306.
  split; [reflexivity|]. split; [exact doubling_frozen_small|]. split; [reflexivity|].
  split; [exact doubling_perm|]. split.
  { exists list_heap, (fun _ => True). split; [exact list_heap_laws|]. vm_compute. reflexivity. }
  split; [all_edges|]. split; [vm_compute; tauto|vm_compute; reflexivity].
Qed.
Print Assumptions C60_low_limits_break_it.

(** So preparation can overflow although the bound of [C60_prepare_with_order_succeeds] holds. *)
Theorem C60_low_limits_overflow : exists c ops ig M order limit H hinv,
  debug_build c = true /\ frozen_graph c ops ig /\ 0 < limit /\ heap_laws H hinv /\
  permutation_of_nodes (ig_num_nodes ig) order /\
  (forall e, In e (accepted ops) -> e_weight e <= M) /\ prep_bound_unlimited c (ig_num_nodes ig) M /\
  prepare_with_order_with_params c H ig order (mkParamsWithOrder limit) = Panic POverflow.
Proof.
  exists cfg64, (doubling_ops wrapping_M), (doubling_ig wrapping_M), wrapping_M, doubling_order, 2, list_heap, (fun _ => True).
  split; [reflexivity|]. split; [exact doubling_frozen|]. split; [reflexivity|]. split; [exact list_heap_laws|].
  split; [exact doubling_perm|]. split; [all_edges|].
  split; [repeat split; vm_compute; discriminate|vm_compute; reflexivity].
Qed.
Print Assumptions C60_low_limits_overflow.

(** With the default parameters the same graph is prepared without overflow. *)
Definition plain_fg : FastGraph :=
  Eval vm_compute in get_ok (prepare cfg64 list_heap list_pq (doubling_ig wrapping_M)) fg_dummy.
Lemma doubling_dist : is_dist (accepted (doubling_ops wrapping_M)) 36 37 51.
Proof.
  split.
  { exists [36; 38; 37]. apply (walk_cons _ 36 38 37 50 [38; 37] 1); [vm_compute; tauto|].
    apply (walk_cons _ 38 37 37 1 [37] 0); [vm_compute; tauto|]. constructor. }
  apply (C01_weight_is_minimal cfg64 (doubling_ops wrapping_M) (doubling_ig wrapping_M) plain_fg 36 37
           (mkSP 36 37 51 [36; 38; 37])); [reflexivity|exact doubling_frozen| |].
  - left. exists params_default, list_heap, (fun _ => True), list_pq, (fun _ => True).
    split; [exact list_heap_laws|]. split; [exact list_pq_laws|]. vm_compute. reflexivity.
  - exists list_heap, (fun _ => True). split; [exact list_heap_laws|]. left. vm_compute. reflexivity.
Qed.

(** And in a build without overflow checks a stored weight can be wrong within the bounds of
    [C60_unchecked_build]: the distance is 51, the stored shortcut claims weight 10. *)
Theorem C60_low_limits_wrong_weight : exists c ops ig fg M order limit u v,
  debug_build c = true /\ frozen_graph (unchecked c) ops ig /\ 0 < limit /\
  permutation_of_nodes (ig_num_nodes ig) order /\
  prepared_by_order (unchecked c) ig order (mkParamsWithOrder limit) fg /\
  (forall e, In e (accepted ops) -> e_weight e <= M) /\ prep_bound_unlimited c (ig_num_nodes ig) M /\
  0 + 0 + 2 * (ig_num_nodes ig - 1) * ((ig_num_nodes ig - 1) * M) <= umax c /\
  stored_edge fg u v 10 /\ is_dist (accepted ops) u v 51.
Proof.
  exists cfg64, (doubling_ops wrapping_M), (doubling_ig wrapping_M), wrapped_fg, wrapping_M, doubling_order, 2, 36, 37.
  split; [reflexivity|]. split; [exact doubling_frozen_unchecked|]. split; [reflexivity|].
  split; [exact doubling_perm|]. split.
  { exists list_heap, (fun _ => True). split; [exact list_heap_laws|]. vm_compute. reflexivity. }
  split; [all_edges|]. split; [repeat split; vm_compute; discriminate|].
  split; [vm_compute; discriminate|].
  split; [vm_compute; tauto|exact doubling_dist].
Qed.
Print Assumptions C60_low_limits_wrong_weight.
