(** * PropDocs: C82, what the documentation says about the limits is not guaranteed *)
From Verif Require Import SpecEffort SpecEffortPrep EffortPrep PropFill.
From Verif Require Import Examples.
From Coq Require Import Lia.
Open Scope N_scope.

(** Two hubs 0 and 1 that are both joined with each of eight leaves. *)
Definition hubs_ops : list ig_op :=
  flat_map (fun i => [OpAddEdgeBidir 0 i 1; OpAddEdgeBidir 1 i 1]) (rangeN 2 10) ++ [OpFreeze].
Definition hubs_ig : InputGraph := Eval vm_compute in get_ok (ig_run cfg64 ig_new hubs_ops) ig_new.
Definition hubs_order : list N := 0 :: rangeN 2 10 ++ [1].

(** C82: "higher values mean slower preparation" does not hold for every graph: here a higher limit for the same order
    stores fewer edges, so that there are fewer searches, which together settle fewer nodes. *)
Theorem C82_higher_limit_can_save_effort : exists ops ig order k1 k2 fg1 l1 fg2 l2,
  frozen_graph cfg64 ops ig /\ permutation_of_nodes (ig_num_nodes ig) order /\ 0 < k1 /\ k1 < k2 /\
  l_build_with_order_with_params cfg64 list_heap ig order (mkParamsWithOrder k1) = Ok (inl fg1, l1) /\
  l_build_with_order_with_params cfg64 list_heap ig order (mkParamsWithOrder k2) = Ok (inl fg2, l2) /\
  2 * lenN (searches Contraction l2) < lenN (searches Contraction l1) /\ 2 * lenN (settled l2) < lenN (settled l1).
Proof.
  exists hubs_ops, hubs_ig, hubs_order, 1, 500. eexists _, _, _, _.
  split.
  { split; [|split; [vm_compute; reflexivity|reflexivity]].
    assert (forallb (fun o => match o with OpAddEdgeBidir f t w => (f <=? 100) && (t <=? 100) && (w <=? 100) | OpFreeze => true | _ => false end)
      hubs_ops = true) as HB by (vm_compute; reflexivity).
    intros o Ho. rewrite forallb_forall in HB. apply HB in Ho.
    destruct o; try discriminate; cbn; try exact Logic.I. apply andb_prop in Ho as [Ho H3]. apply andb_prop in Ho as [H1 H2].
    apply N.leb_le in H1, H2, H3. lia. }
  split.
  { split; [unfold hubs_order; apply NoDup_count_occ' with (decA := N.eq_dec); intros x Hx; vm_compute in Hx;
      repeat (destruct Hx as [<-|Hx]; [vm_compute; reflexivity|]); destruct Hx|].
    intros x. change (ig_num_nodes hubs_ig) with 10. unfold hubs_order. cbn [In]. rewrite in_app_iff, rangeN_In. cbn. lia. }
  split; [reflexivity|]. split; [reflexivity|].
  split; [vm_compute; reflexivity|]. split; [vm_compute; reflexivity|].
  vm_compute. split; reflexivity.
Qed.
Print Assumptions C82_higher_limit_can_save_effort.

(** C82: "higher values mean faster queries" does not hold for every graph either, not even on average or when the higher
    value is no limit at all: here, with the higher limit, no query pops fewer items or follows fewer edges, and some
    query does more of both. *)
Theorem C82_higher_limit_can_slow_queries : exists ops ig order k1 k2 fg1 fg2,
  frozen_graph cfg64 ops ig /\ permutation_of_nodes (ig_num_nodes ig) order /\ 0 < k1 /\ k1 < k2 /\ ig_num_nodes ig <= k2 /\
  prepared_by_order cfg64 ig order (mkParamsWithOrder k1) fg1 /\ prepared_by_order cfg64 ig order (mkParamsWithOrder k2) fg2 /\
  (forall s t, s < ig_num_nodes ig -> t < ig_num_nodes ig -> exists pc1 r1 l1 pc2 r2 l2,
     l_calc_path_multiple cfg64 list_heap (create_calculator cfg64 fg1) fg1 [(s, 0)] [(t, 0)] = Ok (pc1, r1, l1) /\
     l_calc_path_multiple cfg64 list_heap (create_calculator cfg64 fg2) fg2 [(s, 0)] [(t, 0)] = Ok (pc2, r2, l2) /\
     lenN (popped l1) <= lenN (popped l2) /\ lenN (relaxed l1) <= lenN (relaxed l2)) /\
  (exists s t pc1 r1 l1 pc2 r2 l2,
     l_calc_path_multiple cfg64 list_heap (create_calculator cfg64 fg1) fg1 [(s, 0)] [(t, 0)] = Ok (pc1, r1, l1) /\
     l_calc_path_multiple cfg64 list_heap (create_calculator cfg64 fg2) fg2 [(s, 0)] [(t, 0)] = Ok (pc2, r2, l2) /\
     lenN (popped l1) < lenN (popped l2) /\ lenN (relaxed l1) < lenN (relaxed l2)).
Proof.
  exists fill_ops, fill_ig, fill_order, 2, 100, fill_fg2, fill_fg100.
  split; [exact fill_frozen|]. split.
  { split; [repeat constructor; simpl; intuition discriminate|]. intros x. change (ig_num_nodes fill_ig) with 6. simpl. lia. }
  split; [reflexivity|]. split; [reflexivity|]. split; [discriminate|].
  split; [exists list_heap, (fun _ => True); split; [exact list_heap_laws|vm_compute; reflexivity]|].
  split; [exists list_heap, (fun _ => True); split; [exact list_heap_laws|vm_compute; reflexivity]|].
  split.
  - pose (run := fun fg s t => l_calc_path_multiple cfg64 list_heap (create_calculator cfg64 fg) fg [(s, 0)] [(t, 0)]).
    assert (forallb (fun s => forallb (fun t => match run fill_fg2 s t, run fill_fg100 s t with
      | Ok (_, _, l1), Ok (_, _, l2) => (lenN (popped l1) <=? lenN (popped l2)) && (lenN (relaxed l1) <=? lenN (relaxed l2))
      | _, _ => false end) (rangeN 0 6)) (rangeN 0 6) = true) as HB by (vm_compute; reflexivity).
    intros s t Hs Ht. rewrite forallb_forall in HB. specialize (HB s). rewrite forallb_forall in HB.
    change (ig_num_nodes fill_ig) with 6 in Hs, Ht.
    specialize (HB ltac:(apply rangeN_In; lia) t ltac:(apply rangeN_In; lia)). unfold run in HB.
    destruct (l_calc_path_multiple cfg64 list_heap (create_calculator cfg64 fill_fg2) fill_fg2 [(s, 0)] [(t, 0)]) as [[[pc1 r1] l1]| |]; try discriminate.
    destruct (l_calc_path_multiple cfg64 list_heap (create_calculator cfg64 fill_fg100) fill_fg100 [(s, 0)] [(t, 0)]) as [[[pc2 r2] l2]| |]; try discriminate.
    apply andb_prop in HB as [H1 H2]. apply N.leb_le in H1, H2. exists pc1, r1, l1, pc2, r2, l2. auto.
  - exists 0, 3. eexists _, _, _, _, _, _. split; [vm_compute; reflexivity|]. split; [vm_compute; reflexivity|]. vm_compute. split; reflexivity.
Qed.
Print Assumptions C82_higher_limit_can_slow_queries.
