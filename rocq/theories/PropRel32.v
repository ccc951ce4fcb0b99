(** * PropRel32: C85, a graph prepared by a 64-bit release build and queried by a 32-bit release build *)
From Verif Require Export Rel32Facts PropCert PropSerial.
From Coq Require Import Lia.
Open Scope N_scope.

(** C85: a 64-bit build without overflow checks prepared a graph from weights up to [2 ^ 63]; every value it stored fits
    32 bits.  Then nothing wrapped around during the preparation ... *)
Theorem C85_values_certify : forall c ops ig fg,
  platform64 c -> debug_build c = true -> frozen_graph (unchecked c) ops ig -> prepared (unchecked c) ig fg ->
  (forall e, In e (accepted ops) -> e_weight e <= 2 ^ 63) -> values_below (2 ^ 32 - 1) fg ->
  frozen_graph c ops ig /\ prepared c ig fg.
Proof. exact cert_values. Qed.
Print Assumptions C85_values_certify.

(** ... the bytes it writes in the 32-bit format load on a 32-bit platform, and there a build without overflow checks
    answers, and answers correctly, as long as the sums its searches can form fit 32 bits. *)
Theorem C85_release_64_to_release_32 : forall c c' ops ig fg,
  platform64 c -> debug_build c = true -> frozen_graph (unchecked c) ops ig -> prepared (unchecked c) ig fg ->
  (forall e, In e (accepted ops) -> e_weight e <= 2 ^ 63) ->
  platform32 c' -> debug_build c' = true ->
  values_below (2 ^ 32 - 1) fg ->
  fg_get_num_nodes fg < 2 ^ 31 - 1 -> fg_get_num_out_edges fg < 2 ^ 31 - 1 -> fg_get_num_in_edges fg < 2 ^ 31 - 1 ->
  exists bytes fg', serialize_32 (unchecked c) fg = Ok bytes /\
    (forall rest, deserialize_32 (unchecked c') (bytes ++ rest) = Ok (Loaded fg' rest)) /\
    (forall X K1 K2 sources targets,
      (forall e, In e (fg_edges_fwd fg) \/ In e (fg_edges_bwd fg) -> fe_weight e <= X) ->
      (forall v w, In (v, w) sources -> w = WEIGHT_MAX c' \/ w <= K1) ->
      (forall v w, In (v, w) targets -> w = WEIGHT_MAX c' \/ w <= K2) ->
      K1 + K2 + 2 * (ig_num_nodes ig - 1) * X <= umax c' ->
      (forall r, answer_multi (unchecked c') fg' sources targets r ->
        match r with
        | Some p =>
            sp_get_weight p < WEIGHT_MAX c' /\
            total (accepted ops) sources targets (sp_get_source p) (sp_get_target p) (sp_get_nodes p) (sp_get_weight p) /\
            (forall s t ns W, total (accepted ops) sources targets s t ns W -> sp_get_weight p <= W)
        | None => forall s t ns W, total (accepted ops) sources targets s t ns W -> WEIGHT_MAX c' <= W
        end) /\
      (sources <> [] -> targets <> [] ->
       (forall v w, In (v, w) sources \/ In (v, w) targets -> v < ig_num_nodes ig) ->
       forall H hinv, heap_laws H hinv -> exists r, calc_path_multiple (unchecked c') H fg' sources targets = Ok r)).
Proof. exact rel32_proof. Qed.
Print Assumptions C85_release_64_to_release_32.

(** Without the last bound the claim is false: the stored weights fit 32 bits, the graph loads, and the answer of the
    32-bit release build is the true weight modulo [2 ^ 32]. *)
Definition ex85_ops : list ig_op := [OpAddEdge 0 1 (2 ^ 31); OpAddEdge 1 2 (2 ^ 31 + 5); OpFreeze].
Definition ex85_ig : InputGraph := Eval vm_compute in get_ok (ig_run (unchecked cfg64) ig_new ex85_ops) ig_new.
Definition ex85_fg : FastGraph := Eval vm_compute in
  match prepare_with_order_with_params (unchecked cfg64) list_heap ex85_ig [0; 2; 1] params_with_order_default with
  | Ok (inl fg) => fg | _ => fg_dummy end.
Definition ex85_bytes : list N := Eval vm_compute in get_ok (serialize_32 (unchecked cfg64) ex85_fg) [].
Definition ex85_fg' : FastGraph := Eval vm_compute in
  match deserialize_32 (unchecked cfg32) ex85_bytes with Ok (Loaded fg _) => fg | _ => fg_dummy end.
Definition ex85_path : ShortestPath := Eval vm_compute in
  match calc_path (unchecked cfg32) list_heap ex85_fg' 0 2 with Ok (Some p) => p | _ => mkSP 0 0 0 [] end.

Theorem C85_fitting_values_suffice_refuted : exists ops ig fg bytes fg' p,
  frozen_graph (unchecked cfg64) ops ig /\ prepared (unchecked cfg64) ig fg /\
  (forall e, In e (accepted ops) -> e_weight e < 2 ^ 32 - 1) /\ values_below (2 ^ 32 - 1) fg /\
  serialize_32 (unchecked cfg64) fg = Ok bytes /\
  deserialize_32 (unchecked cfg32) bytes = Ok (Loaded fg' []) /\
  answer (unchecked cfg32) fg' 0 2 (Some p) /\ sp_get_weight p = 5 /\
  is_dist (accepted ops) 0 2 (2 ^ 32 + 5).
Proof.
  exists ex85_ops, ex85_ig, ex85_fg, ex85_bytes, ex85_fg', ex85_path.
  split; [|split; [|split; [|split; [|split; [|split; [|split; [|split]]]]]]].
  - split; [|split; vm_compute; reflexivity].
    intros o Ho. repeat (destruct Ho as [<-|Ho]; [vm_compute; repeat split; discriminate|]). destruct Ho.
  - right. exists [0; 2; 1], params_with_order_default. split.
    + split; [repeat constructor; simpl; intuition discriminate|]. intros x. simpl. split.
      * intros H. repeat (destruct H as [<-|H]; [reflexivity|]). destruct H.
      * intros H. assert (x = 0 \/ x = 1 \/ x = 2) by lia. intuition subst; auto.
    + exists list_heap, (fun _ => True). split; [exact list_heap_laws|]. vm_compute. reflexivity.
  - intros e He. vm_compute in He. repeat (destruct He as [<-|He]; [vm_compute; reflexivity|]). destruct He.
  - split; [vm_compute; reflexivity|]. split; [vm_compute; reflexivity|]. split; [vm_compute; reflexivity|].
    intros e He. vm_compute in He. repeat (destruct He as [<-|He]; [vm_compute; reflexivity|]). destruct He.
  - vm_compute. reflexivity.
  - vm_compute. reflexivity.
  - exists list_heap, (fun _ => True). split; [exact list_heap_laws|]. left. vm_compute. reflexivity.
  - reflexivity.
  - change (accepted ex85_ops) with [mkEdge 0 1 (2 ^ 31); mkEdge 1 2 (2 ^ 31 + 5)]. split.
    + exists [0; 1; 2]. change (2 ^ 32 + 5) with (2 ^ 31 + ((2 ^ 31 + 5) + 0)).
      eapply walk_cons; [left; reflexivity|]. eapply walk_cons; [right; left; reflexivity|]. constructor.
    + intros ns W HW. inversion HW as [|u v t w ns' W' He HW' E1 E2 E3 E4]; subst.
      destruct He as [He|[He|[]]]; [|discriminate]. injection He as <- <-.
      inversion HW' as [|u v t w ns2 W2 He HW2 E1 E2 E3 E4]; subst.
      destruct He as [He|[He|[]]]; [discriminate|]. injection He as <- <-. lia.
Qed.
Print Assumptions C85_fitting_values_suffice_refuted.

(** The hypotheses are met by the graph of the examples, weights of sources and targets up to 10, and unusable ones. *)
Definition ex85_sources : list (N * N) := [(0, 3); (5, 1); (1, 4294967295)].
Example C85_case : exists fg', deserialize_32 (unchecked cfg32) ex_bytes32 = Ok (Loaded fg' []) /\
  calc_path_multiple (unchecked cfg32) list_heap fg' ex85_sources ex_targets = Ok (Some ex_path_multi) /\
  forall s t ns W, total (accepted ex_ops) ex85_sources ex_targets s t ns W -> 11 <= W.
Proof.
  assert (forall e, In e (fg_edges_fwd ex_fg) \/ In e (fg_edges_bwd ex_fg) -> fe_weight e <= 7) as HX.
  { intros e [He|He]; vm_compute in He; repeat (destruct He as [<-|He]; [vm_compute; discriminate|]); destruct He. }
  assert (values_below (2 ^ 32 - 1) ex_fg) as HV.
  { split; [vm_compute; reflexivity|]. split; [vm_compute; reflexivity|]. split; [vm_compute; reflexivity|].
    intros e He. apply in_app_or in He. pose proof (HX e He). lia. }
  assert (forall e, In e (accepted ex_ops) -> e_weight e <= 2 ^ 63) as HM.
  { intros e He. vm_compute in He. repeat (destruct He as [<-|He]; [vm_compute; discriminate|]). destruct He. }
  assert (fg_get_num_nodes ex_fg < 2 ^ 31 - 1) as N1 by (vm_compute; reflexivity).
  assert (fg_get_num_out_edges ex_fg < 2 ^ 31 - 1) as N2 by (vm_compute; reflexivity).
  assert (fg_get_num_in_edges ex_fg < 2 ^ 31 - 1) as N3 by (vm_compute; reflexivity).
  destruct (C85_release_64_to_release_32 cfg64 cfg32 ex_ops ex_ig ex_fg eq_refl eq_refl ex_frozen_unchecked
    ex_prepared_unchecked HM eq_refl eq_refl HV N1 N2 N3) as (bytes & fg' & HS & HD & HQ).
  assert (serialize_32 (unchecked cfg64) ex_fg = Ok ex_bytes32) as HS2 by (vm_compute; reflexivity).
  rewrite HS2 in HS. injection HS as <-. specialize (HD []). rewrite app_nil_r in HD. exists fg'. split; [exact HD|].
  assert (calc_path_multiple (unchecked cfg32) list_heap fg' ex85_sources ex_targets = Ok (Some ex_path_multi)) as HA.
  { vm_compute in HD. injection HD as <-. vm_compute. reflexivity. }
  split; [exact HA|].
  assert (10 + 10 + 2 * (ig_num_nodes ex_ig - 1) * 7 <= umax cfg32) as HB by (vm_compute; discriminate).
  destruct (HQ 7 10 10 ex85_sources ex_targets HX) as [HR _]; [| |exact HB|].
  - intros v w He. simpl in He.
    repeat (destruct He as [He|He]; [inversion He; first [left; reflexivity|right; vm_compute; discriminate]|]). destruct He.
  - intros v w He. simpl in He.
    repeat (destruct He as [He|He]; [inversion He; first [left; reflexivity|right; vm_compute; discriminate]|]). destruct He.
  - assert (answer_multi (unchecked cfg32) fg' ex85_sources ex_targets (Some ex_path_multi)) as Ha.
    { exists list_heap, (fun _ => True). split; [exact list_heap_laws|]. left. exact HA. }
    exact (proj2 (proj2 (HR _ Ha))).
Qed.
