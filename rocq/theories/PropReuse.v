(** * PropReuse: C43, FloydWarshall objects that are prepared more than once *)
From Verif Require Export OracleReuse PropOracle.
Open Scope N_scope.

(** C43: what a FloydWarshall object reports after it was prepared for [ig], whatever it was prepared for
    before: distances in [ig] with additional edges, one for every path the object knew between two nodes
    that have no edge in [ig]. *)
Theorem C43_floyd_warshall_reuse_exact : forall c ops ig n fw fw' s t,
  debug_build c = true -> frozen_graph c ops ig -> floyd_warshall_object c n fw -> fw_prepare c fw ig = Ok fw' ->
  s < n -> t < n ->
  exists w, fw_calc_weight c fw' s t = Ok w /\ w <= WEIGHT_MAX c /\
    (w < WEIGHT_MAX c -> is_dist (with_earlier_paths c fw ig) s t w) /\
    (w = WEIGHT_MAX c -> forall ns W, walk (with_earlier_paths c fw ig) s t ns W -> WEIGHT_MAX c <= W).
Proof. exact C43_reuse_exact_proof. Qed.
Print Assumptions C43_floyd_warshall_reuse_exact.

(** Preparing twice for the same graph changes nothing. *)
Theorem C43_floyd_warshall_prepare_again : forall c ops ig n fw fw1 fw2 s t,
  debug_build c = true -> frozen_graph c ops ig -> floyd_warshall_object c n fw ->
  fw_prepare c fw ig = Ok fw1 -> fw_prepare c fw1 ig = Ok fw2 -> s < n -> t < n ->
  fw_calc_weight c fw2 s t = fw_calc_weight c fw1 s t.
Proof. exact C43_again_proof. Qed.
Print Assumptions C43_floyd_warshall_prepare_again.

(** A case: first 0 -> 1 -> 2 with weights 5 and 6, then 0 -> 2 with weight 20 and 2 -> 1 with weight 1.  The path
    of weight 5 from 0 to 1 stays, the path of weight 11 from 0 to 2 is replaced by the edge of weight 20, but the
    edge 1 -> 2 is kept, so that 11 is reported again. *)
Definition re1_ops : list ig_op := [OpAddEdge 0 1 5; OpAddEdge 1 2 6; OpFreeze].
Definition re1_ig : InputGraph := Eval vm_compute in get_ok (ig_run cfg64 ig_new re1_ops) ig_new.
Definition re2_ops : list ig_op := [OpAddEdge 0 2 20; OpAddEdge 2 1 1; OpFreeze].
Definition re2_ig : InputGraph := Eval vm_compute in get_ok (ig_run cfg64 ig_new re2_ops) ig_new.
Definition re_fw0 : FloydWarshall := Eval vm_compute in get_ok (fw_new cfg64 3) (mkFW 0 []).
Definition re_fw1 : FloydWarshall := Eval vm_compute in get_ok (fw_prepare cfg64 re_fw0 re1_ig) (mkFW 0 []).
Definition re_fw2 : FloydWarshall := Eval vm_compute in get_ok (fw_prepare cfg64 re_fw1 re2_ig) (mkFW 0 []).
Lemma re1_frozen : frozen_graph cfg64 re1_ops re1_ig.
Proof.
  split; [|split; vm_compute; reflexivity]. intros o Ho.
  repeat (destruct Ho as [<-|Ho]; [vm_compute; repeat split; discriminate|]). destruct Ho.
Qed.
Lemma re2_frozen : frozen_graph cfg64 re2_ops re2_ig.
Proof.
  split; [|split; vm_compute; reflexivity]. intros o Ho.
  repeat (destruct Ho as [<-|Ho]; [vm_compute; repeat split; discriminate|]). destruct Ho.
Qed.
Example C43_reuse_case : floyd_warshall_object cfg64 3 re_fw1 /\ fw_prepare cfg64 re_fw1 re2_ig = Ok re_fw2 /\
  with_earlier_paths cfg64 re_fw1 re2_ig = [mkEdge 0 2 20; mkEdge 2 1 1; mkEdge 0 1 5; mkEdge 1 2 6] /\
  fw_calc_weight cfg64 re_fw2 0 2 = Ok 11 /\ is_dist (accepted re2_ops) 0 2 20.
Proof.
  split.
  { eapply (floyd_warshall_used cfg64 3 re1_ops re1_ig re_fw0); [|exact re1_frozen|vm_compute; reflexivity].
    apply floyd_warshall_new. vm_compute. reflexivity. }
  split; [vm_compute; reflexivity|]. split; [vm_compute; reflexivity|]. split; [vm_compute; reflexivity|].
  apply (C37_floyd_warshall_is_right cfg64 re2_ops re2_ig); try reflexivity; [exact re2_frozen|].
  exists 3. eexists. eexists. split; [vm_compute; reflexivity|]. split; [vm_compute; reflexivity|]. vm_compute. reflexivity.
Qed.

(** FloydWarshall::new: the matrix has n * n entries, or, in builds without overflow checks and if n * n is not a usize,
    the remainder ... *)
Theorem C43_floyd_warshall_size : forall c n fw, fw_new c n = Ok fw ->
  lenN (fw_matrix fw) = n * n \/
  (debug_build c = false /\ umax c < n * n /\ lenN (fw_matrix fw) = (n * n) mod (umax c + 1)).
Proof. exact C43_size_proof. Qed.
Print Assumptions C43_floyd_warshall_size.
(** ... so a matrix without any entry is possible for 2^32 nodes. *)
Theorem C43_floyd_warshall_size_refuted : exists n fw,
  fw_new (unchecked cfg64) n = Ok fw /\ n <> 0 /\ fw_matrix fw = [].
Proof. exists 4294967296, (mkFW 4294967296 []). split; [vm_compute; reflexivity|]. split; [discriminate|reflexivity]. Qed.
Print Assumptions C43_floyd_warshall_size_refuted.
Example C43_size_case : fw_new cfg64 2 = Ok (mkFW 2 (repeat (WEIGHT_MAX cfg64) 4)) /\ fw_new cfg64 4294967296 = Panic POverflow.
Proof. split; vm_compute; reflexivity. Qed.
