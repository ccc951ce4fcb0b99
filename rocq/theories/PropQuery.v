(** * PropQuery: C01-C06, the answers of queries *)
From Verif Require Export AnswerFacts Examples QueryProps SelfQuery.
Open Scope N_scope.

(** C01: the returned weight is the least weight of a walk along the added edges. *)
Theorem C01_weight_is_minimal : forall c ops ig fg s t p,
  debug_build c = true -> frozen_graph c ops ig -> prepared c ig fg ->
  answer c fg s t (Some p) ->
  forall ns W, walk (accepted ops) s t ns W -> sp_get_weight p <= W.
Proof. exact C01_proof. Qed.
Print Assumptions C01_weight_is_minimal.
Example C01_case : forall ns W, walk (accepted ex_ops) 0 4 ns W -> 13 <= W.
Proof. exact (C01_weight_is_minimal cfg64 ex_ops ex_ig ex_fg 0 4 ex_path eq_refl ex_frozen ex_prepared ex_answer). Qed.

(** C02: None is returned exactly if there is no walk of weight below WEIGHT_MAX. *)
Theorem C02_none_iff_no_path : forall c ops ig fg s t r,
  debug_build c = true -> frozen_graph c ops ig -> prepared c ig fg ->
  answer c fg s t r ->
  (r = None <-> ~ exists ns W, walk (accepted ops) s t ns W /\ W < WEIGHT_MAX c).
Proof. exact C02_proof. Qed.
Print Assumptions C02_none_iff_no_path.
Example C02_case_none : ~ exists ns W, walk (accepted ex_ops) 0 5 ns W /\ W < WEIGHT_MAX cfg64.
Proof. apply (C02_none_iff_no_path cfg64 ex_ops ex_ig ex_fg 0 5 None eq_refl ex_frozen ex_prepared ex_answer_none). reflexivity. Qed.

(** C03: the node list of the result is a path from s to t in the frozen graph, and its
    edges sum up to the returned weight. *)
Theorem C03_path_is_real : forall c ops ig fg s t p,
  debug_build c = true -> frozen_graph c ops ig -> prepared c ig fg ->
  answer c fg s t (Some p) ->
  sp_get_source p = s /\ sp_get_target p = t /\
  forall edges, ig_get_edges ig = Ok edges ->
    walk edges s t (sp_get_nodes p) (sp_get_weight p) /\
    sp_get_nodes p <> [] /\ hd_error (sp_get_nodes p) = Some s /\ last (sp_get_nodes p) s = t.
Proof. exact C03_proof. Qed.
Print Assumptions C03_path_is_real.
Example C03_case : walk (ig_edges ex_ig) 0 4 [0; 2; 3; 4] 13.
Proof. exact (proj1 (proj2 (proj2 (C03_path_is_real cfg64 ex_ops ex_ig ex_fg 0 4 ex_path eq_refl ex_frozen ex_prepared ex_answer)) (ig_edges ex_ig) eq_refl)). Qed.

(** C04: with several weighted sources and targets the result is the minimum over all
    combinations, and None iff this minimum is not below WEIGHT_MAX. *)
Theorem C04_multi_minimum : forall c ops ig fg sources targets r,
  debug_build c = true -> frozen_graph c ops ig -> prepared c ig fg ->
  answer_multi c fg sources targets r ->
  match r with
  | Some p =>
      sp_get_weight p < WEIGHT_MAX c /\
      (exists s t ns, total (accepted ops) sources targets s t ns (sp_get_weight p)) /\
      (forall s t ns W, total (accepted ops) sources targets s t ns W -> sp_get_weight p <= W)
  | None => forall s t ns W, total (accepted ops) sources targets s t ns W -> WEIGHT_MAX c <= W
  end.
Proof. exact C04_proof. Qed.
Print Assumptions C04_multi_minimum.
Example C04_case : forall s t ns W, total (accepted ex_ops) ex_sources ex_targets s t ns W -> 11 <= W.
Proof. exact (proj2 (proj2 (C04_multi_minimum cfg64 ex_ops ex_ig ex_fg ex_sources ex_targets _ eq_refl ex_frozen ex_prepared ex_answer_multi))). Qed.

(** C05: the result decomposes into a listed source, a real path and a listed target; entries of
    weight WEIGHT_MAX are not used. *)
Theorem C05_multi_decomposition : forall c ops ig fg sources targets p,
  debug_build c = true -> frozen_graph c ops ig -> prepared c ig fg ->
  answer_multi c fg sources targets (Some p) ->
  exists sw tw W,
    In (sp_get_source p, sw) sources /\ In (sp_get_target p, tw) targets /\
    sw < WEIGHT_MAX c /\ tw < WEIGHT_MAX c /\
    walk (ig_edges ig) (sp_get_source p) (sp_get_target p) (sp_get_nodes p) W /\
    sp_get_weight p = sw + W + tw.
Proof. exact C05_proof. Qed.
Print Assumptions C05_multi_decomposition.
Example C05_case : exists sw tw W, In (5, sw) ex_sources /\ In (4, tw) ex_targets /\
  sw < WEIGHT_MAX cfg64 /\ tw < WEIGHT_MAX cfg64 /\
  walk (ig_edges ex_ig) 5 4 [5; 3; 4] W /\ 11 = sw + W + tw.
Proof. exact (C05_multi_decomposition cfg64 ex_ops ex_ig ex_fg ex_sources ex_targets _ eq_refl ex_frozen ex_prepared ex_answer_multi). Qed.

(** C06: from a node to itself. *)
Theorem C06_source_is_target : forall c ops ig fg s r,
  debug_build c = true -> frozen_graph c ops ig -> prepared c ig fg ->
  answer c fg s s r -> r = Some (mkSP s s 0 [s]).
Proof. exact C06_proof. Qed.
Print Assumptions C06_source_is_target.

(** It is always answered: no size or weight makes it overflow. *)
Theorem C06_always_answered : forall c ops ig fg H hinv s,
  debug_build c = true -> frozen_graph c ops ig -> prepared c ig fg -> heap_laws H hinv ->
  s < ig_num_nodes ig -> calc_path c H fg s s = Ok (Some (mkSP s s 0 [s])).
Proof. exact C06_total_proof. Qed.
Print Assumptions C06_always_answered.

Theorem C06_always_answered_by_calculators : forall c ops ig fg H hinv pc s,
  debug_build c = true -> frozen_graph c ops ig -> prepared c ig fg -> heap_laws H hinv ->
  calculator c (ig_num_nodes ig) pc -> s < ig_num_nodes ig ->
  exists pc', pc_calc_path c H pc fg s s = Ok (pc', Some (mkSP s s 0 [s])).
Proof. exact C06_pc_total_proof. Qed.
Print Assumptions C06_always_answered_by_calculators.
(** A graph whose only other query overflows. *)
Definition heavy_ops : list ig_op :=
  [OpAddEdge 0 1 18446744073709551614; OpAddEdge 1 2 18446744073709551614; OpFreeze].
Definition heavy_ig : InputGraph := Eval vm_compute in get_ok (ig_run cfg64 ig_new heavy_ops) ig_new.
Example C06_case_heavy :
  frozen_graph cfg64 heavy_ops heavy_ig /\
  exists fg, prepare_with_order cfg64 list_heap heavy_ig [0; 1; 2] = Ok (inl fg) /\
    calc_path cfg64 list_heap fg 0 2 = Panic POverflow /\
    calc_path cfg64 list_heap fg 0 0 = Ok (Some (mkSP 0 0 0 [0])).
Proof.
  split.
  - split; [|split; vm_compute; reflexivity]. intros o [<-|[<-|[<-|[]]]]; cbn; repeat split; discriminate.
  - eexists. split; [vm_compute; reflexivity|]. split; vm_compute; reflexivity.
Qed.
Example C06_case : answer cfg64 ex_fg 3 3 (Some (mkSP 3 3 0 [3])).
Proof.
  exists list_heap, (fun _ => True). split; [exact list_heap_laws|]. left. vm_compute. reflexivity.
Qed.
