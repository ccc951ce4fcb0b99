(** * PropRelations: C31-C33, C36, relations between answers *)
From Verif Require Export ReleaseProps Examples.
Open Scope N_scope.

(** C31: if all edges were added in both directions, the answers are symmetric. *)
Theorem C31_symmetry : forall c ops ig fg s t r r',
  debug_build c = true -> frozen_graph c ops ig -> prepared c ig fg ->
  (forall f t w, ~ In (OpAddEdge f t w) ops) ->
  answer c fg s t r -> answer c fg t s r' ->
  option_map sp_get_weight r = option_map sp_get_weight r'.
Proof. exact C31_proof. Qed.
Print Assumptions C31_symmetry.
Definition sym_ops : list ig_op :=
  [OpAddEdgeBidir 0 1 4; OpAddEdgeBidir 1 2 5; OpAddEdgeBidir 2 3 1; OpAddEdgeBidir 3 0 9; OpFreeze].
Definition sym_ig : InputGraph := Eval vm_compute in get_ok (ig_run cfg64 ig_new sym_ops) ig_new.
Definition sym_fg : FastGraph := Eval vm_compute in get_ok (prepare cfg64 list_heap list_pq sym_ig) fg_dummy.
Example C31_case : frozen_graph cfg64 sym_ops sym_ig /\ prepared cfg64 sym_ig sym_fg /\
  answer cfg64 sym_fg 0 2 (Some (mkSP 0 2 9 [0; 1; 2])) /\ answer cfg64 sym_fg 2 0 (Some (mkSP 2 0 9 [2; 1; 0])).
Proof.
  split; [|split; [|split]].
  - split; [|split; vm_compute; reflexivity]. intros o Ho.
    repeat (destruct Ho as [<-|Ho]; [cbn; repeat split; discriminate|]). destruct Ho.
  - left. exists params_default, list_heap, (fun _ => True), list_pq, (fun _ => True).
    split; [exact list_heap_laws|]. split; [exact list_pq_laws|]. vm_compute. reflexivity.
  - exists list_heap, (fun _ => True). split; [exact list_heap_laws|]. left. vm_compute. reflexivity.
  - exists list_heap, (fun _ => True). split; [exact list_heap_laws|]. left. vm_compute. reflexivity.
Qed.

(** C32: triangle inequality, simple paths, optimal sub-paths. *)
Theorem C32_triangle_inequality : forall c ops ig fg s m t p1 p2 r,
  debug_build c = true -> frozen_graph c ops ig -> prepared c ig fg ->
  answer c fg s m (Some p1) -> answer c fg m t (Some p2) -> answer c fg s t r ->
  sp_get_weight p1 + sp_get_weight p2 < WEIGHT_MAX c ->
  exists p, r = Some p /\ sp_get_weight p <= sp_get_weight p1 + sp_get_weight p2.
Proof. exact C32_triangle_proof. Qed.
Print Assumptions C32_triangle_inequality.

Theorem C32_paths_are_simple : forall c ops ig fg s t p,
  debug_build c = true -> frozen_graph c ops ig -> prepared c ig fg ->
  answer c fg s t (Some p) -> NoDup (sp_get_nodes p).
Proof. exact C32_simple_proof. Qed.
Print Assumptions C32_paths_are_simple.

Theorem C32_subpaths_are_optimal : forall c ops ig fg s t p i j u v r,
  debug_build c = true -> frozen_graph c ops ig -> prepared c ig fg ->
  answer c fg s t (Some p) -> i <= j ->
  getN (sp_get_nodes p) i = Some u -> getN (sp_get_nodes p) j = Some v ->
  answer c fg u v r ->
  exists q l ns l', r = Some q /\ sp_get_nodes p = l ++ ns ++ l' /\
    lenN l = i /\ lenN ns = j - i + 1 /\ walk (ig_edges ig) u v ns (sp_get_weight q).
Proof. exact C32_subpath_proof. Qed.
Print Assumptions C32_subpaths_are_optimal.
Example C32_case : answer cfg64 ex_fg 0 4 (Some ex_path) /\ answer cfg64 ex_fg 4 1 (Some (mkSP 4 1 1 [4; 1])) /\
  answer cfg64 ex_fg 0 1 (Some (mkSP 0 1 5 [0; 1])) /\ answer cfg64 ex_fg 2 4 (Some (mkSP 2 4 6 [2; 3; 4])) /\
  getN (sp_get_nodes ex_path) 1 = Some 2 /\ getN (sp_get_nodes ex_path) 3 = Some 4.
Proof.
  split; [exact ex_answer|]. repeat split;
  exists list_heap, (fun _ => True); (split; [exact list_heap_laws|]); left; vm_compute; reflexivity.
Qed.

(** C33: equality of paths. *)
Theorem C33_equality : forall a b d : ShortestPath,
  sp_eqb a a = true /\ sp_eqb a b = sp_eqb b a /\
  (sp_eqb a b = true -> sp_eqb b d = true -> sp_eqb a d = true) /\
  (sp_eqb a b = true <->
     sp_get_source a = sp_get_source b /\ sp_get_target a = sp_get_target b /\
     sp_get_weight a = sp_get_weight b).
Proof. exact C33_eq_proof. Qed.
Print Assumptions C33_equality.

Theorem C33_is_found : forall c p, sp_is_found c p = false <-> sp_get_weight p = WEIGHT_MAX c.
Proof. exact C33_is_found_proof. Qed.
Print Assumptions C33_is_found.

Theorem C33_returned_paths_are_found : forall c ops ig fg sources targets p,
  debug_build c = true -> frozen_graph c ops ig -> prepared c ig fg ->
  answer_multi c fg sources targets (Some p) -> sp_is_found c p = true.
Proof. exact C33_found_proof. Qed.
Print Assumptions C33_returned_paths_are_found.

(** On the same graph all answers to a query with one source and one target are equal (==). *)
Theorem C33_answers_are_equal : forall c ops ig fg fg' s t p p',
  debug_build c = true -> frozen_graph c ops ig -> prepared c ig fg -> prepared c ig fg' ->
  answer c fg s t (Some p) -> answer c fg' s t (Some p') -> sp_eqb p p' = true.
Proof. exact C33_answers_proof. Qed.
Print Assumptions C33_answers_are_equal.
Example C33_case : sp_eqb ex_path (mkSP 0 4 13 [0; 1; 2; 3; 4]) = true /\ sp_eqb ex_path (mkSP 0 4 12 [0; 2; 3; 4]) = false /\
  sp_is_found cfg64 (sp_none cfg64 3 4) = false.
Proof. repeat split; vm_compute; reflexivity. Qed.

(** C36: adding edges, or making edges lighter, does not increase any answer. *)
Theorem C36_adding_edges : forall c ops ig fg ops' ig' fg' sources targets p r,
  debug_build c = true ->
  frozen_graph c ops ig -> prepared c ig fg -> frozen_graph c ops' ig' -> prepared c ig' fg' ->
  (forall e, In e (ig_edges ig) ->
     exists w', In (mkEdge (e_from e) (e_to e) w') (accepted ops') /\ w' <= e_weight e) ->
  answer_multi c fg sources targets (Some p) -> answer_multi c fg' sources targets r ->
  exists q, r = Some q /\ sp_get_weight q <= sp_get_weight p.
Proof. exact C36_proof. Qed.
Print Assumptions C36_adding_edges.
Definition more_ops : list ig_op := ex_ops ++ [OpThaw; OpAddEdge 0 3 2; OpFreeze].
Definition more_ig : InputGraph := Eval vm_compute in get_ok (ig_run cfg64 ig_new more_ops) ig_new.
Definition more_fg : FastGraph := Eval vm_compute in get_ok (prepare cfg64 list_heap list_pq more_ig) fg_dummy.
Example C36_case : frozen_graph cfg64 more_ops more_ig /\ prepared cfg64 more_ig more_fg /\
  (forall e, In e (ig_edges ex_ig) ->
     exists w', In (mkEdge (e_from e) (e_to e) w') (accepted more_ops) /\ w' <= e_weight e) /\
  answer cfg64 more_fg 0 4 (Some (mkSP 0 4 4 [0; 3; 4])).
Proof.
  split; [|split; [|split]].
  - split; [|split; vm_compute; reflexivity]. intros o Ho.
    repeat (destruct Ho as [<-|Ho]; [cbn; repeat split; discriminate|]). destruct Ho.
  - left. exists params_default, list_heap, (fun _ => True), list_pq, (fun _ => True).
    split; [exact list_heap_laws|]. split; [exact list_pq_laws|]. vm_compute. reflexivity.
  - intros [u v w] He. exists w. split; [|simpl; apply N.le_refl]. unfold more_ops. rewrite accepted_app.
    apply in_or_app. left. destruct ex_frozen as (_ & Hr & _).
    destruct (run_inv _ _ _ Hr) as [HI _]. apply (hg_sub _ _ _ HI). exact He.
  - exists list_heap, (fun _ => True). split; [exact list_heap_laws|]. left. vm_compute. reflexivity.
Qed.
