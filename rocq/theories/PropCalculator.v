(** * PropCalculator: C11, C12, reuse and misuse of calculators *)
From Verif Require Export ReleaseProps Examples.
Open Scope N_scope.

(** C11: a used calculator returns exactly what a new one returns, on any graph, in any build. *)
Theorem C11_history_is_irrelevant : forall c H hinv n pc fg0 fg sources targets,
  heap_laws H hinv -> calculator c n pc -> fg_get_num_nodes fg0 = n ->
  result_of (pc_calc_path_multiple c H pc fg sources targets) =
  result_of (pc_calc_path_multiple c H (create_calculator c fg0) fg sources targets).
Proof. exact C11_proof. Qed.
Print Assumptions C11_history_is_irrelevant.

Theorem C11_single_history_is_irrelevant : forall c H hinv pc fg s t,
  heap_laws H hinv -> calculator c (fg_get_num_nodes fg) pc ->
  result_of (pc_calc_path c H pc fg s t) = calc_path c H fg s t.
Proof. exact C11_single_proof. Qed.
Print Assumptions C11_single_history_is_irrelevant.
Example C11_case : calculator cfg64 6 ex_pc2 /\ ex_pc2 <> create_calculator cfg64 ex_fg /\
  result_of (pc_calc_path cfg64 list_heap ex_pc2 ex_fg 0 4) = Ok (Some ex_path).
Proof. split; [exact ex_calculator|]. split; [discriminate|]. vm_compute. reflexivity. Qed.

(** C12: wrong arguments are rejected, in this order of precedence. *)
Theorem C12_misuse_is_rejected : forall c n pc fg H sources targets, calculator c n pc ->
  (fg_get_num_nodes fg <> n ->
     pc_calc_path_multiple c H pc fg sources targets =
       Panic (PAssert "given graph has invalid node count")) /\
  (fg_get_num_nodes fg = n ->
   (sources = [] ->
      pc_calc_path_multiple c H pc fg sources targets =
        Panic (PAssert "there has to be at least one start")) /\
   (sources <> [] -> targets = [] ->
      pc_calc_path_multiple c H pc fg sources targets =
        Panic (PAssert "there has to be at least one end")) /\
   (sources <> [] -> targets <> [] -> (exists v w, In (v, w) sources /\ n <= v) ->
      pc_calc_path_multiple c H pc fg sources targets = Panic (PAssert "invalid start node")) /\
   (sources <> [] -> targets <> [] -> (forall v w, In (v, w) sources -> v < n) ->
    (exists v w, In (v, w) targets /\ n <= v) ->
      pc_calc_path_multiple c H pc fg sources targets = Panic (PAssert "invalid end node"))).
Proof. exact C12_reject_proof. Qed.
Print Assumptions C12_misuse_is_rejected.

(** All other queries terminate, and panic at most by overflow of a sum of weights, in builds that check for it. *)
Theorem C12_proper_use_is_safe : forall c ops ig fg H hinv pc sources targets,
  1 <= umax c -> frozen_graph c ops ig -> prepared c ig fg -> heap_laws H hinv ->
  calculator c (ig_num_nodes ig) pc ->
  sources <> [] -> targets <> [] ->
  (forall v w, In (v, w) sources -> v < ig_num_nodes ig) ->
  (forall v w, In (v, w) targets -> v < ig_num_nodes ig) ->
  (exists pc' r, pc_calc_path_multiple c H pc fg sources targets = Ok (pc', r)) \/
  debug_build c = true /\ pc_calc_path_multiple c H pc fg sources targets = Panic POverflow.
Proof. exact C12_accept_proof. Qed.
Print Assumptions C12_proper_use_is_safe.

Theorem C12_calc_path_is_safe : forall c ops ig fg H hinv s t,
  1 <= umax c -> frozen_graph c ops ig -> prepared c ig fg -> heap_laws H hinv ->
  (s < ig_num_nodes ig -> t < ig_num_nodes ig ->
     (exists r, calc_path c H fg s t = Ok r) \/ debug_build c = true /\ calc_path c H fg s t = Panic POverflow) /\
  (ig_num_nodes ig <= s -> calc_path c H fg s t = Panic (PAssert "invalid start node")) /\
  (s < ig_num_nodes ig -> ig_num_nodes ig <= t ->
     calc_path c H fg s t = Panic (PAssert "invalid end node")).
Proof. exact C12_calc_path_proof. Qed.
Print Assumptions C12_calc_path_is_safe.
Example C12_case :
  result_of (pc_calc_path cfg64 list_heap ex_pc2 (mkFG 1 [0] [] [0; 0] [] [0; 0]) 0 0) =
    Panic (PAssert "given graph has invalid node count") /\
  calc_path cfg64 list_heap ex_fg 6 0 = Panic (PAssert "invalid start node") /\
  calc_path cfg64 list_heap ex_fg 5 6 = Panic (PAssert "invalid end node") /\
  calc_path cfg64 list_heap ex_fg 5 1 = Ok (Some (mkSP 5 1 9 [5; 3; 4; 1])).
Proof. repeat split; vm_compute; reflexivity. Qed.
