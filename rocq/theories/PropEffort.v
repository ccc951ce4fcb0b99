(** * PropEffort: what a query costs (C72) *)
From Verif Require Import SpecEffort EffortFacts.
From Verif Require Import Examples.
Open Scope N_scope.

(** C72: keeping a record of the steps changes nothing: on all inputs, the query with the record does what the query does. *)
Theorem C72_same_query : forall c H pc fg sources targets,
  forget (l_calc_path_multiple c H pc fg sources targets) = pc_calc_path_multiple c H pc fg sources targets.
Proof. exact C72_same_proof. Qed.
Print Assumptions C72_same_query.

(** C72: per direction, every node is settled at most once and every stored edge followed at most once, only edges of
    settled nodes are followed, at most one item is popped per given end point and followed edge, and the stall checks
    look at most at the edges of the popped nodes. *)
Theorem C72_search_effort : forall c ops ig fg H hinv n pc sources targets pc' r l,
  debug_build c = true -> frozen_graph c ops ig -> prepared c ig fg -> heap_laws H hinv -> calculator c n pc ->
  l_calc_path_multiple c H pc fg sources targets = Ok (pc', r, l) ->
  NoDup (expanded l) /\ lenN (expanded l) <= 2 * ig_num_nodes ig /\
  NoDup (relaxed l) /\ lenN (relaxed l) <= lenN (fg_edges_fwd fg) + lenN (fg_edges_bwd fg) /\
  (forall d i, In (d, i) (relaxed l) -> exists ed, getN (fg_edges fg d) i = Some ed /\ In (d, fe_base ed) (expanded l)) /\
  lenN (popped l) <= lenN sources + lenN targets + lenN (relaxed l) /\
  (List.length (compared l) <= checks fg (popped l))%nat.
Proof. exact C72_search_proof. Qed.
Print Assumptions C72_search_effort.

(** C72: the search visits only nodes that can be reached from its end points by climbing along stored edges, to ever
    greater ranks. *)
Theorem C72_search_space : forall c ops ig fg H hinv n pc sources targets pc' r l,
  debug_build c = true -> frozen_graph c ops ig -> prepared c ig fg -> heap_laws H hinv -> calculator c n pc ->
  l_calc_path_multiple c H pc fg sources targets = Ok (pc', r, l) ->
  forall d v, In (d, v) (popped l) \/ In (d, v) (expanded l) ->
  exists u w, In (u, w) (sides sources targets d) /\ climb fg d u v /\
    (u = v \/ exists a b, getN (fg_ranks fg) u = Some a /\ getN (fg_ranks fg) v = Some b /\ a < b).
Proof. exact C72_space_proof. Qed.
Print Assumptions C72_search_space.

(** C72: on every FastGraph and in both build modes, listing the nodes of the path takes less than two calls per node,
    whatever the depth of the shortcuts. *)
Theorem C72_path_effort : forall c H pc fg sources targets pc' r l,
  l_calc_path_multiple c H pc fg sources targets = Ok (pc', r, l) ->
  lenN (unpacked l) <= match r with Some p => 2 * (lenN (sp_get_nodes p) - 1) | None => 0 end.
Proof. exact C72_path_proof. Qed.
Print Assumptions C72_path_effort.

Example C72_case : exists pc' r l,
  frozen_graph cfg64 ex_ops ex_ig /\ prepared cfg64 ex_ig ex_fg /\ heap_laws list_heap (fun _ => True) /\ calculator cfg64 6 ex_pc2 /\
  l_calc_path_multiple cfg64 list_heap ex_pc2 ex_fg [(0, 0)] [(4, 0)] = Ok (pc', r, l) /\
  r <> None /\ popped l <> [] /\ relaxed l <> [] /\ compared l <> [] /\ unpacked l <> [].
Proof.
  eexists _, _, _. split; [exact ex_frozen|]. split; [exact ex_prepared|]. split; [exact list_heap_laws|].
  split; [exact ex_calculator|]. split; [vm_compute; reflexivity|].
  repeat split; vm_compute; discriminate.
Qed.
