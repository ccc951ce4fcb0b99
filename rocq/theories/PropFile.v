(** * PropFile: C22-C26, C41, reading and writing files *)
From Verif Require Export FileTrunc Examples.
Open Scope N_scope.

(** A slow device: interruptions and short writes, but no errors. *)
Definition slow_device : device := mkDevice true [WInterrupted; WOk 3; WOk 1; WInterrupted; WOk 20].
Example slow_reliable : reliable slow_device.
Proof. split; auto. intros o H. repeat (destruct H as [<-|H]; [cbn; auto; discriminate|]). destruct H. Qed.

(** C22: on a device without errors to_file writes one line per edge, and from_file gives the same graph. *)
Theorem C22_plain_round_trip : forall c ops g dv old,
  (debug_build c = true \/ forall e, In e (accepted ops) -> e_from e < umax c /\ e_to e < umax c) ->
  frozen_graph c ops g -> reliable dv ->
  exists b, to_file dv old g = (Some b, Ok IoOk) /\ b = plain_file (ig_edges g) /\
    from_file c (contents b) = Ok g.
Proof. exact C22_proof. Qed.
Print Assumptions C22_plain_round_trip.
Example C22_case : to_file slow_device None ex_ig =
  (Some (str "a 0 1 5
a 0 2 7
a 1 2 3
a 2 3 4
a 3 2 4
a 3 4 2
a 4 1 1
a 5 3 6
"), Ok IoOk) /\
  from_file cfg64 (contents (plain_file (ig_edges ex_ig))) = Ok ex_ig.
Proof. split; vm_compute; reflexivity. Qed.

(** C23: likewise for the DIMACS format, with ids from one and a problem line. *)
Theorem C23_dimacs_round_trip : forall c ops g dv old,
  (debug_build c = true \/ forall e, In e (accepted ops) -> e_from e < umax c /\ e_to e < umax c) ->
  frozen_graph c ops g -> reliable dv ->
  exists b, to_dimacs_file c dv old g = (Some b, Ok IoOk) /\ b = dimacs_file (ig_num_nodes g) (ig_edges g) /\
    from_dimacs_file c (contents b) = Ok g.
Proof. exact C23_proof. Qed.
Print Assumptions C23_dimacs_round_trip.
Example C23_case : to_dimacs_file cfg64 slow_device None ex_ig =
  (Some (str "p sp 6 8
a 1 2 5
a 1 3 7
a 2 3 3
a 3 4 4
a 4 3 4
a 4 5 2
a 5 2 1
a 6 4 6
"), Ok IoOk) /\
  from_dimacs_file cfg64 (contents (dimacs_file 6 (ig_edges ex_ig))) = Ok ex_ig.
Proof. split; vm_compute; reflexivity. Qed.

(** C24: from_dimacs_file accepts exactly the texts of the format and returns their graph; on everything else,
    and if the file cannot be opened or read, it panics. *)
Theorem C24_accepts_exactly_the_format : forall c b g,
  from_dimacs_file c (contents b) = Ok g <->
  exists ss arcs, file_lines b ss /\ dimacs_text c ss arcs /\ graph_of c (map zero_based arcs) = Ok g.
Proof. exact from_dimacs_spec. Qed.
Print Assumptions C24_accepts_exactly_the_format.
Theorem C24_panics_otherwise : forall c file,
  ((exists g, from_dimacs_file c file = Ok g) \/ exists r, from_dimacs_file c file = Panic r) /\
  (file = None -> exists r, from_dimacs_file c file = Panic r) /\
  (forall b, file = Some (mkFileData b true) -> exists r, from_dimacs_file c file = Panic r).
Proof. exact C24_panics_proof. Qed.
Print Assumptions C24_panics_otherwise.
(** The arcs of a text are determined by it. *)
Theorem C24_meaning_is_unique : forall c ss arcs arcs', dimacs_text c ss arcs -> dimacs_text c ss arcs' -> arcs = arcs'.
Proof. exact dimacs_text_fun. Qed.
Print Assumptions C24_meaning_is_unique.

(** The rules of the format one by one: no unknown line, one problem line, arcs after it and within its bounds,
    and as many as declared. *)
Theorem C24_rejects_malformed : forall c b g ss,
  from_dimacs_file c (contents b) = Ok g -> file_lines b ss ->
  (forall s, In s ss -> comment_line s \/ (exists n m, problem_line c s n m) \/ exists f t w, arc_line c s f t w) /\
  (forall i j s s' n m n' m', nth_error ss i = Some s -> nth_error ss j = Some s' ->
     problem_line c s n m -> problem_line c s' n' m' -> i = j) /\
  (forall i s f t w, nth_error ss i = Some s -> arc_line c s f t w ->
     exists j p n m, (j < i)%nat /\ nth_error ss j = Some p /\ problem_line c p n m /\ 1 <= f <= n /\ 1 <= t <= n) /\
  (forall s n m, In s ss -> problem_line c s n m -> lenN (filter (starts_with (str "a ")) ss) = m).
Proof. exact C24_rejects_proof. Qed.
Print Assumptions C24_rejects_malformed.

(** Of a file that is cut off after some line, either the same graph is read, or nothing but comments is left. *)
Theorem C24_cut_after_a_line_partial : forall c b g ss k b' g',
  from_dimacs_file c (contents b) = Ok g -> file_lines b ss ->
  file_lines b' (firstn k ss) -> from_dimacs_file c (contents b') = Ok g' ->
  g' = g \/ ((forall s, In s (firstn k ss) -> comment_line s) /\ g' = mkInputGraph [] 0 true).
Proof. exact C24_cut_proof. Qed.
Print Assumptions C24_cut_after_a_line_partial.

(** The second case cannot be excluded: a file cut off before its problem line is accepted as an empty graph. *)
Theorem C24_cut_before_problem_line_refuted : exists b g b' q g',
  b = b' ++ q /\ from_dimacs_file cfg64 (contents b) = Ok g /\
  from_dimacs_file cfg64 (contents b') = Ok g' /\ g' <> g.
Proof.
  exists (str "c roads
p sp 2 1
a 1 2 3
"), (mkInputGraph [mkEdge 0 1 3] 2 true), (str "c roads
"), (str "p sp 2 1
a 1 2 3
"), (mkInputGraph [] 0 true).
  split; [reflexivity|]. split; [vm_compute; reflexivity|]. split; [vm_compute; reflexivity|]. discriminate.
Qed.
Print Assumptions C24_cut_before_problem_line_refuted.

Example C24_case : from_dimacs_file cfg64 (contents (str "c a comment

p sp 3 2
a 1 3  +7
c another
a 3 2 0")) = Ok (mkInputGraph [mkEdge 0 2 7] 3 true) /\
  from_dimacs_file cfg64 (contents (str "p sp 3 2
a 1 3 7
")) = Panic (PAssert "Not enough arc lines") /\
  from_dimacs_file cfg64 (contents (str "p sp 3 1
a 1 4 7
")) = Panic (PAssert "Invalid nodes in line").
Proof. repeat split; vm_compute; reflexivity. Qed.

(** C25: the declared number of nodes is an upper bound ... *)
Theorem C25_declared_nodes_are_a_bound_partial : forall c b g ss s n m,
  from_dimacs_file c (contents b) = Ok g -> file_lines b ss -> In s ss -> problem_line c s n m ->
  ig_num_nodes g <= n.
Proof. exact C25_proof. Qed.
Print Assumptions C25_declared_nodes_are_a_bound_partial.
(** ... which is reached exactly if the last node has an edge that is kept ... *)
Theorem C25_declared_nodes_exact : forall c b g ss s n m,
  from_dimacs_file c (contents b) = Ok g -> file_lines b ss -> In s ss -> problem_line c s n m -> 1 <= n ->
  (ig_num_nodes g = n <->
   exists l f t w, In l ss /\ arc_line c l f t w /\ f <> t /\ 1 <= w /\ (f = n \/ t = n)).
Proof. exact C25_exact_proof. Qed.
Print Assumptions C25_declared_nodes_exact.
(** ... but not always the number of nodes. *)
Theorem C25_declared_nodes_refuted : exists b g ss s n m,
  from_dimacs_file cfg64 (contents b) = Ok g /\ file_lines b ss /\ In s ss /\ problem_line cfg64 s n m /\
  ig_num_nodes g <> n.
Proof. exact C25_refuted_proof. Qed.
Print Assumptions C25_declared_nodes_refuted.

(** C26: whatever the device does, the file holds a prefix of the text; if the call returns Ok, at most
    the last 8192 bytes are missing; without device errors, nothing is missing. *)
Theorem C26_written_file_is_a_prefix_partial : forall c ops g dv old,
  (debug_build c = true \/ forall e, In e (accepted ops) -> e_from e < umax c /\ e_to e < umax c) ->
  frozen_graph c ops g ->
  (let '(file, r) := to_file dv old g in
   (r = Ok IoOk \/ r = Ok IoErr) /\
   (dv_create_ok dv = false -> file = old /\ r = Ok IoErr) /\
   (dv_create_ok dv = true -> exists b q, file = Some b /\ plain_file (ig_edges g) = b ++ q /\
      (r = Ok IoOk -> lenN q <= 8192) /\ (reliable dv -> q = [] /\ r = Ok IoOk))) /\
  (let '(file, r) := to_dimacs_file c dv old g in
   (r = Ok IoOk \/ r = Ok IoErr) /\
   (dv_create_ok dv = false -> file = old /\ r = Ok IoErr) /\
   (dv_create_ok dv = true -> exists b q, file = Some b /\ dimacs_file (ig_num_nodes g) (ig_edges g) = b ++ q /\
      (r = Ok IoOk -> lenN q <= 8192) /\ (reliable dv -> q = [] /\ r = Ok IoOk))).
Proof. exact C26_prefix_proof. Qed.
Print Assumptions C26_written_file_is_a_prefix_partial.

(** But Ok does not mean that the text has arrived: errors of the last flush are lost. *)
Theorem C26_ok_means_complete_refuted : exists dv ops g b,
  frozen_graph cfg64 ops g /\
  to_file dv None g = (Some b, Ok IoOk) /\ b <> plain_file (ig_edges g) /\
  to_dimacs_file cfg64 dv None g = (Some b, Ok IoOk) /\ b <> dimacs_file (ig_num_nodes g) (ig_edges g).
Proof.
  exists (mkDevice true [WErr]), ex_ops, ex_ig, [].
  split; [exact ex_frozen|]. split; [vm_compute; reflexivity|]. split; [discriminate|]. split; [vm_compute; reflexivity|discriminate].
Qed.
Print Assumptions C26_ok_means_complete_refuted.

(** A plain file that is cut off at any byte is read as a prefix of the edges, perhaps with a smaller weight
    of the last one; or the reader panics. *)
Theorem C26_truncated_plain_file_partial : forall c ops g p q g',
  (debug_build c = true \/ forall e, In e (accepted ops) -> e_from e < umax c /\ e_to e < umax c) ->
  frozen_graph c ops g -> plain_file (ig_edges g) = p ++ q -> from_file c (contents p) = Ok g' ->
  exists es1 es2,
    (ig_edges g = es1 ++ es2 /\ graph_of c es1 = Ok g') \/
    (exists e w', ig_edges g = es1 ++ e :: es2 /\ 1 <= w' <= e_weight e /\
       graph_of c (es1 ++ [mkEdge (e_from e) (e_to e) w']) = Ok g').
Proof. exact C26_plain_proof. Qed.
Print Assumptions C26_truncated_plain_file_partial.

(** A DIMACS file that is cut off at any byte is read as the same graph, or with a smaller weight of
    the last edge, or nothing at all is left of it; or the reader panics. *)
Theorem C26_truncated_dimacs_file_partial : forall c ops g p q g',
  (debug_build c = true \/ forall e, In e (accepted ops) -> e_from e < umax c /\ e_to e < umax c) ->
  frozen_graph c ops g -> dimacs_file (ig_num_nodes g) (ig_edges g) = p ++ q ->
  from_dimacs_file c (contents p) = Ok g' ->
  p = [] \/ g' = g \/
  exists es1 e w', ig_edges g = es1 ++ [e] /\ 1 <= w' < e_weight e /\
    graph_of c (es1 ++ [mkEdge (e_from e) (e_to e) w']) = Ok g'.
Proof. exact C26_dimacs_proof. Qed.
Print Assumptions C26_truncated_dimacs_file_partial.

(** Both formats are silently accepted after some cuts. *)
Theorem C26_truncation_refuted :
  (exists ops g p q g', frozen_graph cfg64 ops g /\ plain_file (ig_edges g) = p ++ q /\
     from_file cfg64 (contents p) = Ok g' /\ g' <> g) /\
  (exists ops g p q g', frozen_graph cfg64 ops g /\ p <> [] /\ dimacs_file (ig_num_nodes g) (ig_edges g) = p ++ q /\
     from_dimacs_file cfg64 (contents p) = Ok g' /\ g' <> g).
Proof. exact C26_truncation_proof. Qed.
Print Assumptions C26_truncation_refuted.
Example C26_case : frozen_graph cfg64 ex_ops ex_ig /\
  exists p q, dimacs_file (ig_num_nodes ex_ig) (ig_edges ex_ig) = p ++ q /\ q <> [] /\ from_dimacs_file cfg64 (contents p) = Ok ex_ig.
Proof.
  split; [exact ex_frozen|]. exists (removelast (dimacs_file (ig_num_nodes ex_ig) (ig_edges ex_ig))), [10].
  split; [vm_compute; reflexivity|]. split; [discriminate|vm_compute; reflexivity].
Qed.

(** C41: from_file takes exactly the lines that start with "a " as arcs, ignores all others, and panics if an
    arc line is malformed. *)
Theorem C41_accepts_exactly_the_format : forall c b g,
  from_file c (contents b) = Ok g <->
  exists ss arcs, file_lines b ss /\ plain_text c ss arcs /\ graph_of c arcs = Ok g.
Proof. exact from_file_spec. Qed.
Print Assumptions C41_accepts_exactly_the_format.
Theorem C41_panics_otherwise : forall c file,
  ((exists g, from_file c file = Ok g) \/ exists r, from_file c file = Panic r) /\
  (file = None -> exists r, from_file c file = Panic r) /\
  (forall b, file = Some (mkFileData b true) -> exists r, from_file c file = Panic r).
Proof. exact C41_panics_proof. Qed.
Print Assumptions C41_panics_otherwise.
(** The arcs of a text are determined by it. *)
Theorem C41_meaning_is_unique : forall c ss arcs arcs',
  plain_text c ss arcs -> plain_text c ss arcs' -> arcs = arcs'.
Proof. exact plain_text_fun. Qed.
Print Assumptions C41_meaning_is_unique.
Example C41_case : from_file cfg64 (contents (str "any line
a 1 3  +7
ab 1
a 3 2 0")) = Ok (mkInputGraph [mkEdge 1 3 7] 4 true) /\
  from_file cfg64 (contents (str "a 1 3 -7")) = Panic PUnwrap /\
  from_file cfg64 (contents (str "a 1 3 7 9")) = Panic (PAssert "Invalid arc line").
Proof. repeat split; vm_compute; reflexivity. Qed.

(** C19 for files: writing a graph that is not frozen panics.  The file has been emptied by then. *)
Theorem C19_writing_needs_freeze : forall c ops g dv old,
  ig_run c ig_new ops = Ok g -> frozen_after ops = false -> dv_create_ok dv = true ->
  to_file dv old g = (Some [], Panic (PExplicit msg_not_frozen)) /\
  to_dimacs_file c dv old g = (Some [], Panic (PExplicit msg_not_frozen)).
Proof. exact C19_files_proof. Qed.
Print Assumptions C19_writing_needs_freeze.

(** C42: files may be read on another platform if the counts and weights fit into its usize ... *)
Theorem C42_files_are_portable : forall c c' ops g,
  (debug_build c = true \/ forall e, In e (accepted ops) -> e_from e < umax c /\ e_to e < umax c) ->
  frozen_graph c ops g ->
  ig_num_nodes g <= umax c' -> lenN (ig_edges g) <= umax c' / 2 -> (forall e, In e (ig_edges g) -> e_weight e <= umax c') ->
  from_file c' (contents (plain_file (ig_edges g))) = Ok g /\
  from_dimacs_file c' (contents (dimacs_file (ig_num_nodes g) (ig_edges g))) = Ok g.
Proof. exact C42_proof. Qed.
Print Assumptions C42_files_are_portable.
(** ... and a value that does not fit makes the reader panic; nothing is truncated silently. *)
Theorem C42_large_values_are_rejected : forall c' g e,
  In e (ig_edges g) -> (umax c' < e_from e \/ umax c' < e_to e \/ umax c' < e_weight e) ->
  (exists r, from_file c' (contents (plain_file (ig_edges g))) = Panic r) /\
  (exists r, from_dimacs_file c' (contents (dimacs_file (ig_num_nodes g) (ig_edges g))) = Panic r).
Proof. exact C42_overflow_proof. Qed.
Print Assumptions C42_large_values_are_rejected.
Example C42_case :
  from_file (mkCfg 4294967295 true) (contents (plain_file (ig_edges ex_ig))) = Ok ex_ig /\
  from_file (mkCfg 4294967295 true) (contents (str "a 0 1 4294967296")) = Panic PUnwrap /\
  In (mkEdge 0 1 4294967296) (ig_edges (mkInputGraph [mkEdge 0 1 4294967296] 2 true)).
Proof. split; [vm_compute; reflexivity|]. split; [vm_compute; reflexivity|]. simpl; auto. Qed.
