(** * PropSerial: C44-C49, saved graphs *)
From Verif Require Export SerialExt Examples.
Open Scope N_scope.

(** C44: a graph that is saved and loaded is the same graph; what follows it in the file is left
    for the next reader. *)
Theorem C44_round_trip : forall c fg rest, platform c -> representable c fg ->
  dec_fast_graph c (enc_fast_graph fg ++ rest) = Loaded fg rest.
Proof. exact C44_proof. Qed.
Print Assumptions C44_round_trip.

(** Every prepared graph can be saved and loaded. *)
Theorem C44_prepared_graph : forall c ops ig fg, platform c -> 1 <= umax c -> frozen_graph c ops ig ->
  prepared c ig fg -> load_from_disk c (save_to_disk fg) = inr fg.
Proof. exact C44_prepared_proof. Qed.
Print Assumptions C44_prepared_graph.

(** So can every input graph, frozen or not. *)
Theorem C44_input_graph : forall c ops ig rest, platform c -> (forall o, In o ops -> op_repr c o) ->
  ig_run c ig_new ops = Ok ig -> dec_input_graph c (enc_input_graph ig ++ rest) = Loaded ig rest.
Proof. exact C44_input_proof. Qed.
Print Assumptions C44_input_graph.

(** Different graphs give different files, so files can be compared instead of graphs. *)
Theorem C44_injective : forall c fg1 fg2, platform c -> representable c fg1 -> representable c fg2 ->
  save_to_disk fg1 = save_to_disk fg2 -> fg1 = fg2.
Proof. exact C44_injective_proof. Qed.
Print Assumptions C44_injective.

(** What is written are bytes. *)
Theorem C44_bytes : forall fg b, In b (save_to_disk fg) -> b < 256.
Proof. exact C44_bytes_proof. Qed.
Print Assumptions C44_bytes.

(** Every file that loads starts with what saving writes for the loaded graph: saving it again gives the
    same bytes, and nothing is guessed, defaulted or ignored in front of the end of the graph. *)
Theorem C44_only_saved_graphs_load : forall c file fg, (forall b, In b file -> b < 256) ->
  load_from_disk c file = inr fg -> representable c fg /\ exists extra, file = save_to_disk fg ++ extra.
Proof. exact C44_file_proof. Qed.
Print Assumptions C44_only_saved_graphs_load.
Theorem C44_only_saved_input_graphs_load : forall c file ig rest, (forall b, In b file -> b < 256) ->
  dec_input_graph c file = Loaded ig rest -> file = enc_input_graph ig ++ rest.
Proof. exact C44_input_file_proof. Qed.
Print Assumptions C44_only_saved_input_graphs_load.

Example C44_case : platform cfg64 /\ representable cfg64 ex_fg /\
  load_from_disk cfg64 (save_to_disk ex_fg) = inr ex_fg /\
  dec_input_graph cfg64 (enc_input_graph ex_ig) = Loaded ex_ig [] /\
  firstn 16 (save_to_disk ex_fg) = [6; 0; 0; 0; 0; 0; 0; 0; 6; 0; 0; 0; 0; 0; 0; 0] /\
  In 255 (save_to_disk ex_fg).
Proof.
  split; [reflexivity|]. split; [apply representable_ok; vm_compute; reflexivity|].
  split; [vm_compute; reflexivity|]. split; [vm_compute; reflexivity|]. split; [vm_compute; reflexivity|].
  vm_compute. tauto.
Qed.

(** C45: if the process stops while a graph is being saved, the file is recognised as incomplete. *)
Theorem C45_cut_file : forall c fg piece, platform c -> representable c fg -> cut (save_to_disk fg) piece ->
  load_from_disk c piece = inl EUnexpectedEof.
Proof. exact C45_proof. Qed.
Print Assumptions C45_cut_file.
Theorem C45_cut_file_32 : forall c c' fg bytes piece, platform64 c -> platform c' ->
  serialize_32 c fg = Ok bytes -> vectors_fit c' fg -> cut bytes piece ->
  load_from_disk32 c' piece = Ok (inl EUnexpectedEof).
Proof. exact C45_32_proof. Qed.
Print Assumptions C45_cut_file_32.
Theorem C45_cut_input_graph : forall c ops ig piece, platform c -> (forall o, In o ops -> op_repr c o) ->
  ig_run c ig_new ops = Ok ig -> cut (enc_input_graph ig) piece ->
  dec_input_graph c piece = LoadError EUnexpectedEof.
Proof. exact C45_input_proof. Qed.
Print Assumptions C45_cut_input_graph.
(** This does not depend on the platform that reads the file: on any other platform loading fails, too,
    perhaps because of an integer that does not fit. *)
Theorem C45_cut_file_any_platform : forall c c' fg piece, platform c -> representable c fg ->
  cut (save_to_disk fg) piece -> exists e, load_from_disk c' piece = inl e.
Proof. exact C45_any_proof. Qed.
Print Assumptions C45_cut_file_any_platform.
Theorem C45_cut_file_32_any_platform : forall c c' fg bytes piece, platform64 c -> vectors_fit c fg ->
  serialize_32 c fg = Ok bytes -> cut bytes piece -> exists e, load_from_disk32 c' piece = Ok (inl e).
Proof. exact C45_any_32_proof. Qed.
Print Assumptions C45_cut_file_32_any_platform.
Theorem C45_cut_input_graph_any_platform : forall c c' ops ig piece, platform c ->
  (forall o, In o ops -> op_repr c o) -> ig_run c ig_new ops = Ok ig -> cut (enc_input_graph ig) piece ->
  exists e, dec_input_graph c' piece = LoadError e.
Proof. exact C45_any_input_proof. Qed.
Print Assumptions C45_cut_input_graph_any_platform.
Example C45_case : cut (save_to_disk ex_fg) (removelast (save_to_disk ex_fg)) /\
  load_from_disk cfg64 (removelast (save_to_disk ex_fg)) = inl EUnexpectedEof /\
  cut (save_to_disk ex_fg) [] /\ load_from_disk cfg64 [] = inl EUnexpectedEof.
Proof.
  split; [exists [last (save_to_disk ex_fg) 0]; split; [discriminate|apply app_removelast_last; vm_compute; discriminate]|].
  split; [vm_compute; reflexivity|].
  split; [exists (save_to_disk ex_fg); split; [vm_compute; discriminate|reflexivity]|reflexivity].
Qed.

(** C46: serialize_32 and deserialize_32 restore the graph... *)
Theorem C46_round_trip_32 : forall c ops ig fg,
  platform64 c -> frozen_graph c ops ig -> prepared c ig fg ->
  values_below (2 ^ 32 - 1) fg ->
  exists bytes, serialize_32 c fg = Ok bytes /\
    forall rest, deserialize_32 c (bytes ++ rest) = Ok (Loaded fg rest).
Proof. exact C46_proof. Qed.
Print Assumptions C46_round_trip_32.
(** ... and what is read on a 32-bit platform answers queries correctly there. *)
Theorem C46_written_64_read_32 : forall c c' ops ig fg,
  platform64 c -> debug_build c = true -> frozen_graph c ops ig -> prepared c ig fg ->
  platform32 c' -> debug_build c' = true ->
  values_below (2 ^ 32 - 1) fg ->
  fg_get_num_nodes fg < 2 ^ 31 - 1 -> fg_get_num_out_edges fg < 2 ^ 31 - 1 -> fg_get_num_in_edges fg < 2 ^ 31 - 1 ->
  exists bytes fg', serialize_32 c fg = Ok bytes /\
    (forall rest, deserialize_32 c' (bytes ++ rest) = Ok (Loaded fg' rest)) /\
    (forall sources targets r, answer_multi c' fg' sources targets r ->
      match r with
      | Some p =>
          sp_get_weight p < WEIGHT_MAX c' /\
          total (accepted ops) sources targets (sp_get_source p) (sp_get_target p) (sp_get_nodes p) (sp_get_weight p) /\
          (forall s t ns W, total (accepted ops) sources targets s t ns W -> sp_get_weight p <= W)
      | None => forall s t ns W, total (accepted ops) sources targets s t ns W -> WEIGHT_MAX c' <= W
      end).
Proof. exact C46_cross_proof. Qed.
Print Assumptions C46_written_64_read_32.
(** serialize_32 panics exactly if some integer other than usize::MAX needs more than 32 bits. *)
Theorem C46_panics_iff_too_large : forall c fg, platform64 c ->
  ((exists x, In x (ints fg) /\ u32_max < x /\ x <> umax c) <->
   serialize_32 c fg = Panic (PExplicit "Could not convert to a 32-bit integer")) /\
  ((forall x, In x (ints fg) -> x <= u32_max \/ x = umax c) <-> exists bytes, serialize_32 c fg = Ok bytes).
Proof. exact C46_panic_proof. Qed.
Print Assumptions C46_panics_iff_too_large.
(** A file in the 32-bit form that loads on a 64-bit platform starts with what saving the loaded graph
    writes. *)
Theorem C46_only_saved_graphs_load : forall c file fg, platform64 c -> (forall b, In b file -> b < 256) ->
  load_from_disk32 c file = Ok (inr fg) ->
  exists bytes extra, save_to_disk32 c fg = Ok bytes /\ file = bytes ++ extra.
Proof. exact C46_file_proof. Qed.
Print Assumptions C46_only_saved_graphs_load.
Definition cfg32 : cfg := mkCfg 4294967295 true.
Definition ex_bytes32 : list N := Eval vm_compute in get_ok (serialize_32 cfg64 ex_fg) [].
Example C46_case : serialize_32 cfg64 ex_fg = Ok ex_bytes32 /\
  load_from_disk32 cfg64 ex_bytes32 = Ok (inr ex_fg) /\
  exists fg', load_from_disk32 cfg32 ex_bytes32 = Ok (inr fg') /\
    calc_path cfg32 list_heap fg' 0 4 = Ok (Some ex_path).
Proof.
  split; [vm_compute; reflexivity|]. split; [vm_compute; reflexivity|].
  eexists. split; [vm_compute; reflexivity|]. vm_compute. reflexivity.
Qed.

(** a foreign file with extra bytes, and pieces read on the other platform *)
Definition ex_foreign : list N := repeat 0 44 ++ [7; 8].
Example C46_case_file : load_from_disk32 cfg64 ex_foreign = Ok (inr (mkFG 0 [] [] [] [] [])) /\
  save_to_disk32 cfg64 (mkFG 0 [] [] [] [] []) = Ok (repeat 0 44) /\
  load_from_disk32 cfg64 (repeat 0 43) = Ok (inl EUnexpectedEof) /\
  load_from_disk32 cfg32 (removelast ex_bytes32) = Ok (inl EUnexpectedEof) /\
  load_from_disk cfg64 (save_to_disk ex_fg ++ [7; 8]) = inr ex_fg.
Proof. split; [|split; [|split; [|split]]]; vm_compute; reflexivity. Qed.
Example C45_case_platform : load_from_disk cfg32 (removelast (save_to_disk ex_fg)) = inl EIntegerRange.
Proof. vm_compute. reflexivity. Qed.

(** C47: the size of the files; the 32-bit form takes half the space, up to the 20 bytes of the
    lengths. *)
Theorem C47_size : forall fg, lenN (save_to_disk fg) = 40 + 8 * lenN (ints fg).
Proof. exact C47_plain_proof. Qed.
Print Assumptions C47_size.
Theorem C47_size_32 : forall c fg bytes, platform64 c -> serialize_32 c fg = Ok bytes ->
  lenN bytes = 40 + 4 * lenN (ints fg).
Proof. exact C47_32_proof. Qed.
Print Assumptions C47_size_32.
Example C47_case : lenN (save_to_disk ex_fg) = 608 /\ lenN ex_bytes32 = 324.
Proof. split; vm_compute; reflexivity. Qed.

(** C48: a file written on another platform is loaded exactly, or rejected as having integers out
    of range; never is an integer truncated. *)
Theorem C48_other_platform : forall c c' fg extra, platform c -> representable c fg ->
  (representable c' fg -> load_from_disk c' (save_to_disk fg ++ extra) = inr fg) /\
  (~ representable c' fg -> load_from_disk c' (save_to_disk fg ++ extra) = inl EIntegerRange).
Proof. exact C48_proof. Qed.
Print Assumptions C48_other_platform.
(** In particular a prepared graph with at least one edge has to be converted to be read on a 32-bit
    platform. *)
Theorem C48_plain_64_is_rejected_on_32 : forall c c' ops ig fg,
  platform64 c -> frozen_graph c ops ig ->
  prepared c ig fg -> platform32 c' -> all_edges fg <> [] ->
  load_from_disk c' (save_to_disk fg) = inl EIntegerRange.
Proof. exact C48_prepared_proof. Qed.
Print Assumptions C48_plain_64_is_rejected_on_32.
Example C48_case : load_from_disk cfg32 (save_to_disk ex_fg) = inl EIntegerRange /\
  load_from_disk cfg32 (save_to_disk (mkFG 2 [1; 0] [] [0; 0; 0] [] [0; 0; 0])) =
    inr (mkFG 2 [1; 0] [] [0; 0; 0] [] [0; 0; 0]).
Proof. split; vm_compute; reflexivity. Qed.

(** C49: loading does not validate: other files can be loaded and make queries panic, and reading
    them in the 32-bit form can panic itself.  Saved graphs are safe. *)
Theorem C49_foreign_file_refuted : exists file fg,
  load_from_disk cfg64 file = inr fg /\ calc_path cfg64 list_heap fg 0 1 = Panic PIndex.
Proof.
  exists (save_to_disk (mkFG 2 [] [] [] [] [])), (mkFG 2 [] [] [] [] []). split; vm_compute; reflexivity.
Qed.
Print Assumptions C49_foreign_file_refuted.
Theorem C49_foreign_file_32_refuted : exists file, load_from_disk32 cfg32 file = Panic PCapacity.
Proof.
  exists (enc_fast_graph32 (mkFG32 4294967295 [] [] [] [] [])). vm_compute. reflexivity.
Qed.
Print Assumptions C49_foreign_file_32_refuted.
(** The part that holds: a prepared graph that was saved and loaded answers all queries for
    existing nodes. *)
Theorem C49_saved_file_partial : forall c ops ig fg H hinv s t,
  platform c -> 1 <= umax c -> frozen_graph c ops ig -> prepared c ig fg -> heap_laws H hinv ->
  s < ig_num_nodes ig -> t < ig_num_nodes ig ->
  exists fg', load_from_disk c (save_to_disk fg) = inr fg' /\
    ((exists r, calc_path c H fg' s t = Ok r) \/ debug_build c = true /\ calc_path c H fg' s t = Panic POverflow).
Proof. exact C49_proof. Qed.
Print Assumptions C49_saved_file_partial.
