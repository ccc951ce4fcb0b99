(** * SpecTextProgram: from a text file to a shortest path *)
From Verif Require Export SpecText SpecProgram.
Open Scope N_scope.

(** Read a text file, prepare the graph and ask for a path; the steps of run_performance_test
    (lib.rs:402-521), with the default parameters and one query. *)
Definition plain_program (c : cfg) (file : option file_data) (source target : N) : res (option ShortestPath) :=
  ig <- from_file c file ;;
  fg <- prepare c bin_heap bin_pq ig ;;
  calc_path c bin_heap fg source target.
(** The same for a DIMACS file.  [source] and [target] are the numbers used in the file, which start with 1. *)
Definition dimacs_program (c : cfg) (file : option file_data) (source target : N) : res (option ShortestPath) :=
  ig <- from_dimacs_file c file ;;
  fg <- prepare c bin_heap bin_pq ig ;;
  calc_path c bin_heap fg (source - 1) (target - 1).

(** Arcs as they are given to add_edge *)
Definition triples (arcs : list Edge) : list (N * N * N) := map (fun e => (e_from e, e_to e, e_weight e)) arcs.
(** The numbers in a DIMACS file of the nodes of a path *)
Definition file_numbers (ns : list N) : list N := map (fun v => v + 1) ns.
