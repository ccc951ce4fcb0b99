(** * TestOutput: model of the output of a graph as Rust code (input_graph.rs) *)
From Verif Require Export Text InputGraph.

(** [String]::join of the standard library: the separator goes between two parts. *)
Fixpoint join (sep : list N) (parts : list (list N)) : list N :=
  match parts with
  | [] => []
  | [p] => p
  | p :: rest => p ++ sep ++ join sep rest
  end.

(** input_graph.rs:361-363, Edge::unit_test_output_string *)
Definition edge_output (e : Edge) : list N :=
  str "g.add_edge(" ++ dec (e_from e) ++ str ", " ++ dec (e_to e) ++ str ", " ++
  dec (e_weight e) ++ str ");".

(** input_graph.rs:170-178, InputGraph::unit_test_output_string *)
Definition unit_test_output_string (g : InputGraph) : list N :=
  join [10] (map edge_output (ig_edges g)) ++ [10].

(** input_graph.rs:337-341, Debug::fmt for InputGraph; the formatter writes into a string, so that
    writing does not fail. *)
Definition ig_debug (g : InputGraph) : list N := unit_test_output_string g.
