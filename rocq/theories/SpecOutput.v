(** * SpecOutput: which calls a piece of Rust code stands for *)
From Verif Require Export TestOutput SpecText.
Open Scope N_scope.

(** [code s calls]: the text [s] consists of statements "g.add_edge(from, to, weight);", perhaps with line
    breaks before and after them, and [calls] are the calls they make, in this order.  The numbers may
    have leading zeros, as in Rust. *)
Inductive code : list N -> list ig_op -> Prop :=
| code_end : code [] []
| code_newline s calls : code s calls -> code (10 :: s) calls
| code_call a b d f t w s calls : denotes a f -> denotes b t -> denotes d w -> code s calls ->
    code (str "g.add_edge(" ++ a ++ str ", " ++ b ++ str ", " ++ d ++ str ");" ++ s)
      (OpAddEdge f t w :: calls).
