(** * ShortestPath: model of shortest_path.rs *)
From Verif Require Export Base.

(** shortest_path.rs:26-31 and ShortestPath::new:41-48 *)
Record ShortestPath := mkSP {
  sp_source : N;
  sp_target : N;
  sp_weight : N;
  sp_nodes : list N
}.

(** shortest_path.rs:33-38, PartialEq::eq *)
Definition sp_eqb (a b : ShortestPath) : bool :=
  (sp_source a =? sp_source b) && (sp_target a =? sp_target b) &&
  (sp_weight a =? sp_weight b).

(** shortest_path.rs:50-57, singular *)
Definition sp_singular (node : N) : ShortestPath := mkSP node node WEIGHT_ZERO [node].

(** shortest_path.rs:59-66, none *)
Definition sp_none (c : cfg) (source target : N) : ShortestPath :=
  mkSP source target (WEIGHT_MAX c) [].

(** shortest_path.rs:84-86, is_found *)
Definition sp_is_found (c : cfg) (p : ShortestPath) : bool :=
  negb (sp_weight p =? WEIGHT_MAX c).

(** shortest_path.rs:68-82, get_source, get_target, get_weight, get_nodes *)
Definition sp_get_source (p : ShortestPath) : N := sp_source p.
Definition sp_get_target (p : ShortestPath) : N := sp_target p.
Definition sp_get_weight (p : ShortestPath) : N := sp_weight p.
Definition sp_get_nodes (p : ShortestPath) : list N := sp_nodes p.
