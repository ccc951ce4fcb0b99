(** * SpecApi: the ways in which a user obtains prepared graphs, calculators and answers.

    The heap and the priority queue are library types; what they may do is only constrained by
    [heap_laws] and [pq_laws] (Heap.v), so every statement below ranges over all of them. *)
From Verif Require Export SpecGraph Lib Unwind.

(** [order] lists every node id below [n] exactly once. *)
Definition permutation_of_nodes (n : N) (order : list N) : Prop :=
  NoDup order /\ (forall x, In x order <-> x < n).

(** [fg] is returned by prepare_with_params (prepare is the case of default parameters). *)
Definition prepared_by_params (c : cfg) (ig : InputGraph) (params : Params) (fg : FastGraph)
  : Prop :=
  exists H hinv Q qinv, heap_laws H hinv /\ pq_laws Q qinv /\
    prepare_with_params c H Q ig params = Ok fg.

(** [fg] is returned by prepare_with_order_with_params (prepare_with_order is the case of
    default parameters). *)
Definition prepared_by_order (c : cfg) (ig : InputGraph) (order : list N)
  (params : ParamsWithOrder) (fg : FastGraph) : Prop :=
  exists H hinv, heap_laws H hinv /\
    prepare_with_order_with_params c H ig order params = Ok (inl fg).

(** [fg] is returned by one of the four preparation functions; given orders are permutations. *)
Definition prepared (c : cfg) (ig : InputGraph) (fg : FastGraph) : Prop :=
  (exists params, prepared_by_params c ig params fg) \/
  (exists order params, permutation_of_nodes (ig_num_nodes ig) order /\
     prepared_by_order c ig order params fg).

(** [pc] is a calculator created for graphs with [n] nodes and used for any number of queries, on
    any graphs; also queries that panicked, where the caller caught the panic and kept the calculator. *)
Inductive calculator (c : cfg) (n : N) : PathCalculator -> Prop :=
| calculator_new fg :
    fg_get_num_nodes fg = n -> calculator c n (create_calculator c fg)
| calculator_multi H hinv pc fg sources targets pc' r :
    calculator c n pc -> heap_laws H hinv ->
    pc_calc_path_multiple c H pc fg sources targets = Ok (pc', r) ->
    calculator c n pc'
| calculator_single H hinv pc fg s t pc' r :
    calculator c n pc -> heap_laws H hinv ->
    pc_calc_path c H pc fg s t = Ok (pc', r) ->
    calculator c n pc'
| calculator_unwound H hinv pc fg sources targets pc' r :
    calculator c n pc -> heap_laws H hinv ->
    st_calc_path_multiple c H fg sources targets pc = (pc', Panic r) ->
    calculator c n pc'.

(** [r] is returned for one source and one target, by calc_path or by any calculator. *)
Definition answer (c : cfg) (fg : FastGraph) (s t : N) (r : option ShortestPath) : Prop :=
  exists H hinv, heap_laws H hinv /\
    (calc_path c H fg s t = Ok r \/
     exists n pc pc', calculator c n pc /\ pc_calc_path c H pc fg s t = Ok (pc', r)).

(** [r] is returned for lists of weighted sources and targets, by
    calc_path_multiple_sources_and_targets or by any calculator. *)
Definition answer_multi (c : cfg) (fg : FastGraph) (sources targets : list (N * N))
  (r : option ShortestPath) : Prop :=
  exists H hinv, heap_laws H hinv /\
    (calc_path_multiple c H fg sources targets = Ok r \/
     exists n pc pc', calculator c n pc /\
       pc_calc_path_multiple c H pc fg sources targets = Ok (pc', r)).

(** Sizes for which preparation cannot overflow: [M] bounds the weights, [n] is the number of nodes. *)
Definition prep_bound (c : cfg) (n M : N) : Prop :=
  M * 2 ^ (n + 1) <= umax c /\ n * n <= umax c / 2 /\ n + 1 <= umax c / 2.

(** The edges stored in a prepared graph, as plain edges from fe_base to fe_adj. *)
Definition stored (es : list FastGraphEdge) : list Edge :=
  map (fun e => mkEdge (fe_base e) (fe_adj e) (fe_weight e)) es.

(** The same platform, compiled without overflow checks and debug assertions. *)
Definition unchecked (c : cfg) : cfg := mkCfg (umax c) false.

(** What the caller of a query sees, apart from the state of the calculator. *)
Definition result_of (m : res (PathCalculator * option ShortestPath)) : res (option ShortestPath) :=
  '(_, r) <- m ;; Ok r.
