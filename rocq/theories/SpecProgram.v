(** * SpecProgram: the program of the README, from a list of edges to a path, with no oracle *)
From Verif Require Export SpecApi BinPq.

(** README.md:18-47, "Basic usage": add all edges to a new InputGraph, freeze() it, prepare() it, and call
    calc_path().  The two priority queues are the array algorithms of the libraries. *)
Definition readme_program (c : cfg) (edges : list (N * N * N)) (source target : N) : res (option ShortestPath) :=
  ig <- ig_run c ig_new (map (fun '(u, v, w) => OpAddEdge u v w) edges ++ [OpFreeze]) ;;
  fg <- prepare c bin_heap bin_pq ig ;;
  calc_path c bin_heap fg source target.

(** The given edges without loops and without edges of weight zero: these are ignored. *)
Definition usable (edges : list (N * N * N)) : list Edge :=
  filter (fun e => negb (e_from e =? e_to e) && (1 <=? e_weight e)) (map (fun '(u, v, w) => mkEdge u v w) edges).

(** Node [v] exists: it is not greater than all nodes that usable edges mention. *)
Definition known (edges : list (N * N * N)) (v : N) : Prop :=
  exists e, In e (usable edges) /\ (v <= e_from e \/ v <= e_to e).

(** All numbers are values of type usize. *)
Definition usize_edges (c : cfg) (edges : list (N * N * N)) : Prop :=
  forall u v w, In (u, v, w) edges -> u <= umax c /\ v <= umax c /\ w <= umax c.

(** README.md:50-77: one calculator answers a list of queries, each from weighted sources to weighted targets. *)
Fixpoint run_batch (c : cfg) (pc : PathCalculator) (fg : FastGraph) (queries : list (list (N * N) * list (N * N)))
  : res (list (option ShortestPath)) :=
  match queries with
  | [] => Ok []
  | (sources, targets) :: rest =>
      '(pc', r) <- pc_calc_path_multiple c bin_heap pc fg sources targets ;;
      rs <- run_batch c pc' fg rest ;;
      Ok (r :: rs)
  end.
Definition readme_batch (c : cfg) (edges : list (N * N * N)) (queries : list (list (N * N) * list (N * N)))
  : res (list (option ShortestPath)) :=
  ig <- ig_run c ig_new (map (fun '(u, v, w) => OpAddEdge u v w) edges ++ [OpFreeze]) ;;
  fg <- prepare c bin_heap bin_pq ig ;;
  run_batch c (create_calculator c fg) fg queries.

(** The right answer to a query: a path of least total weight, or None if all are too heavy. *)
Definition right_answer (c : cfg) (edges : list (N * N * N)) (query : list (N * N) * list (N * N))
  (r : option ShortestPath) : Prop :=
  match r with
  | Some p =>
      total (usable edges) (fst query) (snd query) (sp_get_source p) (sp_get_target p) (sp_get_nodes p) (sp_get_weight p) /\
      (forall s t ns W, total (usable edges) (fst query) (snd query) s t ns W -> sp_get_weight p <= W)
  | None => forall s t ns W, total (usable edges) (fst query) (snd query) s t ns W -> umax c <= W
  end.

(** A query that is not allowed, and the message it is rejected with. *)
Inductive not_allowed (edges : list (N * N * N)) : list (N * N) * list (N * N) -> string -> Prop :=
| no_start ts : not_allowed edges ([], ts) "there has to be at least one start"
| no_end ss : not_allowed edges (ss, []) "there has to be at least one end"
| bad_start ss ts v w : In (v, w) ss -> ~ known edges v -> not_allowed edges (ss, ts) "invalid start node"
| bad_end ss ts v w : In (v, w) ts -> ~ known edges v -> not_allowed edges (ss, ts) "invalid end node".

(** README.md:96-109: the order found for one graph is used to prepare another one, which is then queried. *)
Definition readme_update (c : cfg) (edges edges' : list (N * N * N)) (source target : N)
  : res (option ShortestPath + string) :=
  ig <- ig_run c ig_new (map (fun '(u, v, w) => OpAddEdge u v w) edges ++ [OpFreeze]) ;;
  fg <- prepare c bin_heap bin_pq ig ;;
  order <- get_node_ordering fg ;;
  ig' <- ig_run c ig_new (map (fun '(u, v, w) => OpAddEdge u v w) edges' ++ [OpFreeze]) ;;
  prep <- prepare_with_order c bin_heap ig' order ;;
  match prep with
  | inr msg => Ok (inr msg)
  | inl fg' => r <- calc_path c bin_heap fg' source target ;; Ok (inl r)
  end.
