(** * UnitTests: the unit tests of /repo with literal inputs, run on the model

    These are tests of the model, not proofs about it: every assertion that the unit tests of the
    code make is checked here of the definitions that model the code, with a model of the binary
    heap of the standard library ([bin_heap]) and with a list ([list_heap]). *)
From Verif Require Export Examples BinHeap Dijkstra FloydWarshall Serial Lib.
Open Scope N_scope.

Definition eqN (a b : N) : res unit := assert (a =? b) "assert_eq".
Definition eqL (a b : list N) : res unit := assert (if list_eq_dec N.eq_dec a b then true else false) "assert_eq".
Definition MAX := umax cfg64.
Definition U32_MAX : N := 4294967295.

(** A preparation graph with the given edges. *)
Definition pg_of (n : N) (es : list (N * N * N)) : res PrepGraph :=
  foldM (fun g '(u, v, w) => pg_add_edge cfg64 g u v w) es (pg_new n).
(** An input graph built by the given calls. *)
Definition ig_of (ops : list ig_op) : res InputGraph := ig_run cfg64 ig_new ops.

(** ** preparation_graph.rs:170-231 *)
Definition adj_nodes (l : list (list Arc)) (node : N) : res (list N) := a <- idx l node ;; Ok (map a_adj a).
(** preparation_graph.rs:178-195 *)
Definition add_and_remove_edges : res unit :=
  g <- pg_of 4 [(0,1,1); (0,2,1); (0,3,1); (2,3,1)] ;;
  a <- adj_nodes (pg_out g) 0 ;; _ <- eqL a [1; 2; 3] ;;
  a <- adj_nodes (pg_in g) 3 ;; _ <- eqL a [0; 2] ;;
  g <- pg_remove_out_edge g 0 2 ;;
  a <- adj_nodes (pg_out g) 0 ;; _ <- eqL a [1; 3] ;;
  a <- adj_nodes (pg_in g) 3 ;; _ <- eqL a [0; 2] ;;
  g <- pg_remove_in_edge g 3 0 ;;
  a <- adj_nodes (pg_out g) 0 ;; _ <- eqL a [1; 3] ;;
  a <- adj_nodes (pg_in g) 3 ;; eqL a [2].
Example test_add_and_remove_edges : add_and_remove_edges = Ok tt.
Proof. vm_compute. reflexivity. Qed.
(** preparation_graph.rs:197-207 *)
Definition add_or_remove_edge : res unit :=
  g <- pg_of 3 [(0,1,10)] ;;
  g <- pg_add_or_reduce_edge g 0 1 6 (INVALID_NODE cfg64) ;;
  o <- idx (pg_out g) 0 ;; i <- idx (pg_in g) 1 ;;
  _ <- eqL (map a_weight o) [6] ;; eqL (map a_weight i) [6].
Example test_add_or_remove_edge : add_or_remove_edge = Ok tt.
Proof. vm_compute. reflexivity. Qed.
(** preparation_graph.rs:209-226 *)
Definition disconnect_test : res unit :=
  g <- pg_of 4 [(1,0,1); (1,2,1); (0,1,1); (2,1,1)] ;;
  a <- adj_nodes (pg_out g) 1 ;; _ <- eqL a [0; 2] ;;
  a <- adj_nodes (pg_in g) 1 ;; _ <- eqL a [0; 2] ;;
  g <- pg_disconnect g 1 ;;
  a <- adj_nodes (pg_out g) 0 ;; _ <- eqL a [] ;;
  a <- adj_nodes (pg_out g) 1 ;; _ <- eqL a [] ;;
  a <- adj_nodes (pg_out g) 2 ;; _ <- eqL a [] ;;
  a <- adj_nodes (pg_in g) 0 ;; _ <- eqL a [] ;;
  a <- adj_nodes (pg_in g) 1 ;; _ <- eqL a [] ;;
  a <- adj_nodes (pg_in g) 2 ;; eqL a [].
Example test_disconnect : disconnect_test = Ok tt.
Proof. vm_compute. reflexivity. Qed.

(** ** valid_flags.rs:61-69 *)
Definition set_valid_and_invalidate : res unit :=
  let f := vf_new 5 in
  v <- vf_is_valid f 3 ;; _ <- assert (negb v) "" ;;
  f <- vf_set_valid f 3 ;; v <- vf_is_valid f 3 ;; _ <- assert v "" ;;
  v <- vf_is_valid (vf_invalidate_all f) 3 ;; assert (negb v) "".
Example test_set_valid_and_invalidate : set_valid_and_invalidate = Ok tt.
Proof. vm_compute. reflexivity. Qed.

(** ** witness_search.rs:186-338 *)
(** A call of [init], or of [find_max_weight] with its expected result, or a check of the number
    of settled nodes. *)
Inductive ws_call := WInit (start avoid : N) | WFind (expected target weight_limit settled_limit : N) | WSettled (expected : N).
Definition ws_do (H : heap_ops) (g : PrepGraph) (ws : WitnessSearch) (o : ws_call) : res WitnessSearch :=
  match o with
  | WInit s a => ws_init cfg64 H ws s a
  | WFind e t wl sl => '(ws', w) <- ws_find_max_weight cfg64 H ws g t wl sl ;; _ <- eqN e w ;; Ok ws'
  | WSettled e => _ <- eqN e (ws_settled ws) ;; Ok ws
  end.
Definition ws_test (H : heap_ops) (n : N) (es : list (N * N * N)) (calls : list ws_call) : res unit :=
  g <- pg_of n es ;; _ <- foldM (ws_do H g) calls (ws_new cfg64 n) ;; Ok tt.
(** witness_search.rs:190-214 *)
Definition avoid_node (H : heap_ops) := ws_test H 6 [(0,1,1); (1,2,1); (0,3,10); (3,4,1); (4,5,1); (5,2,1)]
  [WInit 0 MAX; WFind 2 2 2 100; WFind 2 2 2 100; WSettled 2;
   WInit 0 1; WFind 13 2 13 100; WSettled 4; WInit 4 3; WFind 2 2 5 100; WSettled 2].
(** witness_search.rs:216-246 *)
Definition limit_weight (H : heap_ops) := ws_test H 5 [(0,1,1); (1,2,1); (2,3,1); (3,4,1)]
  [WInit 0 MAX; WFind 3 3 3 100; WSettled 3;
   WInit 0 MAX; WFind 3 3 2 100; WSettled 3; WFind MAX 4 2 100; WFind 2 2 2 100; WFind 2 2 2 100; WFind 2 2 2 100;
   WFind 2 2 1 100; WSettled 3; WFind 4 4 3 100; WFind 4 4 4 100; WFind 4 4 5 100; WSettled 4].
(** witness_search.rs:248-288 *)
Definition stop_early (H : heap_ops) := ws_test H 4 [(0,1,1); (1,2,1); (2,3,1); (0,3,4)]
  [WInit 0 MAX; WFind 4 3 10 100; WSettled 1; WFind 4 3 10 100; WSettled 1; WFind 4 3 4 100; WFind 4 3 4 100; WSettled 1;
   WFind 3 3 3 100; WSettled 3; WFind 3 3 3 100; WSettled 3;
   WInit 0 MAX; WFind 4 3 100 2; WSettled 1; WFind 4 3 3 2; WSettled 2].
Definition path_edges (b e : N) : list (N * N * N) := map (fun i => (i, i + 1, 1)) (rangeN b e).
(** witness_search.rs:290-314 *)
Definition large_edge_weight (H : heap_ops) := ws_test H 101 ([(3,2,100); (2,1,100); (3,0,50); (0,1,50)] ++ path_edges 3 100)
  [WInit 3 2; WFind 100 1 200 MAX; WSettled 51; WInit 3 2; WFind MAX 1 200 5; WSettled 5].
(** witness_search.rs:316-337 *)
Definition large_edge_weight_target_touched (H : heap_ops) :=
  ws_test H 101 ([(3,2,100); (2,1,100); (3,0,1); (0,1,99)] ++ path_edges 3 100)
  [WInit 3 2; WFind 100 1 200 MAX; WSettled 2].
Example test_witness_search :
  map (fun t => t bin_heap) [avoid_node; limit_weight; stop_early; large_edge_weight; large_edge_weight_target_touched] =
  [Ok tt; Ok tt; Ok tt; Ok tt; Ok tt].
Proof. vm_compute. reflexivity. Qed.
(** The last two tests count settled nodes where two nodes have the same weight, so they depend on the order in
    which the heap returns equal elements: the list does not pass them. *)
Example test_witness_search_list : map (fun t => t list_heap) [avoid_node; limit_weight; stop_early] = [Ok tt; Ok tt; Ok tt].
Proof. vm_compute. reflexivity. Qed.

(** ** node_contractor.rs:118-276 *)
Definition push_shortcut (l : list Shortcut) (g : PrepGraph) (s : Shortcut) : res (list Shortcut * PrepGraph) := Ok (l ++ [s], g).
Definition calc_shortcuts (H : heap_ops) (n : N) (es : list (N * N * N)) (node : N) : res (list Shortcut) :=
  g <- pg_of n es ;;
  '(l, _, _) <- handle_shortcuts cfg64 H push_shortcut [] g (ws_new cfg64 n) node MAX ;; Ok l.
(** node_contractor.rs:124-141 *)
Example test_calc_shortcuts_no_witness : forall H, In H [bin_heap; list_heap] ->
  calc_shortcuts H 5 [(0,2,1); (1,2,2); (2,3,3); (2,4,1)] 2 =
  Ok [mkShortcut 0 3 2 4; mkShortcut 0 4 2 2; mkShortcut 1 3 2 5; mkShortcut 1 4 2 3].
Proof. intros H [<-|[<-|[]]]; vm_compute; reflexivity. Qed.
(** node_contractor.rs:143-154 *)
Example test_calc_shortcuts_witness : forall H, In H [bin_heap; list_heap] ->
  calc_shortcuts H 4 [(0,1,1); (1,2,1); (0,3,1); (3,2,1)] 1 = Ok [].
Proof. intros H [<-|[<-|[]]]; vm_compute; reflexivity. Qed.
(** node_contractor.rs:156-172: the test asserts nothing, and says that the shortcut from 0 to 2 is not needed.  It is
    inserted nevertheless. *)
Example test_calc_shortcuts_witness_via_center : forall H, In H [bin_heap; list_heap] ->
  calc_shortcuts H 4 [(0,1,10); (1,2,1); (0,3,1); (3,1,1)] 1 = Ok [mkShortcut 0 2 1 11; mkShortcut 3 2 1 2].
Proof. intros H [<-|[<-|[]]]; vm_compute; reflexivity. Qed.
(** node_contractor.rs:174-195 *)
Definition contract_node_test (H : heap_ops) : res (list N) :=
  g <- pg_of 5 [(0,1,1); (1,2,1); (0,3,1); (3,1,5); (1,4,4); (3,4,3); (4,2,1)] ;;
  '(g, _) <- contract_node cfg64 H g (ws_new cfg64 5) 1 MAX ;;
  o1 <- idx (pg_out g) 1 ;; i1 <- idx (pg_in g) 1 ;; o0 <- idx (pg_out g) 0 ;; i2 <- idx (pg_in g) 2 ;;
  Ok [lenN o1; lenN i1; lenN o0; lenN i2].
Example test_contract_node : forall H, In H [bin_heap; list_heap] -> contract_node_test H = Ok [0; 0; 2; 2].
Proof. intros H [<-|[<-|[]]]; vm_compute; reflexivity. Qed.
(** node_contractor.rs:197-262: the test only prints the relevances; here they are, as integers.  The six calls share
    one witness search. *)
Definition calc_priority (H : heap_ops) : res (list N) :=
  g <- pg_of 6 [(0,1,1); (1,2,1); (2,5,1); (3,1,1); (1,4,1)] ;;
  '(l, _) <- foldM (fun '(l, ws) node =>
      '(r, _, ws) <- calc_relevance cfg64 H g params_default ws node 0 MAX ;; Ok (l ++ [f32_as_usize cfg64 r], ws))
    [0; 1; 2; 3; 4; 5] ([], ws_new cfg64 6) ;;
  Ok l.
Example test_calc_priority : forall H, In H [bin_heap; list_heap] -> calc_priority H = Ok [500; 1000; 666; 500; 500; 500].
Proof. intros H [<-|[<-|[]]]; vm_compute; reflexivity. Qed.

(** ** path_calculator.rs:397-427 *)
Definition INV := INVALID_EDGE cfg64.
(** path_calculator.rs:402-411 *)
Example test_unpack_fwd_single :
  unpack 10 cfg64 (mkFG 2 [0; 0] [mkFGE 0 1 3 INV INV] [0; 0; 0] [] [0; 0; 0]) Fwd [] 0 false = Ok [0].
Proof. vm_compute. reflexivity. Qed.
(** path_calculator.rs:413-426 *)
Example test_unpack_fwd_simple :
  unpack 10 cfg64 (mkFG 3 [0; 0; 0] [mkFGE 0 1 2 INV INV; mkFGE 0 2 5 0 0] [0; 2; 0; 0] [mkFGE 2 1 3 INV INV] [0; 0; 0; 0])
    Fwd [] 1 false = Ok [1; 0].
Proof. vm_compute. reflexivity. Qed.

(** ** input_graph.rs:366-489 *)
Definition frozen_ig (ops : list ig_op) : res InputGraph := ig_of (ops ++ [OpFreeze]).
Definition num_edges_of (ops : list ig_op) : res N := g <- frozen_ig ops ;; ig_get_num_edges g.
Definition weights_of (ops : list ig_op) : res (list N) := g <- frozen_ig ops ;; es <- ig_get_edges g ;; Ok (map e_weight es).
Definition panics {A} (m : res A) : bool := match m with Panic _ => true | _ => false end.
(** input_graph.rs:370-401 *)
Example test_panic_if_not_frozen :
  panics (bind (ig_of [OpAddEdge 0 1 3]) ig_get_edges) = true /\
  panics (bind (ig_of [OpAddEdge 0 1 3]) ig_get_num_edges) = true /\
  panics (bind (ig_of [OpAddEdge 0 1 3]) ig_get_num_nodes) = true.
Proof. vm_compute. auto. Qed.
Example test_panic_if_frozen_add_edge : panics (ig_of [OpAddEdge 0 1 3; OpFreeze; OpAddEdge 2 5 4]) = true.
Proof. vm_compute. reflexivity. Qed.
(** input_graph.rs:403-415 *)
Example test_freeze_and_thaw :
  num_edges_of [OpAddEdge 0 5 10; OpAddEdge 0 5 5] = Ok 1 /\
  num_edges_of [OpAddEdge 0 5 10; OpAddEdge 0 5 5; OpFreeze; OpThaw; OpAddEdge 0 5 1] = Ok 1 /\
  weights_of [OpAddEdge 0 5 10; OpAddEdge 0 5 5; OpFreeze; OpThaw; OpAddEdge 0 5 1] = Ok [1].
Proof. repeat split; vm_compute; reflexivity. Qed.
(** input_graph.rs:417-425 *)
Example test_num_nodes : (g <- frozen_ig [OpAddEdge 7 1 2; OpAddEdge 5 6 4; OpAddEdge 11 8 3] ;; ig_get_num_nodes g) = Ok 12.
Proof. vm_compute. reflexivity. Qed.
(** input_graph.rs:427-445 *)
Example test_skips_loops : num_edges_of [OpAddEdge 0 1 3; OpAddEdge 4 4 2; OpAddEdge 2 5 4] = Ok 2.
Proof. vm_compute. reflexivity. Qed.
Example test_skips_zero_weight_edges : num_edges_of [OpAddEdge 0 1 5; OpAddEdge 1 2 0; OpAddEdge 2 3 3] = Ok 2.
Proof. vm_compute. reflexivity. Qed.
(** input_graph.rs:447-488 *)
Example test_skips_duplicate_edges :
  weights_of [OpAddEdge 0 1 7; OpAddEdge 2 3 5; OpAddEdge 0 2 3; OpAddEdge 0 1 2; OpAddEdge 4 6 9; OpAddEdge 0 1 4] =
  Ok [2; 3; 5; 9].
Proof. vm_compute. reflexivity. Qed.
Example test_skips_duplicate_edges_more :
  weights_of [OpAddEdge 1 3 43; OpAddEdge 3 2 90; OpAddEdge 3 2 88; OpAddEdge 2 3 87; OpAddEdge 3 0 75; OpAddEdge 0 2 45;
              OpAddEdge 1 3 71; OpAddEdge 4 3 5; OpAddEdge 1 3 91] = Ok [45; 43; 87; 75; 88; 5].
Proof. vm_compute. reflexivity. Qed.

(** ** dijkstra.rs:160-262 *)
(** source, target and the expected weight and nodes of a query *)
Definition dj_query (H : heap_ops) (g : PrepGraph) (d : Dijkstra) (q : N * N * option (N * list N)) : res Dijkstra :=
  let '(s, t, expected) := q in
  '(d', r) <- dj_calc_path cfg64 H d g s t ;;
  _ <- match r, expected with
       | None, None => Ok tt
       | Some p, Some (w, nodes) => _ <- assert (sp_eqb p (mkSP s t w nodes)) "" ;; eqL nodes (sp_get_nodes p)
       | _, _ => Panic (PAssert "")
       end ;;
  Ok d'.
Definition dj_test (n : N) (es : list (N * N * N)) (qs : list (N * N * option (N * list N))) (H : heap_ops) : res unit :=
  g <- pg_of n es ;; _ <- foldM (dj_query H g) qs (dj_new cfg64 n) ;; Ok tt.
(** dijkstra.rs:164-190 *)
Definition dj_simple_path := dj_test 10
  [(0,1,1); (1,2,1); (2,3,1); (3,4,20); (0,5,5); (5,6,1); (6,4,20); (6,3,20); (5,7,5); (7,8,1); (8,9,1); (9,4,1)]
  [(4, 0, None); (4, 4, Some (0, [4])); (6, 3, Some (20, [6; 3])); (1, 4, Some (22, [1; 2; 3; 4]));
   (0, 4, Some (13, [0; 5; 7; 8; 9; 4]))].
(** dijkstra.rs:192-204 *)
Definition dj_go_around := dj_test 4 [(0,1,10); (0,2,1); (2,3,1); (3,1,1)] [(0, 1, Some (3, [0; 2; 3; 1]))].
(** dijkstra.rs:206-235 *)
Definition dj_more := dj_test 11
  [(0,1,1); (1,2,1); (1,3,1); (3,4,1); (3,6,1); (6,7,1); (3,5,1); (3,8,1); (8,9,1); (9,10,1)]
  [(0, 1, Some (1, [0; 1])); (0, 2, Some (2, [0; 1; 2])); (0, 4, Some (3, [0; 1; 3; 4])); (0, 3, Some (2, [0; 1; 3]));
   (0, 7, Some (4, [0; 1; 3; 6; 7])); (0, 5, Some (3, [0; 1; 3; 5])); (0, 10, Some (5, [0; 1; 3; 8; 9; 10]));
   (3, 10, Some (3, [3; 8; 9; 10]))].
Example test_dijkstra : map (fun t => (t bin_heap, t list_heap)) [dj_simple_path; dj_go_around; dj_more] =
  [(Ok tt, Ok tt); (Ok tt, Ok tt); (Ok tt, Ok tt)].
Proof. vm_compute. reflexivity. Qed.

(** ** floyd_warshall.rs:77-104 *)
Definition fw_calc_weights : res (list N) :=
  g <- frozen_ig [OpAddEdge 0 1 6; OpAddEdge 0 4 1; OpAddEdge 4 5 1; OpAddEdge 5 7 1; OpAddEdge 7 8 1; OpAddEdge 8 6 1;
                  OpAddEdge 6 3 1; OpAddEdge 3 1 1; OpAddEdge 1 3 1; OpAddEdge 5 6 4] ;;
  n <- ig_get_num_nodes g ;; fw <- fw_new cfg64 n ;; fw <- fw_prepare cfg64 fw g ;;
  foldM (fun l '(s, t) => w <- fw_calc_weight cfg64 fw s t ;; Ok (l ++ [w])) [(0, 3); (5, 3); (1, 1); (5, 5); (6, 5); (8, 0)] [].
Example test_calc_weights : fw_calc_weights = Ok [6; 4; 0; 0; MAX; MAX].
Proof. vm_compute. reflexivity. Qed.

(** ** fast_graph_builder.rs:342-635 *)
(** sources, targets and the expected weight and nodes of a query of one calculator *)
Definition ch_query (H : heap_ops) (fg : FastGraph) (pc : PathCalculator) (q : list (N * N) * list (N * N) * option (N * list N))
  : res PathCalculator :=
  let '(s, t, expected) := q in
  '(pc', r) <- pc_calc_path_multiple cfg64 H pc fg s t ;;
  _ <- match r, expected with
       | None, None => Ok tt
       | Some p, Some (w, nodes) => _ <- eqL nodes (sp_get_nodes p) ;; eqN w (sp_get_weight p)
       | _, _ => Panic (PAssert "")
       end ;;
  Ok pc'.
Definition order_test (ops : list ig_op) (order : list N) (qs : list (N * N * N * list N)) (H : heap_ops) : res unit :=
  g <- frozen_ig ops ;;
  r <- prepare_with_order cfg64 H g order ;;
  match r with
  | inr m => Panic (PAssert m)
  | inl fg =>
      foldM (fun _ '(s, t, w, nodes) =>
        p <- calc_path cfg64 H fg s t ;;
        match p with
        | None => Panic (PAssert "")
        | Some p => _ <- assert (sp_eqb p (mkSP s t w nodes)) "" ;; eqL nodes (sp_get_nodes p)
        end) qs tt
  end.
Definition multi_test (ops : list ig_op) (qs : list (list (N * N) * list (N * N) * option (N * list N))) (H : heap_ops) : res unit :=
  g <- frozen_ig ops ;;
  fg <- prepare cfg64 H list_pq g ;;
  _ <- foldM (ch_query H fg) qs (create_calculator cfg64 fg) ;; Ok tt.
(** fast_graph_builder.rs:353-374 *)
Definition calc_path_linear_bwd_only := order_test [OpAddEdge 2 0 9; OpAddEdge 0 1 49] [0; 1; 2] [(2, 1, 58, [2; 0; 1])].
Definition calc_path_linear_fwd_only := order_test [OpAddEdge 1 0 9; OpAddEdge 0 2 49] [0; 1; 2] [(1, 2, 58, [1; 0; 2])].
(** fast_graph_builder.rs:375-393 *)
Definition calc_path_simple := order_test
  [OpAddEdgeBidir 0 1 5; OpAddEdgeBidir 1 2 3; OpAddEdgeBidir 2 3 2; OpAddEdgeBidir 3 4 6; OpAddEdge 0 4 2] [0; 1; 2; 3; 4]
  [(0, 4, 2, [0; 4]); (4, 0, 16, [4; 3; 2; 1; 0]); (1, 4, 7, [1; 0; 4]); (2, 4, 8, [2; 3; 4])].
(** fast_graph_builder.rs:395-414 *)
Definition calc_path_another := order_test
  [OpAddEdge 0 2 1; OpAddEdge 0 4 9; OpAddEdge 1 3 3; OpAddEdge 2 1 8; OpAddEdge 3 0 4; OpAddEdge 3 1 8; OpAddEdge 4 2 4]
  [0; 1; 2; 3; 4] [(4, 3, 15, [4; 2; 1; 3])].
(** fast_graph_builder.rs:432-524 *)
Definition multiple_sources := multi_test
  [OpAddEdge 0 1 3; OpAddEdge 1 2 4; OpAddEdge 3 4 2; OpAddEdge 4 2 3; OpAddEdge 5 2 2]
  [([(0, 0); (3, 0)], [(2, 0)], Some (5, [3; 4; 2])); ([(0, 1); (3, 4)], [(2, 0)], Some (8, [0; 1; 2]));
   ([(0, 5); (0, 3)], [(2, 0)], Some (10, [0; 1; 2])); ([(5, 10); (5, 20)], [(2, 0)], Some (12, [5; 2]));
   ([(1, 10); (1, 1)], [(1, 0)], Some (1, [1])); ([(2, 10); (0, 0)], [(2, 0)], Some (7, [0; 1; 2]));
   ([(1, MAX)], [(1, 0)], None); ([(1, MAX); (0, 3)], [(1, 0)], Some (6, [0; 1]));
   ([(1, MAX); (3, 3)], [(2, 0)], Some (8, [3; 4; 2]))].
(** fast_graph_builder.rs:526-573 *)
Definition multiple_targets := multi_test [OpAddEdge 1 0 3; OpAddEdge 2 1 4; OpAddEdge 4 3 2; OpAddEdge 2 4 3]
  [([(2, 0)], [(0, 0); (3, 0)], Some (5, [2; 4; 3])); ([(2, 0)], [(0, 0); (3, 1)], Some (6, [2; 4; 3]));
   ([(2, 0)], [(0, 0); (3, 3)], Some (7, [2; 1; 0])); ([(4, 0)], [(4, 3); (4, 1)], Some (1, [4]))].
(** fast_graph_builder.rs:575-608 *)
Definition multiple_sources_and_targets := multi_test
  [OpAddEdgeBidir 0 1 1; OpAddEdgeBidir 1 2 2; OpAddEdgeBidir 2 3 3; OpAddEdgeBidir 3 4 4; OpAddEdgeBidir 5 6 5;
   OpAddEdgeBidir 6 2 6; OpAddEdgeBidir 2 7 7; OpAddEdgeBidir 7 8 8]
  [([(1, 7); (6, 2); (5, 6)], [(3, 1); (4, 9); (5, 7)], Some (12, [6; 2; 3]));
   ([(1, 7); (6, 2)], [(1, 9); (6, 3)], Some (5, [6]))].
Example test_fast_graph_builder : map (fun t => (t bin_heap, t list_heap))
    [calc_path_linear_bwd_only; calc_path_linear_fwd_only; calc_path_simple; calc_path_another; multiple_sources; multiple_targets;
     multiple_sources_and_targets] =
  [(Ok tt, Ok tt); (Ok tt, Ok tt); (Ok tt, Ok tt); (Ok tt, Ok tt); (Ok tt, Ok tt); (Ok tt, Ok tt); (Ok tt, Ok tt)].
Proof. vm_compute. reflexivity. Qed.

(** ** fast_graph32.rs:136-221 *)
Definition create_g : FastGraph :=
  mkFG 5 [286; 45; 480001; MAX; 4468] [mkFGE MAX 598 48 MAX MAX; mkFGE MAX MAX MAX 4 MAX] [1; MAX; MAX]
    [mkFGE 0 1 3 4 MAX] [1; MAX; 5; MAX; 9; 10].
(** fast_graph32.rs:141-211 *)
Example test_create : exists g32, to_fast_graph32 cfg64 create_g = Ok g32 /\
  g32 = mkFG32 5 [286; 45; 480001; U32_MAX; 4468]
    [mkFGE32 U32_MAX 598 48 U32_MAX U32_MAX; mkFGE32 U32_MAX U32_MAX U32_MAX 4 U32_MAX] [1; U32_MAX; U32_MAX]
    [mkFGE32 0 1 3 4 U32_MAX] [1; U32_MAX; 5; U32_MAX; 9; 10] /\
  from_fast_graph32 cfg64 g32 = Ok create_g.
Proof. eexists. split; [vm_compute; reflexivity|]. split; vm_compute; reflexivity. Qed.
(** fast_graph32.rs:213-220 *)
Example test_create_fails_with_too_large_numbers : panics (to_fast_graph32 cfg64 (mkFG 5 [5000000000] [] [] [] [])) = true.
Proof. vm_compute. reflexivity. Qed.

(** ** lib.rs:351-381 *)
Definition sizes (fg : FastGraph) : list N := [fg_get_num_nodes fg; fg_get_num_in_edges fg; fg_get_num_out_edges fg].
Definition save_to_and_load_from_disk (H : heap_ops) : res unit :=
  g <- frozen_ig [OpAddEdge 0 5 6; OpAddEdge 5 2 1; OpAddEdge 2 3 4] ;;
  fg <- prepare cfg64 H list_pq g ;;
  _ <- match load_from_disk cfg64 (save_to_disk fg) with
       | inl _ => Panic PUnwrap
       | inr fg' => eqL (sizes fg) (sizes fg')
       end ;;
  file <- save_to_disk32 cfg64 fg ;;
  r <- load_from_disk32 cfg64 file ;;
  match r with
  | inl _ => Panic PUnwrap
  | inr fg' => eqL (sizes fg) (sizes fg')
  end.
Example test_save_to_and_load_from_disk : map save_to_and_load_from_disk [bin_heap; list_heap] = [Ok tt; Ok tt].
Proof. vm_compute. reflexivity. Qed.
