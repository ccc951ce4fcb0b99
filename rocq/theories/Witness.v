(** * Witness: model of witness_search.rs *)
From Verif Require Export Base Heap ValidFlags PrepGraph.

(** witness_search.rs:171-184, struct Data, Data::new *)
Record WData := mkWData { wd_settled : bool; wd_weight : N }.
Definition wd_new (c : cfg) : WData := mkWData false (WEIGHT_MAX c).

(** witness_search.rs:28-36 *)
Record WitnessSearch := mkWS {
  ws_num_nodes : N;
  ws_data : list WData;
  ws_flags : ValidFlags;
  ws_heap : list HeapItem;
  ws_start : N;
  ws_avoid : N;
  ws_settled : N
}.

(** witness_search.rs:39-50, WitnessSearch::new *)
Definition ws_new (c : cfg) (num_nodes : N) : WitnessSearch :=
  mkWS num_nodes (vec_repeat (wd_new c) num_nodes) (vf_new num_nodes) []
       (INVALID_NODE c) (INVALID_NODE c) 0.

(** witness_search.rs:152-156, update_node *)
Definition ws_update_node (ws : WitnessSearch) (node weight : N) : res WitnessSearch :=
  fl <- vf_set_valid (ws_flags ws) node ;;
  d <- upd (ws_data ws) node (mkWData false weight) ;;
  Ok (mkWS (ws_num_nodes ws) d fl (ws_heap ws) (ws_start ws) (ws_avoid ws) (ws_settled ws)).

(** witness_search.rs:158-160, is_settled *)
Definition ws_is_settled (ws : WitnessSearch) (node : N) : res bool :=
  v <- vf_is_valid (ws_flags ws) node ;;
  if (v : bool) then d <- idx (ws_data ws) node ;; Ok (wd_settled d) else Ok false.

(** witness_search.rs:162-168, get_current_weight *)
Definition ws_get_current_weight (c : cfg) (ws : WitnessSearch) (node : N) : res N :=
  v <- vf_is_valid (ws_flags ws) node ;;
  if (v : bool) then d <- idx (ws_data ws) node ;; Ok (wd_weight d) else Ok (WEIGHT_MAX c).

Definition ws_set_heap (ws : WitnessSearch) (h : list HeapItem) : WitnessSearch :=
  mkWS (ws_num_nodes ws) (ws_data ws) (ws_flags ws) h (ws_start ws) (ws_avoid ws)
       (ws_settled ws).

(** witness_search.rs:54-68, init *)
Definition ws_init (c : cfg) (H : heap_ops) (ws : WitnessSearch) (start avoid : N)
  : res WitnessSearch :=
  _ <- assert (negb (start =? INVALID_NODE c)) "the start node must be valid" ;;
  _ <- assert (negb (start =? avoid)) "path calculation must not start with avoided node" ;;
  let ws1 := mkWS (ws_num_nodes ws) (ws_data ws) (vf_invalidate_all (ws_flags ws)) []
                  start avoid (ws_settled ws) in
  ws2 <- ws_update_node ws1 start 0 ;;
  Ok (mkWS (ws_num_nodes ws2) (ws_data ws2) (ws_flags ws2)
           (hp_push H (ws_heap ws2) (mkHeapItem 0 start)) start avoid 0).

(** witness_search.rs:128-142, the relaxation loop for the arcs of the node being
    settled.  The graph is not modified here, so the loop runs over the list of arcs. *)
Definition ws_relax (c : cfg) (H : heap_ops) (curr : HeapItem) (target weight_limit : N)
  (st : WitnessSearch * bool) (a : Arc) : res (WitnessSearch * bool) :=
  let '(ws, found) := st in
  let adj := a_adj a in
  if adj =? ws_avoid ws then Ok (ws, found)
  else
    weight <- uadd c (hi_weight curr) (a_weight a) ;;
    cw <- ws_get_current_weight c ws adj ;;
    if weight <? cw then
      ws1 <- ws_update_node ws adj weight ;;
      let ws2 := ws_set_heap ws1 (hp_push H (ws_heap ws1) (mkHeapItem weight adj)) in
      Ok (ws2, if (adj =? target) && (weight <=? weight_limit) then true else found)
    else Ok (ws, found).

(** witness_search.rs:143-144: data[curr].settled = true; settled_nodes += 1.
    The counter cannot overflow: it is below settled_nodes_limit here. *)
Definition ws_settle (ws : WitnessSearch) (node : N) : res WitnessSearch :=
  d <- idx (ws_data ws) node ;;
  data' <- upd (ws_data ws) node (mkWData true (wd_weight d)) ;;
  Ok (mkWS (ws_num_nodes ws) data' (ws_flags ws) (ws_heap ws) (ws_start ws) (ws_avoid ws)
           (ws_settled ws + 1)).

(** witness_search.rs:113-148, the while loop of find_max_weight *)
Fixpoint ws_loop (f : fuel) (c : cfg) (H : heap_ops) (ws : WitnessSearch) (g : PrepGraph)
  (target weight_limit settled_nodes_limit : N) : res WitnessSearch :=
  match f with
  | FO => Diverge
  | FS f' =>
      match ws_heap ws with
      | [] => Ok ws
      | _ :: _ =>
          if settled_nodes_limit <=? ws_settled ws then Ok ws
          else
            match hp_peek H (ws_heap ws) with
            | None => Panic PUnwrap
            | Some curr =>
                if weight_limit <? hi_weight curr then Ok ws
                else
                  let ws1 := ws_set_heap ws (match hp_pop H (ws_heap ws) with
                                             | Some (_, h') => h'
                                             | None => ws_heap ws
                                             end) in
                  s <- ws_is_settled ws1 (hi_node curr) ;;
                  if (s : bool) then
                    ws_loop (f' tt) c H ws1 g target weight_limit settled_nodes_limit
                  else
                    arcs <- idx (pg_out g) (hi_node curr) ;;
                    '(ws2, found_target) <-
                       foldM (ws_relax c H curr target weight_limit) arcs (ws1, false) ;;
                    ws3 <- ws_settle ws2 (hi_node curr) ;;
                    if (found_target : bool) || (hi_node curr =? target) then Ok ws3
                    else ws_loop (f' tt) c H ws3 g target weight_limit settled_nodes_limit
            end
      end
  end.

(** Fuel for [ws_loop]: one more than the number of items that can ever be popped
    (items on the heap plus one push per arc of the graph; without overflow checks a node can be
    labelled again after it was settled, but every label is smaller than the one before). *)
Definition ws_fuel (c : cfg) (ws : WitnessSearch) (g : PrepGraph) : fuel :=
  fuel_of (1 + lenN (ws_heap ws) + lenN (concat (pg_out g)) + ws_num_nodes ws * umax c).

(** witness_search.rs:85-150, find_max_weight *)
Definition ws_find_max_weight (c : cfg) (H : heap_ops) (ws : WitnessSearch) (g : PrepGraph)
  (target weight_limit settled_nodes_limit : N) : res (WitnessSearch * N) :=
  _ <- assert (pg_num_nodes g =? ws_num_nodes ws) "given graph has invalid node count" ;;
  _ <- assert (negb (ws_start ws =? INVALID_NODE c))
         "the start node must be valid, call init() before find_max_weight()" ;;
  _ <- assert (negb (ws_start ws =? ws_avoid ws) && negb (target =? ws_avoid ws))
         "path calculation must not start or end with avoided node" ;;
  if target =? ws_start ws then Ok (ws, WEIGHT_ZERO)
  else
    v <- vf_is_valid (ws_flags ws) target ;;
    d <- idx (ws_data ws) target ;;
    if (v : bool) && (wd_settled d || (wd_weight d <=? weight_limit))
    then Ok (ws, wd_weight d)
    else
      ws' <- ws_loop (ws_fuel c ws g) c H ws g target weight_limit settled_nodes_limit ;;
      w <- ws_get_current_weight c ws' target ;;
      Ok (ws', w).
