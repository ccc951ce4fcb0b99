(** * SpecOracle: how the two reference implementations are used *)
From Verif Require Export SpecApi Dijkstra FloydWarshall.

(** [d] was created for graphs with [n] nodes and then used for any number of queries, on any graphs. *)
Inductive dijkstra_object (c : cfg) (n : N) : Dijkstra -> Prop :=
| dijkstra_new : dijkstra_object c n (dj_new c n)
| dijkstra_used H hinv d g s t d' r :
    dijkstra_object c n d -> heap_laws H hinv ->
    dj_calc_path c H d g s t = Ok (d', r) ->
    dijkstra_object c n d'.

(** [r] is returned by a Dijkstra object for the graph [ig]. *)
Definition dijkstra_answer (c : cfg) (ig : InputGraph) (s t : N) (r : option ShortestPath) : Prop :=
  exists g n d d' H hinv, heap_laws H hinv /\ pg_from_input_graph c ig = Ok g /\
    dijkstra_object c n d /\ dj_calc_path c H d g s t = Ok (d', r).

(** [w] is returned by a FloydWarshall object that was created and prepared for the graph [ig]. *)
Definition floyd_warshall_answer (c : cfg) (ig : InputGraph) (s t w : N) : Prop :=
  exists n fw0 fw, fw_new c n = Ok fw0 /\ fw_prepare c fw0 ig = Ok fw /\
    fw_calc_weight c fw s t = Ok w.

(** [fw] was created for graphs with [n] nodes and then prepared any number of times. *)
Inductive floyd_warshall_object (c : cfg) (n : N) : FloydWarshall -> Prop :=
| floyd_warshall_new fw : fw_new c n = Ok fw -> floyd_warshall_object c n fw
| floyd_warshall_used ops ig fw fw' :
    floyd_warshall_object c n fw -> frozen_graph c ops ig -> fw_prepare c fw ig = Ok fw' ->
    floyd_warshall_object c n fw'.

(** The edges of [ig], and for every two different nodes without an edge in [ig] an edge with the weight that
    [fw] reports for them, if that is below WEIGHT_MAX. *)
Definition with_earlier_paths (c : cfg) (fw : FloydWarshall) (ig : InputGraph) : list Edge :=
  let nodes := rangeN 0 (ig_num_nodes ig) in
  ig_edges ig ++
  flat_map (fun u => flat_map (fun v =>
    match fw_calc_weight c fw u v with
    | Ok w => if (u =? v) || (WEIGHT_MAX c <=? w) || existsb (fun e => (e_from e =? u) && (e_to e =? v)) (ig_edges ig)
              then [] else [mkEdge u v w]
    | _ => []
    end) nodes) nodes.
