(** * SpecLadder: graphs on which limited witness searches double a stored weight at every level *)
From Verif Require Export SpecShortcut.
Open Scope N_scope.

(** Nodes 3i and 3i+1, for i = 0, ..., L, are the two sides of rung i.  Rung 0 is joined in both directions by
    edges of weight M.  The sides of rung i+1 are joined with each other over node 3i, and almost as cheaply over
    node 3i+2.  The nodes from 3L+2 on are dead ends next to rung 0, one less than [limit] of them; they are what
    exhausts a search that may settle [limit] nodes. *)
Definition ladder_dead_ends (L limit : N) : list N := rangeN (3 * L + 2) (3 * L + 1 + limit).
Definition ladder_nodes (L limit : N) : N := 3 * L + 1 + limit.
Definition ladder_base (L limit M : N) : list Edge :=
  [mkEdge 0 1 M; mkEdge 1 0 M] ++
  flat_map (fun s => [mkEdge 0 s 1; mkEdge 1 s 1]) (ladder_dead_ends L limit).
Definition ladder_side (L i p : N) : list Edge :=
  [mkEdge p (3 * i) 1; mkEdge (3 * i) p (L + 4); mkEdge p (3 * i + 2) (L + 3); mkEdge (3 * i + 2) p 1].
Definition ladder_edges (L limit M : N) : list Edge :=
  ladder_base L limit M ++
  flat_map (fun i => ladder_side L i (3 * i + 3) ++ ladder_side L i (3 * i + 4)) (rangeN 0 L).

(** The calls that build the graph. *)
Definition ladder_calls (L limit M : N) : list ig_op :=
  map (fun e => OpAddEdge (e_from e) (e_to e) (e_weight e)) (ladder_edges L limit M) ++ [OpFreeze].

(** The rungs from the bottom to the top, then the remaining nodes. *)
Definition ladder_order (L limit : N) : list N :=
  flat_map (fun i => [3 * i; 3 * i + 1]) (rangeN 0 (L + 1)) ++
  map (fun i => 3 * i + 2) (rangeN 0 L) ++ ladder_dead_ends L limit.

(** The weight of the shortcut between the two sides of rung i: more than 2^i times M. *)
Definition rung_weight (L M i : N) : N := (M + L + 5) * 2 ^ i - (L + 5).
