(** * SpecValid: when a stored graph, wherever it comes from, is a sound hierarchy *)
From Verif Require Export SpecApi.
Open Scope N_scope.

(** From where to where a stored edge leads: the backward list holds edges at their target. *)
Definition tail_of (d : dir) (e : FastGraphEdge) : N := match d with Fwd => fe_base e | Bwd => fe_adj e end.
Definition head_of (d : dir) (e : FastGraphEdge) : N := match d with Fwd => fe_adj e | Bwd => fe_base e end.

(** The edges that stand for themselves: the graph that the hierarchy was made for. *)
Definition plain_edges (c : cfg) (fg : FastGraph) : list Edge :=
  flat_map (fun d => flat_map (fun e => if fe_replaced_in e =? INVALID_EDGE c then [mkEdge (tail_of d e) (head_of d e) (fe_weight e)] else [])
    (fg_edges fg d)) [Fwd; Bwd].

(** One of the two edge lists is in order. *)
Record edges_well_formed (c : cfg) (fg : FastGraph) (d : dir) : Prop := mk_edges_well_formed {
  (** the vectors have the right lengths, and the edges are grouped by the rank of their base node *)
  ewf_len : lenN (fg_edges fg d) <= umax c / 2;
  ewf_first_len : lenN (fg_first_edge_ids fg d) = fg_num_nodes fg + 1;
  ewf_first : getN (fg_first_edge_ids fg d) 0 = Some 0;
  ewf_last : getN (fg_first_edge_ids fg d) (fg_num_nodes fg) = Some (lenN (fg_edges fg d));
  ewf_sorted : forall r b e, getN (fg_first_edge_ids fg d) r = Some b -> getN (fg_first_edge_ids fg d) (r + 1) = Some e -> b <= e;
  ewf_group : forall id ed, getN (fg_edges fg d) id = Some ed -> exists r b e, getN (fg_ranks fg) (fe_base ed) = Some r /\
    getN (fg_first_edge_ids fg d) r = Some b /\ getN (fg_first_edge_ids fg d) (r + 1) = Some e /\ b <= id < e;
  (** every edge leads to a node of greater rank and has a positive weight; no edge is stored twice *)
  ewf_up : forall ed, In ed (fg_edges fg d) -> exists r r', getN (fg_ranks fg) (fe_base ed) = Some r /\
    getN (fg_ranks fg) (fe_adj ed) = Some r' /\ r < r';
  ewf_weight : forall ed, In ed (fg_edges fg d) -> 1 <= fe_weight ed <= umax c;
  ewf_once : forall i1 e1 i2 e2, getN (fg_edges fg d) i1 = Some e1 -> getN (fg_edges fg d) i2 = Some e2 ->
    fe_base e1 = fe_base e2 -> fe_adj e1 = fe_adj e2 -> i1 = i2;
  (** an edge replaces nothing, or two stored edges that meet in a node and have its weight together *)
  ewf_replaced : forall ed, In ed (fg_edges fg d) ->
    (fe_replaced_in ed = INVALID_EDGE c /\ fe_replaced_out ed = INVALID_EDGE c) \/
    (exists ei eo, getN (fg_edges_bwd fg) (fe_replaced_in ed) = Some ei /\ getN (fg_edges_fwd fg) (fe_replaced_out ed) = Some eo /\
       tail_of Bwd ei = tail_of d ed /\ head_of Bwd ei = tail_of Fwd eo /\ head_of Fwd eo = head_of d ed /\
       fe_weight ed = fe_weight ei + fe_weight eo)
}.

Record well_formed (c : cfg) (fg : FastGraph) : Prop := mk_well_formed {
  wf_size : fg_num_nodes fg + 1 <= umax c / 2;
  wf_ranks : permutation_of_nodes (fg_num_nodes fg) (fg_ranks fg);
  wf_edges : forall d, edges_well_formed c fg d
}.

(** Stored edges of one list, followed from base to adjacent node, lead from [u] to [v] with weight [W]. *)
Inductive ascent (fg : FastGraph) (d : dir) : N -> N -> N -> Prop :=
| ascent_end u : ascent fg d u u 0
| ascent_step e v W : In e (fg_edges fg d) -> ascent fg d (fe_adj e) v W -> ascent fg d (fe_base e) v (fe_weight e + W).

(** Wherever an incoming and an outgoing edge are stored at the same node, the hierarchy has a connection above
    this node that is no longer. *)
Definition triangles (c : cfg) (fg : FastGraph) : Prop :=
  forall ei eo, In ei (fg_edges_bwd fg) -> In eo (fg_edges_fwd fg) -> fe_base ei = fe_base eo -> fe_adj ei <> fe_adj eo ->
    fe_weight ei + fe_weight eo < WEIGHT_MAX c ->
    exists m W1 W2, ascent fg Fwd (fe_adj ei) m W1 /\ ascent fg Bwd (fe_adj eo) m W2 /\ W1 + W2 <= fe_weight ei + fe_weight eo.
