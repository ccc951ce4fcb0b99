(** * SpecOverlay: the contraction hierarchy, as in a textbook, without lists of arcs, heaps, labels or
    limits. *)
From Verif Require Export SpecApi.
From Coq Require Import ZArith.
Open Scope N_scope.

(** A graph between the nodes that are left: [G u v w] says that there is an arc from [u] to [v] of
    weight [w]. *)
Definition overlay := N -> N -> N -> Prop.

(** The lightest of the added edges between each pair of nodes. *)
Definition first_overlay (ops : list ig_op) : overlay := fun u v w =>
  In (mkEdge u v w) (accepted ops) /\ forall w', In (mkEdge u v w') (accepted ops) -> w <= w'.

(** A way from one node to another of a given total weight that does not touch [x]. *)
Inductive way_around (G : overlay) (x : N) : N -> N -> N -> Prop :=
| way_stay u : u <> x -> way_around G x u u 0
| way_arc u v t w w' : u <> x -> G u v w -> way_around G x v t w' -> way_around G x u t (w + w').

(** Contracting [x] asks for a shortcut from [u] to [v] of weight [w]: this is the weight of the
    connection over [x], and every way around [x] is longer.  (A connection of weight usize::MAX counts
    as none.) *)
Definition shortcut (c : cfg) (G : overlay) (x u v w : N) : Prop :=
  (exists w1 w2, G u x w1 /\ G x v w2 /\ w = w1 + w2) /\ w < umax c /\
  forall w', way_around G x u v w' -> w < w'.

(** The shortcuts from [u] take the place of the arcs between the same nodes. *)
Definition add_row (c : cfg) (x u : N) (G G' : overlay) : Prop := forall p q w,
  G' p q w <-> (p = u /\ shortcut c G x u q w) \/ (G p q w /\ ~ (p = u /\ exists w', shortcut c G x u q w')).
Inductive add_rows (c : cfg) (x : N) : list N -> overlay -> overlay -> Prop :=
| add_none G : add_rows c x [] G G
| add_next u us G G1 G2 : add_row c x u G G1 -> add_rows c x us G1 G2 -> add_rows c x (u :: us) G G2.

(** Contraction of [x]: for each node [u] with an arc to [x], in some order, shortcuts are added; then [x]
    and its arcs are removed. *)
Definition contraction (c : cfg) (x : N) (G G' : overlay) : Prop :=
  exists us G1, NoDup us /\ (forall u, In u us <-> exists w, G u x w) /\ add_rows c x us G G1 /\
    forall p q w, G' p q w <-> G1 p q w /\ p <> x /\ q <> x.

(** Successive contractions: each node with the graph just before its contraction. *)
Inductive hierarchy (c : cfg) : overlay -> list (N * overlay) -> Prop :=
| hierarchy_end G : hierarchy c G []
| hierarchy_next G G' x l : contraction c x G G' -> hierarchy c G' l -> hierarchy c G ((x, G) :: l).

(** [k] is the number of all [a] such that [P a]. *)
Definition number_of {A} (P : A -> Prop) (k : N) : Prop :=
  exists l, NoDup l /\ (forall a, In a l <-> P a) /\ lenN l = k.

(** The priority of node [x] at a level: [(depth_factor * level + (quotient_factor * shortcuts + 1) /
    (arcs + 1)) * 1000] in f32, as usize. *)
Definition priority (c : cfg) (params : Params) (G : overlay) (x level p : N) : Prop :=
  exists shortcuts arcs,
    number_of (fun uv => exists w, shortcut c G x (fst uv) (snd uv) w) shortcuts /\
    number_of (fun uv => (fst uv = x \/ snd uv = x) /\ exists w, G (fst uv) (snd uv) w) arcs /\
    p = f32_as_usize c
          (f32_mul
             (f32_add
                (f32_mul (p_hierarchy_depth_factor params) (f32_of_Z (Z.of_N level)))
                (f32_div
                   (f32_add (f32_mul (p_edge_quotient_factor params) (f32_of_Z (Z.of_N shortcuts))) (f32_of_Z 1))
                   (f32_add (f32_of_Z (Z.of_N arcs)) (f32_of_Z 1))))
             (f32_of_Z 1000)).

Definition neighbor (G : overlay) (x y : N) : Prop := exists w, G x y w \/ G y x w.

(** Contractions in the order of priorities [P]: always a node of least priority among those left; then the
    levels [L] of its neighbors are raised above its own, and only their priorities are computed again. *)
Inductive greedy (c : cfg) (params : Params)
  : overlay -> (N -> N) -> (N -> N) -> (N -> Prop) -> list (N * overlay) -> Prop :=
| greedy_end G L P (left : N -> Prop) : (forall v, ~ left v) -> greedy c params G L P left []
| greedy_next G L P (left : N -> Prop) x G' L' P' l :
    left x -> (forall v, left v -> P x <= P v) ->
    contraction c x G G' ->
    (forall v, neighbor G x v -> L' v = N.max (L v) (L x + 1) /\ priority c params G' v (L' v) (P' v)) ->
    (forall v, left v -> v <> x -> ~ neighbor G x v -> L' v = L v /\ P' v = P v) ->
    greedy c params G' L' P' (fun v => left v /\ v <> x) l ->
    greedy c params G L P left ((x, G) :: l).

(** The prepared graph stores for each node the arcs it had when it was contracted. *)
Definition stores (fg : FastGraph) (l : list (N * overlay)) : Prop :=
  forall x G, In (x, G) l -> forall v w,
    (In (mkEdge x v w) (stored (fg_edges_fwd fg)) <-> G x v w) /\
    (In (mkEdge x v w) (stored (fg_edges_bwd fg)) <-> G v x w).
