(** * SpecWitness: what a witness search is asked for *)
From Verif Require Export SpecApi.
Open Scope N_scope.

(** There is a path from [u] to [v] of weight [W] in the graph that does not visit [x]. *)
Inductive detour (g : PrepGraph) (x : N) : N -> N -> N -> Prop :=
| detour_end u : u <> x -> detour g x u u 0
| detour_step u arcs a v W : u <> x -> getN (pg_out g) u = Some arcs -> In a arcs -> detour g x (a_adj a) v W ->
    detour g x u v (a_weight a + W).

(** The graphs and searches that occur between the contractions of a preparation of [ig]: the graph is made from
    [ig], the search is new, and both are handed from one contraction or calculation of a priority to the next. *)
Inductive working (c : cfg) (H : heap_ops) (ig : InputGraph) : PrepGraph -> WitnessSearch -> Prop :=
| working_new g n : pg_from_input_graph c ig = Ok g -> ig_get_num_nodes ig = Ok n -> working c H ig g (ws_new c n)
| working_contract g ws x limit g' ws' : working c H ig g ws -> contract_node c H g ws x limit = Ok (g', ws') ->
    working c H ig g' ws'
| working_relevance g ws params x level limit r g' ws' : working c H ig g ws ->
    calc_relevance c H g params ws x level limit = Ok (r, g', ws') -> working c H ig g' ws'.

(** The state of a search in [g] from [s] avoiding [x] after init and any number of calls of find_max_weight. *)
Inductive searching (c : cfg) (H : heap_ops) (ig : InputGraph) (g : PrepGraph) (s x : N) : WitnessSearch -> Prop :=
| searching_init ws0 ws : working c H ig g ws0 -> s < ig_num_nodes ig -> x < ig_num_nodes ig -> ws_init c H ws0 s x = Ok ws ->
    searching c H ig g s x ws
| searching_find ws target weight_limit settled_limit ws' w : searching c H ig g s x ws -> target < ig_num_nodes ig ->
    ws_find_max_weight c H ws g target weight_limit settled_limit = Ok (ws', w) -> searching c H ig g s x ws'.
