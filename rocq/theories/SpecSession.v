(** * SpecSession: everything a program can do with the crate, in any order

    A world holds all objects of the program and its files.  Each object is kept together with the calls
    that built the graph it stems from; these lists are notes of the specification, no function reads them. *)
From Verif Require Export SpecApi SpecSerial SpecText.
Open Scope N_scope.

(** The two forms of saved graphs: serialized as it is, and with serialize_32. *)
Inductive form := Full | Half.
Definition saved (c : cfg) (f : form) (fg : FastGraph) (bytes : list N) : Prop :=
  match f with
  | Full => save_to_disk fg = bytes
  | Half => platform64 c /\ values_below (2 ^ 32 - 1) fg /\ save_to_disk32 c fg = Ok bytes
  end.
Definition loaded (c : cfg) (f : form) (bytes : list N) (fg : FastGraph) : Prop :=
  match f with
  | Full => load_from_disk c bytes = inr fg
  | Half => load_from_disk32 c bytes = Ok (inr fg)
  end.

Record world := World {
  w_graphs : list (list ig_op * InputGraph);
  w_prepared : list (list ig_op * FastGraph);
  w_calculators : list PathCalculator;
  w_files : list (form * list ig_op * list N)
}.

(** The calls that build the graph of a text file. *)
Definition calls_for (arcs : list Edge) : list ig_op :=
  map (fun e => OpAddEdge (e_from e) (e_to e) (e_weight e)) arcs ++ [OpFreeze].

(** One thing that can happen.  The objects involved are any of those that exist, so the events of several threads
    may alternate in any way. *)
Inductive event (c : cfg) : world -> world -> Prop :=
(** InputGraph::new, from_file and from_dimacs_file *)
| ev_new gs ps cs fs :
    event c (World gs ps cs fs) (World (([], ig_new) :: gs) ps cs fs)
| ev_from_file gs ps cs fs b ss arcs ig :
    file_lines b ss -> plain_text c ss arcs -> from_file c (contents b) = Ok ig ->
    event c (World gs ps cs fs) (World ((calls_for arcs, ig) :: gs) ps cs fs)
| ev_from_dimacs_file gs ps cs fs b ss arcs ig :
    file_lines b ss -> dimacs_text c ss arcs -> from_dimacs_file c (contents b) = Ok ig ->
    event c (World gs ps cs fs) (World ((calls_for (map zero_based arcs), ig) :: gs) ps cs fs)
(** a method of an input graph is called and returns, or panics and the panic is caught *)
| ev_call gs1 ops ig gs2 ps cs fs o ig' out :
    op_repr c o -> ig_step c ig o = Ok (ig', out) ->
    event c (World (gs1 ++ (ops, ig) :: gs2) ps cs fs) (World (gs1 ++ (ops ++ [o], ig') :: gs2) ps cs fs)
| ev_call_panics gs1 ops ig gs2 ps cs fs o ig' r :
    lenN (ig_edges ig) + 2 <= umax c / 2 -> st_ig_step c o ig = (ig', Panic r) ->
    event c (World (gs1 ++ (ops, ig) :: gs2) ps cs fs) (World (gs1 ++ (ops, ig') :: gs2) ps cs fs)
(** a graph is prepared *)
| ev_prepare gs ps cs fs ops ig fg :
    In (ops, ig) gs -> prepared c ig fg ->
    event c (World gs ps cs fs) (World gs ((ops, fg) :: ps) cs fs)
(** a calculator is created *)
| ev_create_calculator gs ps cs fs ops fg :
    In (ops, fg) ps ->
    event c (World gs ps cs fs) (World gs ps (create_calculator c fg :: cs) fs)
(** a query returns, or panics and the panic is caught *)
| ev_query gs ps cs1 pc cs2 fs ops fg H hinv sources targets pc' r :
    In (ops, fg) ps -> heap_laws H hinv -> pc_calc_path_multiple c H pc fg sources targets = Ok (pc', r) ->
    event c (World gs ps (cs1 ++ pc :: cs2) fs) (World gs ps (cs1 ++ pc' :: cs2) fs)
| ev_query_panics gs ps cs1 pc cs2 fs ops fg H hinv sources targets pc' r :
    In (ops, fg) ps -> heap_laws H hinv -> st_calc_path_multiple c H fg sources targets pc = (pc', Panic r) ->
    event c (World gs ps (cs1 ++ pc :: cs2) fs) (World gs ps (cs1 ++ pc' :: cs2) fs)
(** a prepared graph is saved to a new file or over an existing one; perhaps just a part of it is written *)
| ev_save gs ps cs fs1 old fs2 f ops fg piece missing :
    In (ops, fg) ps -> saved c f fg (piece ++ missing) -> (List.length old <= 1)%nat ->
    event c (World gs ps cs (fs1 ++ old ++ fs2)) (World gs ps cs (fs1 ++ (f, ops, piece) :: fs2))
(** a file is loaded in the form in which it was saved *)
| ev_load gs ps cs fs f ops bytes fg :
    In (f, ops, bytes) fs -> loaded c f bytes fg ->
    event c (World gs ps cs fs) (World gs ((ops, fg) :: ps) cs fs)
(** the process ends, at any time, and is started again *)
| ev_crash gs ps cs fs :
    event c (World gs ps cs fs) (World [] [] [] fs).

(** The worlds that can be reached. *)
Inductive session (c : cfg) : world -> Prop :=
| session_start : session c (World [] [] [] [])
| session_event w w' : session c w -> event c w w' -> session c w'.
