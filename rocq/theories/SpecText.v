(** * SpecText: what the two file formats mean, without reference to how they are parsed *)
From Verif Require Export FileIO SpecGraph.
Open Scope N_scope.

(** [ds] is a non-empty string of decimal digits and denotes [v]. *)
Definition denotes (ds : list N) (v : N) : Prop :=
  ds <> [] /\ (forall d, In d ds -> 48 <= d <= 57) /\ v = fold_left (fun a d => a * 10 + (d - 48)) ds 0.

(** [w] is a usize: digits, perhaps after a plus sign. *)
Definition number (c : cfg) (w : list N) (v : N) : Prop :=
  v <= umax c /\ exists ds, denotes ds v /\ (w = ds \/ w = 43 :: ds).

(** [ws] are the words of [s], i.e. the maximal non-empty parts without whitespace. *)
Inductive words : list N -> list (list N) -> Prop :=
| words_nil s : (forall x, In x s -> is_whitespace x = true) -> words s []
| words_cons pre w rest ws :
    (forall x, In x pre -> is_whitespace x = true) ->
    w <> [] -> (forall x, In x w -> is_whitespace x = false) ->
    (rest = [] \/ exists y r, rest = y :: r /\ is_whitespace y = true) ->
    words rest ws -> words (pre ++ w ++ rest) (w :: ws).

(** "a <from> <to> <weight>" *)
Definition arc_line (c : cfg) (s : list N) (f t w : N) : Prop :=
  exists r a b d, s = str "a " ++ r /\ words r [a; b; d] /\ number c a f /\ number c b t /\ number c d w.
(** "p sp <nodes> <edges>" *)
Definition problem_line (c : cfg) (s : list N) (n m : N) : Prop :=
  exists r a b, s = str "p sp " ++ r /\ words r [a; b] /\ number c a n /\ number c b m.
(** empty lines and lines starting with c *)
Definition comment_line (s : list N) : Prop := s = [] \/ exists r, s = str "c" ++ r.

(** [arcs] are the arcs of a plain text file with the lines [ss]; other lines are ignored. *)
Inductive plain_text (c : cfg) : list (list N) -> list Edge -> Prop :=
| plain_nil : plain_text c [] []
| plain_arc s ss f t w arcs : arc_line c s f t w -> plain_text c ss arcs ->
    plain_text c (s :: ss) (mkEdge f t w :: arcs)
| plain_other s ss arcs : (forall r, s <> str "a " ++ r) -> plain_text c ss arcs ->
    plain_text c (s :: ss) arcs.

(** Lines after the problem line: comments, and arcs between nodes 1..n. *)
Inductive dimacs_arcs (c : cfg) (n : N) : list (list N) -> list Edge -> Prop :=
| da_nil : dimacs_arcs c n [] []
| da_comment s ss arcs : comment_line s -> dimacs_arcs c n ss arcs -> dimacs_arcs c n (s :: ss) arcs
| da_arc s ss f t w arcs : arc_line c s f t w -> 1 <= f <= n -> 1 <= t <= n ->
    dimacs_arcs c n ss arcs -> dimacs_arcs c n (s :: ss) (mkEdge f t w :: arcs).

(** A DIMACS file: comments, one problem line, and as many arcs as it declares; or no problem line and
    only comments. *)
Definition dimacs_text (c : cfg) (ss : list (list N)) (arcs : list Edge) : Prop :=
  (exists pre p post n m, ss = pre ++ p :: post /\ (forall s, In s pre -> comment_line s) /\
     problem_line c p n m /\ dimacs_arcs c n post arcs /\ lenN arcs = m) \/
  ((forall s, In s ss -> comment_line s) /\ arcs = []).

(** The lines of a file, decoded; None if some line is not UTF-8. *)
Definition file_lines (b : list N) (ss : list (list N)) : Prop :=
  Forall2 (fun raw s => utf8_decode raw = Some s) (text_lines b) ss.

(** Adding arcs to a new graph and freezing it. *)
Definition graph_of (c : cfg) (arcs : list Edge) : res InputGraph :=
  ig_run c ig_new (map (fun e => OpAddEdge (e_from e) (e_to e) (e_weight e)) arcs ++ [OpFreeze]).
(** from 1-based to 0-based ids *)
Definition zero_based (e : Edge) : Edge := mkEdge (e_from e - 1) (e_to e - 1) (e_weight e).

(** A file without read errors. *)
Definition contents (b : list N) : option file_data := Some (mkFileData b false).

(** A device that may be slow, but does not fail. *)
Definition no_error (o : wout) : Prop := match o with WOk k => k <> 0 | WInterrupted => True | WErr => False end.
Definition reliable (dv : device) : Prop := dv_create_ok dv = true /\ forall o, In o (dv_sched dv) -> no_error o.

(** The complete texts of the two formats. *)
Definition arc_text (f t w : N) : list N := str "a " ++ dec f ++ str " " ++ dec t ++ str " " ++ dec w ++ [10].
Definition plain_file (es : list Edge) : list N :=
  flat_map (fun e => arc_text (e_from e) (e_to e) (e_weight e)) es.
Definition dimacs_file (n : N) (es : list Edge) : list N :=
  str "p sp " ++ dec n ++ str " " ++ dec (lenN es) ++ [10] ++
  flat_map (fun e => arc_text (e_from e + 1) (e_to e + 1) (e_weight e)) es.
