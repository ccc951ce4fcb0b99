(** * FileIO: model of the file formats of input_graph.rs *)
From Verif Require Export Text BufWriter InputGraph.

(** Result<(), std::io::Error> *)
Inductive io_result := IoOk | IoErr.

(** A device: can the file be created, and what will the calls of write(2) do. *)
Record device := mkDevice { dv_create_ok : bool; dv_sched : list wout }.

(** The default capacity of BufWriter. *)
Definition buf_capacity : N := 8192.

(** Writing of one line after the other; each line may panic while it is formatted.  Stops at
    the first error or panic. *)
Fixpoint write_lines (cap : N) (w : BufWriter) (ls : list (res (list (list N))))
  : BufWriter * res io_result :=
  match ls with
  | [] => (w, Ok IoOk)
  | l :: r =>
      match l with
      | Ok pieces =>
          let '(w', ok) := bw_write_pieces cap w pieces in
          if ok then write_lines cap w' r else (w', Ok IoErr)
      | Panic p => (w, Panic p)
      | Diverge => (w, Diverge)
      end
  end.

(** The common frame of to_file and to_dimacs_file: create (and truncate) the file, run the body
    with a BufWriter, drop the BufWriter, which is also done when unwinding.  [old] is the
    previous content of the file, if it exists. *)
Definition with_writer (dv : device) (old : option (list N)) (ls : res (list (res (list (list N)))))
  : option (list N) * res io_result :=
  if dv_create_ok dv then
    let w := mkBW [] [] (dv_sched dv) in
    match ls with
    | Ok l => let '(w', r) := write_lines buf_capacity w l in (Some (bw_drop w'), r)
    | Panic p => (Some (bw_drop w), Panic p)
    | Diverge => (Some (bw_drop w), Diverge)
    end
  else (old, Ok IoErr).

(** input_graph.rs:74, the pieces written by writeln!(f, "a {} {} {}", from, to, weight) *)
Definition arc_pieces (from to weight : N) : list (list N) :=
  [str "a "; dec from; str " "; dec to; str " "; dec weight; [10]].

(** input_graph.rs:71-77, to_file.  Returns the new content of the file, too. *)
Definition to_file (dv : device) (old : option (list N)) (g : InputGraph)
  : option (list N) * res io_result :=
  with_writer dv old
    (edges <- ig_get_edges g ;;
     Ok (map (fun e => Ok (arc_pieces (e_from e) (e_to e) (e_weight e))) edges)).

(** input_graph.rs:108, one arc line of the DIMACS format *)
Definition dimacs_arc (c : cfg) (e : Edge) : res (list (list N)) :=
  f <- uadd c (e_from e) 1 ;;
  t <- uadd c (e_to e) 1 ;;
  Ok (arc_pieces f t (e_weight e)).

(** input_graph.rs:104-111, to_dimacs_file.  All three getters panic iff the graph is not
    frozen, so calling get_edges before the problem line is written makes no difference. *)
Definition to_dimacs_file (c : cfg) (dv : device) (old : option (list N)) (g : InputGraph)
  : option (list N) * res io_result :=
  with_writer dv old
    (n <- ig_get_num_nodes g ;;
     m <- ig_get_num_edges g ;;
     edges <- ig_get_edges g ;;
     Ok (Ok [str "p sp "; dec n; str " "; dec m; [10]] :: map (dimacs_arc c) edges)).

(** input_graph.rs:322-334, read_arc_line, on the decoded line *)
Definition read_arc_line (c : cfg) (line : list N) : res (N * N * N) :=
  let split0 := split_whitespace (skipn 2 line) in
  f <- unwrap (hd_error split0) ;; from <- unwrap (parse_usize c f) ;;
  let split1 := tl split0 in
  t <- unwrap (hd_error split1) ;; to <- unwrap (parse_usize c t) ;;
  let split2 := tl split1 in
  w <- unwrap (hd_error split2) ;; weight <- unwrap (parse_usize c w) ;;
  _ <- assert (match tl split2 with [] => true | _ => false end) "Invalid arc line" ;;
  Ok (from, to, weight).

(** input_graph.rs:240-248, body of the loop of read_from_file *)
Definition read_line_plain (c : cfg) (g : InputGraph) (raw : list N) : res InputGraph :=
  s <- unwrap (utf8_decode raw) ;;
  if starts_with (str "a ") s then
    '(from, to, weight) <- read_arc_line c s ;;
    '(g', _) <- ig_add_edge c g from to weight ;;
    Ok g'
  else Ok g.

(** What reading a file gives: its bytes, and whether reading ends with an error instead of
    the end of the file.  [None] if the file cannot be opened. *)
Record file_data := mkFileData { fd_bytes : list N; fd_error : bool }.

(** The complete lines before a read error: what follows the last newline is lost. *)
Fixpoint complete_part (s : list N) : list N :=
  match s with
  | [] => []
  | x :: r =>
      if existsb (N.eqb 10) s then x :: complete_part r else []
  end.

(** [for line in reader.lines() { s = f(s, line.unwrap()) }] *)
Definition fold_lines {S} (f : S -> list N -> res S) (fd : file_data) (s : S) : res S :=
  if fd_error fd then
    _ <- foldM f (text_lines (complete_part (fd_bytes fd))) s ;; Panic PUnwrap
  else foldM f (text_lines (fd_bytes fd)) s.

(** input_graph.rs:236-251, read_from_file (from_file:64-66) *)
Definition from_file (c : cfg) (file : option file_data) : res InputGraph :=
  fd <- unwrap file ;;
  g <- fold_lines (read_line_plain c) fd ig_new ;;
  ig_freeze g.

(** input_graph.rs:256-260, the local variables of read_from_dimacs *)
Record dstate := mkDS {
  ds_g : InputGraph; ds_nodes : N; ds_edges : N; ds_curr : N; ds_found : bool
}.

(** input_graph.rs:261-312, body of the loop of read_from_dimacs.  The texts of the panics are
    shortened. *)
Definition read_line_dimacs (c : cfg) (d : dstate) (raw : list N) : res dstate :=
  s <- unwrap (utf8_decode raw) ;;
  if (match s with [] => true | _ => false end) || starts_with (str "c") s then Ok d
  else if starts_with (str "p sp ") s then
    if ds_found d then Panic (PExplicit "There should be only one problem line")
    else
      let split0 := split_whitespace (skipn 5 s) in
      a <- unwrap (hd_error split0) ;; nodes <- unwrap (parse_usize c a) ;;
      let split1 := tl split0 in
      b <- unwrap (hd_error split1) ;; edges <- unwrap (parse_usize c b) ;;
      _ <- assert (match tl split1 with [] => true | _ => false end) "Invalid problem line" ;;
      Ok (mkDS (ds_g d) nodes edges (ds_curr d) true)
  else if starts_with (str "a ") s then
    _ <- assert (ds_found d) "The problem line must be written before the arc lines" ;;
    '(from, to, weight) <- read_arc_line c s ;;
    _ <- assert ((from <=? ds_nodes d) && (to <=? ds_nodes d)) "Invalid nodes in line" ;;
    _ <- assert (ds_curr d <? ds_edges d) "Too many arc lines" ;;
    _ <- assert ((0 <? from) && (0 <? to)) "Invalid arc line" ;;
    '(g', _) <- ig_add_edge c (ds_g d) (from - 1) (to - 1) weight ;;
    Ok (mkDS g' (ds_nodes d) (ds_edges d) (ds_curr d + 1) (ds_found d))
  else Panic (PExplicit "Invalid line").

(** input_graph.rs:253-320, read_from_dimacs (from_dimacs_file:94-96).  [ds_curr + 1] cannot
    overflow because of the preceding test. *)
Definition from_dimacs_file (c : cfg) (file : option file_data) : res InputGraph :=
  fd <- unwrap file ;;
  d <- fold_lines (read_line_dimacs c) fd (mkDS ig_new 0 0 0 false) ;;
  _ <- assert (ds_curr d =? ds_edges d) "Not enough arc lines" ;;
  ig_freeze (ds_g d).
