(** * BufWriter: std::io::BufWriter<File>, and a file system that may fail.

    Not code of the crate: it renders the documented behaviour of std and of write(2), as far as
    input_graph.rs:71-77 and 104-111 depend on it. *)
From Verif Require Export Base.

(** What one call of write(2) does: accept up to [k] bytes, be interrupted by a signal, or
    fail.  [WOk 0] stands for Ok(0), which std turns into an error. *)
Inductive wout := WOk (k : N) | WInterrupted | WErr.

(** The loops of BufWriter::flush_buf and Write::write_all: write until [buf] is empty; retry when
    interrupted.  [sched] lists the outcomes of the next calls; after the last one
    all calls accept everything.  Returns the file, what was not written, the rest of the
    schedule, and whether all went well.  Simplification: interruptions without end (and hence an
    infinite loop) are not covered. *)
Fixpoint write_loop (sched : list wout) (file buf : list N) : list N * list N * list wout * bool :=
  match buf with
  | [] => (file, [], sched, true)
  | _ =>
      match sched with
      | [] => (file ++ buf, [], [], true)
      | WOk k :: r =>
          if k =? 0 then (file, buf, r, false)
          else let k' := Nat.min (N.to_nat k) (List.length buf) in
               write_loop r (file ++ firstn k' buf) (skipn k' buf)
      | WInterrupted :: r => write_loop r file buf
      | WErr :: r => (file, buf, r, false)
      end
  end.

(** A BufWriter: what is in the file, what is in the buffer, and the future of the device. *)
Record BufWriter := mkBW { bw_file : list N; bw_buf : list N; bw_sched : list wout }.

(** BufWriter::flush_buf *)
Definition bw_flush_buf (w : BufWriter) : BufWriter * bool :=
  let '(f, b, s, ok) := write_loop (bw_sched w) (bw_file w) (bw_buf w) in (mkBW f b s, ok).

(** <BufWriter as Write>::write_all, with a buffer of [cap] bytes *)
Definition bw_write_all (cap : N) (w : BufWriter) (data : list N) : BufWriter * bool :=
  let spare := cap - lenN (bw_buf w) in
  if lenN data <? spare then (mkBW (bw_file w) (bw_buf w ++ data) (bw_sched w), true)
  else
    let '(w1, ok) := if spare <? lenN data then bw_flush_buf w else (w, true) in
    if negb ok then (w1, false)
    else if cap <=? lenN data then
      let '(f, _, s, ok') := write_loop (bw_sched w1) (bw_file w1) data in
      (mkBW f (bw_buf w1) s, ok')
    else (mkBW (bw_file w1) (bw_buf w1 ++ data) (bw_sched w1), true).

(** Write::write_fmt: the pieces of a format string are written one after the other; the first
    error ends it *)
Fixpoint bw_write_pieces (cap : N) (w : BufWriter) (pieces : list (list N)) : BufWriter * bool :=
  match pieces with
  | [] => (w, true)
  | p :: r =>
      let '(w', ok) := bw_write_all cap w p in
      if ok then bw_write_pieces cap w' r else (w', false)
  end.

(** <BufWriter as Drop>::drop: the buffer is flushed, errors are ignored.  Returns the final
    contents of the file. *)
Definition bw_drop (w : BufWriter) : list N := bw_file (fst (bw_flush_buf w)).
