(** * Serial: saving and loading graphs

    The crate derives serde's Serialize and Deserialize and writes serialize_32/deserialize_32 by
    hand; the format is chosen by the user.  Here: bincode 1.3.3 (Cargo.toml:25), the format of
    the crate's own save/load functions (lib.rs:649-680).  The derived code visits the fields in the order
    of their declaration.  bincode (external code) writes a struct as the sequence of its
    fields without any tags, u32 as 4 and u64 as 8 bytes, lowest byte first, bool as one byte
    and a Vec as its length (u64) followed by its items; serde passes usize as u64.  Bytes are numbers
    below 256.  Running out of memory is not modelled. *)
From Verif Require Export InputGraph FastGraph FastGraph32 Lib.

(** Why loading fails: the end of the file is reached; an integer that does not fit into usize;
    a bool that is neither 0 nor 1. *)
Inductive load_error := EUnexpectedEof | EIntegerRange | EInvalidBool.

(** The result of a deserializer that reads from the front: a value and the bytes that are left. *)
Inductive load (A : Type) := Loaded (a : A) (rest : list N) | LoadError (e : load_error).
Arguments Loaded {A}.
Arguments LoadError {A}.

Definition lbind {A B} (m : load A) (f : A -> list N -> load B) : load B :=
  match m with Loaded a rest => f a rest | LoadError e => LoadError e end.

(** ** Integers and bool *)

(** bincode: little endian, [k] bytes *)
Fixpoint enc_le (k : nat) (x : N) : list N :=
  match k with O => [] | S k' => (x mod 256) :: enc_le k' (x / 256) end.
Fixpoint dec_le (k : nat) (bs : list N) : load N :=
  match k with
  | O => Loaded 0 bs
  | S k' =>
      match bs with
      | [] => LoadError EUnexpectedEof
      | b :: t => lbind (dec_le k' t) (fun x rest => Loaded (b + 256 * x) rest)
      end
  end.

Definition enc_u32 (x : N) : list N := enc_le 4 x.
Definition dec_u32 (bs : list N) : load N := dec_le 4 bs.

(** serde: usize is passed as u64; reading fails if the number does not fit. *)
Definition enc_usize (x : N) : list N := enc_le 8 x.
Definition dec_usize (c : cfg) (bs : list N) : load N :=
  lbind (dec_le 8 bs) (fun x rest => if x <=? umax c then Loaded x rest else LoadError EIntegerRange).

Definition enc_bool (b : bool) : list N := [if b then 1 else 0].
Definition dec_bool (bs : list N) : load bool :=
  match bs with
  | [] => LoadError EUnexpectedEof
  | b :: t =>
      if b =? 0 then Loaded false t else if b =? 1 then Loaded true t else LoadError EInvalidBool
  end.

(** ** Vectors *)

Definition enc_vec {A} (enc : A -> list N) (l : list A) : list N :=
  enc_le 8 (lenN l) ++ flat_map enc l.

(** Read [n] items.  No item is empty, so there are at most as many items as bytes: with fuel for
    every byte, running out of fuel means that the end of the file is reached. *)
Fixpoint dec_items {A} (dec : list N -> load A) (fuel : nat) (n : N) (bs : list N) : load (list A) :=
  if n =? 0 then Loaded [] bs
  else
    match fuel with
    | O => LoadError EUnexpectedEof
    | S fuel' =>
        lbind (dec bs) (fun a rest =>
          lbind (dec_items dec fuel' (n - 1) rest) (fun l rest' => Loaded (a :: l) rest'))
    end.
Definition dec_vec {A} (c : cfg) (dec : list N -> load A) (bs : list N) : load (list A) :=
  lbind (dec_usize c bs) (fun n rest => dec_items dec (List.length rest) n rest).

(** ** The structs of the crate *)

(** input_graph.rs:349-354, derived for Edge *)
Definition enc_edge (e : Edge) : list N :=
  enc_usize (e_from e) ++ enc_usize (e_to e) ++ enc_usize (e_weight e).
Definition dec_edge (c : cfg) (bs : list N) : load Edge :=
  lbind (dec_usize c bs) (fun from bs =>
  lbind (dec_usize c bs) (fun to bs =>
  lbind (dec_usize c bs) (fun weight bs =>
  Loaded (mkEdge from to weight) bs))).

(** input_graph.rs:35-40, derived for InputGraph *)
Definition enc_input_graph (g : InputGraph) : list N :=
  enc_vec enc_edge (ig_edges g) ++ enc_usize (ig_num_nodes g) ++ enc_bool (ig_frozen g).
Definition dec_input_graph (c : cfg) (bs : list N) : load InputGraph :=
  lbind (dec_vec c (dec_edge c) bs) (fun edges bs =>
  lbind (dec_usize c bs) (fun num_nodes bs =>
  lbind (dec_bool bs) (fun frozen bs =>
  Loaded (mkInputGraph edges num_nodes frozen) bs))).

(** fast_graph.rs:86-97, derived for FastGraphEdge *)
Definition enc_fast_edge (e : FastGraphEdge) : list N :=
  enc_usize (fe_base e) ++ enc_usize (fe_adj e) ++ enc_usize (fe_weight e) ++
  enc_usize (fe_replaced_in e) ++ enc_usize (fe_replaced_out e).
Definition dec_fast_edge (c : cfg) (bs : list N) : load FastGraphEdge :=
  lbind (dec_usize c bs) (fun base bs =>
  lbind (dec_usize c bs) (fun adj bs =>
  lbind (dec_usize c bs) (fun weight bs =>
  lbind (dec_usize c bs) (fun r_in bs =>
  lbind (dec_usize c bs) (fun r_out bs =>
  Loaded (mkFGE base adj weight r_in r_out) bs))))).

(** fast_graph.rs:26-35, derived for FastGraph *)
Definition enc_fast_graph (g : FastGraph) : list N :=
  enc_usize (fg_num_nodes g) ++ enc_vec enc_usize (fg_ranks g) ++
  enc_vec enc_fast_edge (fg_edges_fwd g) ++ enc_vec enc_usize (fg_first_edge_ids_fwd g) ++
  enc_vec enc_fast_edge (fg_edges_bwd g) ++ enc_vec enc_usize (fg_first_edge_ids_bwd g).
Definition dec_fast_graph (c : cfg) (bs : list N) : load FastGraph :=
  lbind (dec_usize c bs) (fun num_nodes bs =>
  lbind (dec_vec c (dec_usize c) bs) (fun ranks bs =>
  lbind (dec_vec c (dec_fast_edge c) bs) (fun edges_fwd bs =>
  lbind (dec_vec c (dec_usize c) bs) (fun first_fwd bs =>
  lbind (dec_vec c (dec_fast_edge c) bs) (fun edges_bwd bs =>
  lbind (dec_vec c (dec_usize c) bs) (fun first_bwd bs =>
  Loaded (mkFG num_nodes ranks edges_fwd first_fwd edges_bwd first_bwd) bs)))))).

(** fast_graph32.rs:71-78, derived for FastGraphEdge32 *)
Definition enc_fast_edge32 (e : FastGraphEdge32) : list N :=
  enc_u32 (fe32_base e) ++ enc_u32 (fe32_adj e) ++ enc_u32 (fe32_weight e) ++
  enc_u32 (fe32_replaced_in e) ++ enc_u32 (fe32_replaced_out e).
Definition dec_fast_edge32 (bs : list N) : load FastGraphEdge32 :=
  lbind (dec_u32 bs) (fun base bs =>
  lbind (dec_u32 bs) (fun adj bs =>
  lbind (dec_u32 bs) (fun weight bs =>
  lbind (dec_u32 bs) (fun r_in bs =>
  lbind (dec_u32 bs) (fun r_out bs =>
  Loaded (mkFGE32 base adj weight r_in r_out) bs))))).

(** fast_graph32.rs:31-40, derived for FastGraph32 *)
Definition enc_fast_graph32 (g : FastGraph32) : list N :=
  enc_u32 (fg32_num_nodes g) ++ enc_vec enc_u32 (fg32_ranks g) ++
  enc_vec enc_fast_edge32 (fg32_edges_fwd g) ++ enc_vec enc_u32 (fg32_first_edge_ids_fwd g) ++
  enc_vec enc_fast_edge32 (fg32_edges_bwd g) ++ enc_vec enc_u32 (fg32_first_edge_ids_bwd g).
Definition dec_fast_graph32 (c : cfg) (bs : list N) : load FastGraph32 :=
  lbind (dec_u32 bs) (fun num_nodes bs =>
  lbind (dec_vec c dec_u32 bs) (fun ranks bs =>
  lbind (dec_vec c dec_fast_edge32 bs) (fun edges_fwd bs =>
  lbind (dec_vec c dec_u32 bs) (fun first_fwd bs =>
  lbind (dec_vec c dec_fast_edge32 bs) (fun edges_bwd bs =>
  lbind (dec_vec c dec_u32 bs) (fun first_bwd bs =>
  Loaded (mkFG32 num_nodes ranks edges_fwd first_fwd edges_bwd first_bwd) bs)))))).

(** ** The functions of the crate *)

(** lib.rs:118-120, serialize_32 (also lib.rs:665-670, save_to_disk32); it may panic. *)
Definition serialize_32 (c : cfg) (fg : FastGraph) : res (list N) :=
  g <- to_fast_graph32 c fg ;; Ok (enc_fast_graph32 g).

(** lib.rs:126-129, deserialize_32 (also lib.rs:676-680, load_from_disk32).  The conversion of a
    graph that was read may panic. *)
Definition deserialize_32 (c : cfg) (bs : list N) : res (load FastGraph) :=
  match dec_fast_graph32 c bs with
  | LoadError e => Ok (LoadError e)
  | Loaded g rest => fg <- from_fast_graph32 c g ;; Ok (Loaded fg rest)
  end.

(** lib.rs:649-653, save_to_disk, and lib.rs:656-659, load_from_disk: bytes after the graph are
    ignored by bincode::deserialize_from. *)
Definition save_to_disk (fg : FastGraph) : list N := enc_fast_graph fg.
Definition load_from_disk (c : cfg) (file : list N) : load_error + FastGraph :=
  match dec_fast_graph c file with LoadError e => inl e | Loaded fg _ => inr fg end.
Definition save_to_disk32 (c : cfg) (fg : FastGraph) : res (list N) := serialize_32 c fg.
Definition load_from_disk32 (c : cfg) (file : list N) : res (load_error + FastGraph) :=
  r <- deserialize_32 c file ;;
  Ok (match r with LoadError e => inl e | Loaded fg _ => inr fg end).
