(** * Text: the text functions of Rust's standard library used by input_graph.rs.

    Bytes and Unicode scalar values are numbers.  None of this is code of the crate: the definitions
    render the documented behaviour of std. *)
From Verif Require Export Base.
From Coq Require Import Ascii.

(** A string literal as bytes (ASCII only, hence also as chars). *)
Fixpoint str (s : string) : list N :=
  match s with
  | EmptyString => []
  | String a r => N_of_ascii a :: str r
  end.

(** str::starts_with *)
Fixpoint starts_with (p s : list N) : bool :=
  match p, s with
  | [], _ => true
  | a :: p', b :: s' => (a =? b) && starts_with p' s'
  | _ :: _, [] => false
  end.

(** BufRead::lines on the contents of a file, before UTF-8 decoding: lines end with "\n" or
    "\r\n" or with the end of the file. *)
Fixpoint text_lines (s : list N) : list (list N) :=
  match s with
  | [] => []
  | x :: r =>
      if x =? 10 then [] :: text_lines r
      else if (x =? 13) && (match r with y :: _ => y =? 10 | [] => false end) then text_lines r
      else match text_lines r with
           | [] => [[x]]
           | l :: ls => (x :: l) :: ls
           end
  end.

(** UTF-8 decoding of a line into chars (Unicode standard, table 3-7); None for malformed input. *)
Definition between (a b x : N) : bool := (a <=? x) && (x <=? b).
Definition cont (x : N) : bool := between 128 191 x.
Fixpoint utf8_decode (s : list N) : option (list N) :=
  match s with
  | [] => Some []
  | b0 :: r0 =>
      if b0 <? 128 then option_map (cons b0) (utf8_decode r0)
      else match r0 with
      | [] => None
      | b1 :: r1 =>
          if between 194 223 b0 && cont b1
          then option_map (cons ((b0 - 192) * 64 + (b1 - 128))) (utf8_decode r1)
          else match r1 with
          | [] => None
          | b2 :: r2 =>
              if cont b2 &&
                 (((b0 =? 224) && between 160 191 b1) || (between 225 236 b0 && cont b1) ||
                  ((b0 =? 237) && between 128 159 b1) || (between 238 239 b0 && cont b1))
              then option_map (cons ((b0 - 224) * 4096 + (b1 - 128) * 64 + (b2 - 128))) (utf8_decode r2)
              else match r2 with
              | [] => None
              | b3 :: r3 =>
                  if cont b2 && cont b3 &&
                     (((b0 =? 240) && between 144 191 b1) || (between 241 243 b0 && cont b1) ||
                      ((b0 =? 244) && between 128 143 b1))
                  then option_map (cons ((b0 - 240) * 262144 + (b1 - 128) * 4096 + (b2 - 128) * 64 + (b3 - 128)))
                                  (utf8_decode r3)
                  else None
              end
          end
      end
  end.

(** char::is_whitespace (Unicode property White_Space) *)
Definition is_whitespace (x : N) : bool :=
  between 9 13 x || (x =? 32) || (x =? 133) || (x =? 160) || (x =? 5760) || between 8192 8202 x ||
  (x =? 8232) || (x =? 8233) || (x =? 8239) || (x =? 8287) || (x =? 12288).

(** str::split_whitespace; [cur] is the word read so far *)
Fixpoint split_ws (s : list N) (cur : list N) : list (list N) :=
  match s with
  | [] => match cur with [] => [] | _ => [cur] end
  | x :: r =>
      if is_whitespace x
      then match cur with [] => split_ws r [] | _ => cur :: split_ws r [] end
      else split_ws r (cur ++ [x])
  end.
Definition split_whitespace (s : list N) : list (list N) := split_ws s [].

(** str::parse::<usize>: an optional '+', then at least one decimal digit; an error on any other
    char and on overflow, in every build *)
Fixpoint parse_digits (c : cfg) (s : list N) (acc : N) : option N :=
  match s with
  | [] => Some acc
  | d :: r =>
      if between 48 57 d then
        let a := acc * 10 + (d - 48) in
        if a <=? umax c then parse_digits c r a else None
      else None
  end.
Definition parse_usize (c : cfg) (s : list N) : option N :=
  match s with
  | [] => None
  | x :: r =>
      if x =? 43 then match r with [] => None | _ => parse_digits c r 0 end
      else parse_digits c s 0
  end.

(** The decimal representation of a usize, as printed by "{}" *)
Fixpoint dec_fuel (k : nat) (n : N) : list N :=
  match k with
  | O => []
  | S k' => if n <? 10 then [48 + n] else dec_fuel k' (n / 10) ++ [48 + n mod 10]
  end.
Definition dec (n : N) : list N := dec_fuel (S (N.size_nat n)) n.

(** Option::unwrap / Result::unwrap *)
Definition unwrap {A} (o : option A) : res A :=
  match o with Some a => Ok a | None => Panic PUnwrap end.
