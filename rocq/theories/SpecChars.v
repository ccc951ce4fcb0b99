(** * SpecChars: lines and characters of a text file, without reference to how they are decoded *)
From Verif Require Export SpecText.
Open Scope N_scope.

(** a Unicode scalar value *)
Definition scalar (x : N) : Prop := x < 55296 \/ 57344 <= x < 1114112.
(** its bytes in UTF-8 *)
Definition utf8_bytes (x : N) : list N :=
  if x <? 128 then [x]
  else if x <? 2048 then [192 + x / 64; 128 + x mod 64]
  else if x <? 65536 then [224 + x / 4096; 128 + x / 64 mod 64; 128 + x mod 64]
  else [240 + x / 262144; 128 + x / 4096 mod 64; 128 + x / 64 mod 64; 128 + x mod 64].
(** [raw] is the text [s] in UTF-8. *)
Definition encodes (raw s : list N) : Prop := (forall x, In x s -> scalar x) /\ raw = flat_map utf8_bytes s.

(** [b] consists of the lines [ls].  A line feed ends a line, and a carriage return before it does not belong to the
    line; the last line need not be ended. *)
Inductive consists_of : list N -> list (list N) -> Prop :=
| co_empty : consists_of [] []
| co_last l : l <> [] -> ~ In 10 l -> consists_of l [l]
| co_lf l rest ls : ~ In 10 l -> (forall l', l <> l' ++ [13]) -> consists_of rest ls -> consists_of (l ++ [10] ++ rest) (l :: ls)
| co_crlf l rest ls : ~ In 10 l -> consists_of rest ls -> consists_of (l ++ [13; 10] ++ rest) (l :: ls).

(** the characters with the Unicode property White_Space *)
Definition white_space : list N :=
  [9; 10; 11; 12; 13; 32; 133; 160; 5760; 8192; 8193; 8194; 8195; 8196; 8197; 8198; 8199; 8200; 8201; 8202;
   8232; 8233; 8239; 8287; 12288].
