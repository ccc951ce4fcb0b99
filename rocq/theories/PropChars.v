(** * PropChars: C24, what the lines of a text file are *)
From Verif Require Export CharFacts PropFile.
From Coq Require Import Lia.
Open Scope N_scope.

(** C24: the decoded lines of a file, from which [C24_accepts_exactly_the_format] and the theorems on the other format
    read the arcs, are exactly those of the specification: parts ended by line feeds (and carriage returns before them),
    each a sequence of Unicode scalar values in UTF-8. *)
Theorem C24_lines_and_characters : forall b ss,
  file_lines b ss <-> exists raws, consists_of b raws /\ Forall2 encodes raws ss.
Proof. exact file_lines_iff. Qed.
Print Assumptions C24_lines_and_characters.

(** Hence a file with a line that is not UTF-8 is never accepted. *)
Theorem C24_only_utf8 : forall c b g raws raw,
  from_dimacs_file c (contents b) = Ok g -> consists_of b raws -> In raw raws -> exists s, encodes raw s.
Proof. exact only_utf8_proof. Qed.
Print Assumptions C24_only_utf8.

(** The words of a line are separated by the characters with the property White_Space. *)
Theorem C24_separators : forall x, is_whitespace x = true <-> In x white_space.
Proof. exact white_space_proof. Qed.
Print Assumptions C24_separators.

(** "c é", CR LF, LF, "p sp 1 0" without line feed; and an overlong encoding, which is refused *)
Example C24_case_lines : file_lines [99; 32; 195; 169; 13; 10; 10; 112] [[99; 32; 233]; []; [112]].
Proof.
  apply C24_lines_and_characters. exists [[99; 32; 195; 169]; []; [112]]. split.
  - apply (co_crlf [99; 32; 195; 169]); [simpl; intuition discriminate|].
    apply (co_lf []); [intros []|intros [|? ?]; discriminate|]. apply co_last; [discriminate|simpl; intuition discriminate].
  - assert (forall s, (forall x, In x s -> x < 55296) -> encodes (flat_map utf8_bytes s) s) as E
      by (intros s Hs; split; [intros x Hx; left; auto|reflexivity]).
    constructor; [|constructor; [|constructor; [|constructor]]].
    + apply (E [99; 32; 233]). intros x Hx. repeat (destruct Hx as [<-|Hx]; [reflexivity|]). destruct Hx.
    + apply (E []). intros x [].
    + apply (E [112]). intros x [<-|[]]. reflexivity.
Qed.
Example C24_case_overlong : ~ exists s, encodes [99; 192; 128] s.
Proof. intros (s & H). apply decode_iff in H. discriminate. Qed.
Example C24_case_only_utf8 : exists g, from_dimacs_file cfg64 (contents [99; 32; 195; 169; 13; 10; 10; 99]) = Ok g.
Proof. eexists. vm_compute. reflexivity. Qed.
