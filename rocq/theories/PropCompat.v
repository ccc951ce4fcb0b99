(** * PropCompat: C89, reading a file of one format as the other *)
From Verif Require Import Examples.
From Verif Require Import CompatFacts.
Open Scope N_scope.

(** C89: from_file is compatible to DIMACS files: it accepts every file from_dimacs_file accepts, and reads the
    same edges, but with the ids of the file, which are higher by one. *)
Theorem C89_from_file_reads_dimacs : forall c b g,
  from_dimacs_file c (contents b) = Ok g -> ig_num_nodes g < umax c ->
  from_file c (contents b) = Ok (shifted g).
Proof. exact C89_reads_proof. Qed.
Print Assumptions C89_from_file_reads_dimacs.

(** So the two graphs have the same answers. *)
Theorem C89_same_answers : forall c b g g' fg fg' s t r r',
  debug_build c = true ->
  from_dimacs_file c (contents b) = Ok g -> from_file c (contents b) = Ok g' -> ig_num_nodes g < umax c ->
  prepared c g fg -> prepared c g' fg' ->
  answer c fg s t r -> answer c fg' (s + 1) (t + 1) r' ->
  option_map sp_get_weight r = option_map sp_get_weight r'.
Proof. exact C89_answers_proof. Qed.
Print Assumptions C89_same_answers.

(** The other direction fails, but not silently: a file written by to_file is never accepted by from_dimacs_file,
    unless the graph has no edges. *)
Theorem C89_not_conversely : forall c es,
  es <> [] -> exists r, from_dimacs_file c (contents (plain_file es)) = Panic r.
Proof. exact C89_not_conversely_proof. Qed.
Print Assumptions C89_not_conversely.

(** The node count of the hypothesis is needed: the largest node id of a DIMACS file is one too many for from_file. *)
Theorem C89_bound_is_needed : exists c b g,
  from_dimacs_file c (contents b) = Ok g /\ from_file c (contents b) = Panic POverflow.
Proof.
  exists cfg64, (str "p sp 18446744073709551615 1
a 1 18446744073709551615 3
"), (mkInputGraph [mkEdge 0 18446744073709551614 3] 18446744073709551615 true).
  split; vm_compute; reflexivity.
Qed.
Print Assumptions C89_bound_is_needed.

(** The doc comment of from_dimacs_file gives the problem line as "p <num_nodes> <num_edges>".  A file with such a
    line is always rejected; only "p sp <num_nodes> <num_edges>" is accepted. *)
Theorem C24_documented_problem_line_is_rejected : forall c b ss s r x y n m,
  file_lines b ss -> In s ss -> s = str "p " ++ r -> words r [x; y] -> number c x n -> number c y m ->
  exists e, from_dimacs_file c (contents b) = Panic e.
Proof. exact documented_problem_proof. Qed.
Print Assumptions C24_documented_problem_line_is_rejected.

(** ** Cases *)
Definition roads : list N := str "c roads

p sp 4 3
a 1 2 5
a 2 4 6
a 1 4 20
".
Definition roads0 : InputGraph := mkInputGraph [mkEdge 0 1 5; mkEdge 0 3 20; mkEdge 1 3 6] 4 true.
Definition roads1 : InputGraph := mkInputGraph [mkEdge 1 2 5; mkEdge 1 4 20; mkEdge 2 4 6] 5 true.
Definition roads0_fg : FastGraph := Eval vm_compute in get_ok (prepare cfg64 list_heap list_pq roads0) fg_dummy.
Definition roads1_fg : FastGraph := Eval vm_compute in get_ok (prepare cfg64 list_heap list_pq roads1) fg_dummy.
Example C89_case :
  from_dimacs_file cfg64 (contents roads) = Ok roads0 /\ from_file cfg64 (contents roads) = Ok roads1 /\
  ig_num_nodes roads0 < umax cfg64 /\ roads1 = shifted roads0.
Proof. repeat split; vm_compute; reflexivity. Qed.
Example C89_case_answers :
  prepared cfg64 roads0 roads0_fg /\ prepared cfg64 roads1 roads1_fg /\
  answer cfg64 roads0_fg 0 3 (Some (mkSP 0 3 11 [0; 1; 3])) /\ answer cfg64 roads1_fg 1 4 (Some (mkSP 1 4 11 [1; 2; 4])).
Proof.
  split; [|split; [|split]].
  1,2: left; exists params_default, list_heap, (fun _ => True), list_pq, (fun _ => True);
    split; [exact list_heap_laws|]; split; [exact list_pq_laws|]; vm_compute; reflexivity.
  all: exists list_heap, (fun _ => True); split; [exact list_heap_laws|]; left; vm_compute; reflexivity.
Qed.
Example C89_case_not_conversely : plain_file [mkEdge 1 2 5] = str "a 1 2 5
" /\ from_dimacs_file cfg64 (contents (plain_file [mkEdge 1 2 5])) <> from_file cfg64 (contents (plain_file [mkEdge 1 2 5])).
Proof. split; vm_compute; [reflexivity|discriminate]. Qed.
Example C24_case_documented : file_lines (str "p 2 1
a 1 2 3") [str "p 2 1"; str "a 1 2 3"] /\ words (str "2 1") [str "2"; str "1"] /\
  number cfg64 (str "2") 2 /\ number cfg64 (str "1") 1 /\
  exists e, from_dimacs_file cfg64 (contents (str "p 2 1
a 1 2 3")) = Panic e.
Proof.
  split; [repeat constructor|]. split.
  { apply (words_cons [] (str "2") (str " 1")); try discriminate; [intros x []|intros x [<-|[]]; reflexivity|right; exists 32, (str "1"); auto|].
    apply (words_cons (str " ") (str "1") []); try discriminate; [intros x [<-|[]]; reflexivity|intros x [<-|[]]; reflexivity|auto|].
    apply words_nil. intros x []. }
  split; [|split]; [| |eexists; vm_compute; reflexivity].
  all: split; [vm_compute; discriminate|].
  - exists (str "2"). split; [|auto]. split; [discriminate|]. split; [intros d [<-|[]]; split; vm_compute; discriminate|reflexivity].
  - exists (str "1"). split; [|auto]. split; [discriminate|]. split; [intros d [<-|[]]; split; vm_compute; discriminate|reflexivity].
Qed.
