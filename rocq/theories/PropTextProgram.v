(** * PropTextProgram: C90, from a text file to a shortest path *)
From Verif Require Export TextProgramFacts Examples.
Open Scope N_scope.

(** C90: reading a plain text file, preparing the graph and asking for a path gives a path of least weight along the
    arcs of the file, or None if there is none below the largest usize.  It panics only for nodes beyond those of the
    file, if a sum overflows, or if there are too many arcs. *)
Theorem C90_plain_file_to_path : forall c b ss arcs s t, debug_build c = true -> 1 <= umax c ->
  file_lines b ss -> plain_text c ss arcs ->
  match plain_program c (contents b) s t with
  | Ok (Some p) =>
      known (triples arcs) s /\ known (triples arcs) t /\ sp_get_source p = s /\ sp_get_target p = t /\
      walk (usable (triples arcs)) s t (sp_get_nodes p) (sp_get_weight p) /\
      (forall ns W, walk (usable (triples arcs)) s t ns W -> sp_get_weight p <= W)
  | Ok None => known (triples arcs) s /\ known (triples arcs) t /\ forall ns W, walk (usable (triples arcs)) s t ns W -> umax c <= W
  | Panic r => r = POverflow \/ r = PCapacity \/
      (r = PAssert "invalid start node" /\ ~ known (triples arcs) s) \/
      (r = PAssert "invalid end node" /\ known (triples arcs) s /\ ~ known (triples arcs) t)
  | Diverge => False
  end.
Proof. exact C90_plain_right_proof. Qed.
Print Assumptions C90_plain_file_to_path.

(** The same for DIMACS files, in the numbers of the file: the ids returned are lower by one. *)
Theorem C90_dimacs_file_to_path : forall c b ss arcs s t, debug_build c = true -> 1 <= umax c ->
  file_lines b ss -> dimacs_text c ss arcs -> 1 <= s -> 1 <= t ->
  match dimacs_program c (contents b) s t with
  | Ok (Some p) =>
      known (triples arcs) s /\ known (triples arcs) t /\ sp_get_source p + 1 = s /\ sp_get_target p + 1 = t /\
      walk (usable (triples arcs)) s t (file_numbers (sp_get_nodes p)) (sp_get_weight p) /\
      (forall ns W, walk (usable (triples arcs)) s t ns W -> sp_get_weight p <= W)
  | Ok None => known (triples arcs) s /\ known (triples arcs) t /\ forall ns W, walk (usable (triples arcs)) s t ns W -> umax c <= W
  | Panic r => r = POverflow \/ r = PCapacity \/
      (r = PAssert "invalid start node" /\ ~ known (triples arcs) s) \/
      (r = PAssert "invalid end node" /\ known (triples arcs) s /\ ~ known (triples arcs) t)
  | Diverge => False
  end.
Proof. exact C90_dimacs_right_proof. Qed.
Print Assumptions C90_dimacs_file_to_path.

(** What the file says is all that matters: the program does the same as if the arcs had been added one by one, in
    builds with and without overflow checks; so C87 and C88 apply. *)
Theorem C90_same_as_adding_the_arcs : forall c b ss arcs s t, file_lines b ss ->
  (plain_text c ss arcs -> plain_program c (contents b) s t = readme_program c (triples arcs) s t) /\
  (dimacs_text c ss arcs ->
   dimacs_program c (contents b) s t = readme_program c (triples (map zero_based arcs)) (s - 1) (t - 1)).
Proof. intros c b ss arcs s t H. split; intros HT; [exact (C90_plain_eq_proof c b ss arcs s t H HT)|exact (C90_dimacs_eq_proof c b ss arcs s t H HT)]. Qed.
Print Assumptions C90_same_as_adding_the_arcs.

(** A file that does not have the format is never used. *)
Theorem C90_malformed_files : forall c b s t,
  (~ (exists ss arcs, file_lines b ss /\ plain_text c ss arcs) -> exists r, plain_program c (contents b) s t = Panic r) /\
  (~ (exists ss arcs, file_lines b ss /\ dimacs_text c ss arcs) -> exists r, dimacs_program c (contents b) s t = Panic r).
Proof. exact C90_malformed_proof. Qed.
Print Assumptions C90_malformed_files.

(** A file with node numbers below 500 and small weights is read and answered without panic, and the same in builds
    without overflow checks. *)
Theorem C90_small_files_return : forall c b ss arcs M s t, debug_build c = true -> 500000 <= umax c -> file_lines b ss ->
  (forall e, In e arcs -> e_from e < 500 /\ e_to e < 500 /\ e_weight e <= M) ->
  498002 * M <= umax c -> lenN arcs <= umax c / 2 -> known (triples arcs) s -> known (triples arcs) t ->
  (plain_text c ss arcs ->
   exists r, plain_program c (contents b) s t = Ok r /\ plain_program (unchecked c) (contents b) s t = Ok r) /\
  (dimacs_text c ss arcs -> 1 <= s -> 1 <= t ->
   exists r, dimacs_program c (contents b) s t = Ok r /\ dimacs_program (unchecked c) (contents b) s t = Ok r).
Proof. exact C90_returns_proof. Qed.
Print Assumptions C90_small_files_return.

(** ** Cases *)
Definition city : list N := str "c city
p sp 5 6
a 1 2 5
a 2 4 6
a 1 4 20
a 3 3 1
a 4 3 2
a 3 1 0
".
Definition city_lines : list (list N) := Eval vm_compute in
  map str ["c city"; "p sp 5 6"; "a 1 2 5"; "a 2 4 6"; "a 1 4 20"; "a 3 3 1"; "a 4 3 2"; "a 3 1 0"]%string.
Definition city_arcs : list Edge := [mkEdge 1 2 5; mkEdge 2 4 6; mkEdge 1 4 20; mkEdge 3 3 1; mkEdge 4 3 2; mkEdge 3 1 0].
Example C90_case_text : file_lines city city_lines /\ dimacs_text cfg64 city_lines city_arcs /\ plain_text cfg64 city_lines city_arcs.
Proof.
  assert (forall r f t w, read_arc_line cfg64 (str "a " ++ r) = Ok (f, t, w) -> arc_line cfg64 (str "a " ++ r) f t w) as HA
    by (intros r f t w; apply ReaderFacts.read_arc_spec).
  assert (dimacs_text cfg64 city_lines city_arcs) as HT.
  { left. exists [str "c city"], (str "p sp 5 6"), (skipn 2 city_lines), 5, 6. split; [reflexivity|].
    split; [intros s [<-|[]]; right; exists (str " city"); reflexivity|].
    split; [apply (proj1 (ReaderFacts.read_problem_spec cfg64 (str "5 6") 5 6)); vm_compute; reflexivity|].
    split; [|reflexivity].
    unfold city_lines, city_arcs. cbn [skipn].
    repeat (apply da_arc; [match goal with |- arc_line _ (_ :: _ :: ?r) _ _ _ => apply (HA r) end; vm_compute; reflexivity|lia|lia|]).
    apply da_nil. }
  split; [|split; auto].
  { assert (text_lines city = city_lines) as E by (vm_compute; reflexivity).
    unfold file_lines. rewrite E. unfold city_lines. repeat (apply Forall2_cons; [vm_compute; reflexivity|]). apply Forall2_nil. }
  apply (CompatFacts.dimacs_text_plain _ _ _ HT).
Qed.
(** from 1 to 3: 1, 2, 4, 3; from 3 to 1: the arc of weight 0 is not accepted; node 5 has no arcs *)
Example C90_case :
  dimacs_program cfg64 (contents city) 1 3 = Ok (Some (mkSP 0 2 13 [0; 1; 3; 2])) /\
  plain_program cfg64 (contents city) 1 3 = Ok (Some (mkSP 1 3 13 [1; 2; 4; 3])) /\
  dimacs_program cfg64 (contents city) 3 1 = Ok None /\
  dimacs_program cfg64 (contents city) 5 1 = Panic (PAssert "invalid start node").
Proof. repeat split; vm_compute; reflexivity. Qed.
Example C90_case_malformed :
  ~ (exists ss arcs, file_lines (str "a 1 2") ss /\ plain_text cfg64 ss arcs) /\
  ~ (exists ss arcs, file_lines (str "a 1 2 3") ss /\ dimacs_text cfg64 ss arcs).
Proof.
  split; intros (ss & arcs & H1 & H2).
  - pose proof (TextProgramFacts.from_file_eq cfg64 _ ss arcs H1 H2) as E.
    inversion H1 as [|raw s raws ss' Hd HD]; subst. inversion HD; subst. vm_compute in Hd. injection Hd as <-.
    inversion H2 as [|s0 ss0 f t w arcs0 Ha Hp|s0 ss0 arcs0 Ha Hp]; subst; [|apply (Ha [49; 32; 50]); reflexivity].
    apply (ReaderFacts.read_arc_spec cfg64 [49; 32; 50]) in Ha. vm_compute in Ha. discriminate.
  - assert (exists g, from_dimacs_file cfg64 (contents (str "a 1 2 3")) = Ok g) as (g & Hg); [|vm_compute in Hg; discriminate].
    inversion H1 as [|raw s raws ss' Hd HD]; subst. inversion HD; subst. vm_compute in Hd. injection Hd as <-.
    destruct H2 as [([|x pre] & p & post & n & m & E & K1 & K2 & _)|(K1 & ->)].
    + injection E as <- <-. destruct (ReaderFacts.problem_line_shape _ _ _ _ K2) as (q & Eq). discriminate.
    + injection E as <- E. destruct (K1 _ (or_introl eq_refl)) as [H|(q & H)]; discriminate.
    + destruct (K1 _ (or_introl eq_refl)) as [H|(q & H)]; discriminate.
Qed.
Example C90_case_small : 500000 <= umax cfg64 /\
  (forall e, In e city_arcs -> e_from e < 500 /\ e_to e < 500 /\ e_weight e <= 20) /\
  498002 * 20 <= umax cfg64 /\ lenN city_arcs <= umax cfg64 / 2 /\ known (triples city_arcs) 1 /\ known (triples city_arcs) 3.
Proof.
  split; [vm_compute; discriminate|]. split.
  { intros e H. repeat (destruct H as [<-|H]; [cbn [e_from e_to e_weight]; lia|]). destruct H. }
  split; [vm_compute; discriminate|]. split; [vm_compute; discriminate|].
  split; exists (mkEdge 2 4 6); (split; [vm_compute; tauto|right; vm_compute; discriminate]).
Qed.
