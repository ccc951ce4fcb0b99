(** * PropProgramRel: C87 and C90 in builds without overflow checks, whatever the weights *)
From Verif Require Export ProgramRelFacts PropProgram PropTextProgram.
From Coq Require Import Lia.
Open Scope N_scope.

(** C87: in a release build a batch of allowed queries always returns, whatever the weights; every node list is a path of
    given edges from a listed source to a listed target.  (The weight can be wrong, see C16.) *)
Theorem C87_batch_release_is_safe : forall c edges B queries, debug_build c = false -> usize_edges c edges ->
  (forall u v w, In (u, v, w) edges -> u < B /\ v < B) -> B * B <= umax c / 2 -> B + 1 <= umax c / 2 ->
  lenN edges <= umax c / 2 -> (forall q msg, In q queries -> ~ not_allowed edges q msg) ->
  exists rs, readme_batch c edges queries = Ok rs /\
    Forall2 (fun q r => forall p, r = Some p ->
      exists W, total (usable edges) (fst q) (snd q) (sp_get_source p) (sp_get_target p) (sp_get_nodes p) W) queries rs.
Proof. exact C87_batch_release_proof. Qed.
Print Assumptions C87_batch_release_is_safe.

(** C90: the same for files: reading, preparing and asking returns, and a node list is a path along arcs of the file. *)
Theorem C90_release_is_safe : forall c b ss arcs B s t, debug_build c = false -> file_lines b ss ->
  (forall e, In e arcs -> e_from e < B /\ e_to e < B) -> B * B <= umax c / 2 -> B + 1 <= umax c / 2 ->
  lenN arcs <= umax c / 2 -> known (triples arcs) s -> known (triples arcs) t ->
  (plain_text c ss arcs -> exists r, plain_program c (contents b) s t = Ok r /\
     forall p, r = Some p -> sp_get_source p = s /\ sp_get_target p = t /\
       exists W, walk (usable (triples arcs)) s t (sp_get_nodes p) W) /\
  (dimacs_text c ss arcs -> 1 <= s -> 1 <= t -> exists r, dimacs_program c (contents b) s t = Ok r /\
     forall p, r = Some p -> sp_get_source p + 1 = s /\ sp_get_target p + 1 = t /\
       exists W, walk (usable (triples arcs)) s t (file_numbers (sp_get_nodes p)) W).
Proof. exact C90_release_proof. Qed.
Print Assumptions C90_release_is_safe.

(** ** Cases: the edges of C87_release_case, whose weights wrap, and the file of C90_case *)
Definition heavy_queries : list (list (N * N) * list (N * N)) := [([(0, 2 ^ 63); (1, 0)], [(2, 1); (3, 5)]); ([(2, 0)], [(0, 0)])].
Example C87_batch_release_case :
  (forall q msg, In q heavy_queries -> ~ not_allowed heavy_edges q msg) /\
  (exists r1 r2, readme_batch (unchecked cfg64) heavy_edges heavy_queries = Ok [r1; r2]).
Proof.
  split.
  - assert (forall v, v <= 3 -> known heavy_edges v) as HK.
    { intros v Hv. exists (mkEdge 2 3 (2 ^ 64 - 1)). split; [vm_compute; tauto|right; exact Hv]. }
    intros q msg [<-|[<-|[]]] HN; inversion HN as [| |ss ts v w Hin Hk|ss ts v w Hin Hk]; subst.
    all: repeat (destruct Hin as [Hin|Hin]; [injection Hin as <- <-; apply Hk, HK; vm_compute; discriminate|]); destruct Hin.
  - eexists; eexists; vm_compute; reflexivity.
Qed.
Example C90_release_case :
  (forall e, In e city_arcs -> e_from e < 5 /\ e_to e < 5) /\ 5 * 5 <= umax (unchecked cfg64) / 2 /\
  dimacs_text (unchecked cfg64) city_lines city_arcs /\
  dimacs_program (unchecked cfg64) (contents city) 1 3 = Ok (Some (mkSP 0 2 13 [0; 1; 3; 2])).
Proof.
  split. { intros e H. repeat (destruct H as [<-|H]; [cbn [e_from e_to]; lia|]). destruct H. }
  split; [vm_compute; discriminate|]. split; [|vm_compute; reflexivity].
  apply TextProgramFacts.dimacs_text_same. apply C90_case_text.
Qed.
