(** * PropTerm: queries end (C68) *)
From Verif Require Import SpecTerm TermProps Shape.
From Verif Require Import Examples.
Open Scope N_scope.

(** C68: on every FastGraph without a shortcut that is a part of itself, also on malformed ones, every query ends, with
    an answer or with a panic.  Without overflow checks this needs edges that go upwards in some numbering of the nodes. *)
Theorem C68_queries_end : forall c n pc fg H hinv, heap_laws H hinv -> calculator c n pc ->
  debug_build c = true \/ upward fg -> ~ nesting_cycle c fg ->
  (forall s t, calc_path c H fg s t <> Diverge) /\
  (forall ss ts, calc_path_multiple c H fg ss ts <> Diverge) /\
  (forall s t, pc_calc_path c H pc fg s t <> Diverge) /\
  (forall ss ts, pc_calc_path_multiple c H pc fg ss ts <> Diverge).
Proof. exact C68_all_proof. Qed.
Print Assumptions C68_queries_end.

(** C68: prepared graphs have both properties, so queries on them end in both build modes. *)
Theorem C68_prepared_graphs_qualify : forall c c' ops ig fg, 1 <= umax c -> frozen_graph c ops ig -> prepared c ig fg ->
  umax c' = umax c -> upward fg /\ ~ nesting_cycle c' fg.
Proof. exact C68_prepared_proof. Qed.
Print Assumptions C68_prepared_graphs_qualify.

Example C68_case : frozen_graph cfg64 ex_ops ex_ig /\ prepared cfg64 ex_ig ex_fg /\ umax (unchecked cfg64) = umax cfg64 /\
  upward ex_fg /\ ~ nesting_cycle cfg64 ex_fg /\ calculator cfg64 6 ex_pc2.
Proof.
  split; [exact ex_frozen|]. split; [exact ex_prepared|]. split; [reflexivity|].
  destruct (C68_prepared_graphs_qualify cfg64 cfg64 ex_ops ex_ig ex_fg ltac:(discriminate) ex_frozen ex_prepared eq_refl) as [A B].
  split; [exact A|]. split; [exact B|]. exact ex_calculator.
Qed.

(** A graph as it may come out of a damaged file: the edge from 0 to 1 is a shortcut that consists of itself. *)
Definition ex_selfnested : FastGraph :=
  mkFG 2 [0; 1] [mkFGE 0 1 7 0 0] [0; 1; 1] [mkFGE 1 0 7 0 0] [0; 0; 0].

(** C68: the condition is needed: the query that uses this shortcut never ends, however many levels of recursion are granted. *)
Theorem C68_self_nested_shortcut_never_ends : forall k nodes d,
  nesting_cycle cfg64 ex_selfnested /\ upward ex_selfnested /\
  calc_path cfg64 list_heap ex_selfnested 0 1 = Diverge /\
  unpack k cfg64 ex_selfnested d nodes 0 true = Diverge.
Proof.
  intros k nodes d.
  split.
  { exists (Fwd, 0). apply t1n_step. eexists. split; [reflexivity|]. split; [discriminate|]. split; [discriminate|]. right. reflexivity. }
  split.
  { exists (fun v => v). intros d0 u b e id ed HB HE Hid Hg. destruct d0.
    - destruct u as [|[p|p|]]; [| | |]; cbn in HB; try discriminate HB; cbn in HE; try discriminate HE;
        injection HB as <-; injection HE as <-; try lia.
      assert (id = 0) as -> by lia. injection Hg as <-. simpl. lia.
    - destruct u as [|[p|p|]]; cbn in HB; try discriminate HB; cbn in HE; try discriminate HE;
        injection HB as <-; injection HE as <-; lia. }
  split; [vm_compute; reflexivity|].
  revert nodes d. induction k as [|k IH]; intros nodes d; [reflexivity|].
  destruct d; simpl; change (idx _ 0) with (Ok (A := FastGraphEdge) (mkFGE 0 1 7 0 0)) || change (idx _ 0) with (Ok (A := FastGraphEdge) (mkFGE 1 0 7 0 0));
    cbn; rewrite IH; reflexivity.
Qed.
Print Assumptions C68_self_nested_shortcut_never_ends.

(** A graph whose edges run in a circle, with weights whose sum wraps to zero. *)
Definition ex_circle : FastGraph :=
  mkFG 3 [0; 1; 2] [mkFGE 0 1 (2 ^ 63) (2 ^ 64 - 1) (2 ^ 64 - 1); mkFGE 1 2 (2 ^ 62) (2 ^ 64 - 1) (2 ^ 64 - 1); mkFGE 2 1 (2 ^ 62) (2 ^ 64 - 1) (2 ^ 64 - 1)]
    [0; 1; 2; 3] [] [0; 0; 0; 0].

(** the state in which the query of a release build starts to collect the nodes *)
Definition ex_circle_pc : PathCalculator :=
  Eval vm_compute in fst (st_calc_path_multiple (unchecked cfg64) list_heap ex_circle [(0, 0)] [(2, 0)] (create_calculator cfg64 ex_circle)).

(** C68: in a release build the query follows the parents 2, 1, 2, 1, ... for ever, however many steps are granted; in a
    debug build it panics. *)
Theorem C68_circle_never_ends_unchecked : forall k result,
  ~ nesting_cycle cfg64 ex_circle /\ ~ upward ex_circle /\
  calc_path cfg64 list_heap ex_circle 0 2 = Panic POverflow /\
  st_calc_path_multiple (unchecked cfg64) list_heap ex_circle [(0, 0)] [(2, 0)] (create_calculator cfg64 ex_circle) = (ex_circle_pc, Diverge) /\
  unpack_tree k (unchecked cfg64) ex_circle Fwd (pc_fwd ex_circle_pc) result 2 = Diverge /\
  unpack_tree k (unchecked cfg64) ex_circle Fwd (pc_fwd ex_circle_pc) result 1 = Diverge.
Proof.
  intros k result.
  split.
  { intros (x & HC). destruct HC as [y (e & Hg & Hi & Ho & _)|y z (e & Hg & Hi & Ho & _) _].
    all: apply getN_In in Hg; destruct x as [[|] i]; simpl in Hg; repeat (destruct Hg as [<-|Hg]; [apply Hi; reflexivity|]); destruct Hg. }
  split.
  { intros (f & HF).
    pose proof (HF Fwd 1 1 2 1 _ eq_refl eq_refl ltac:(lia) eq_refl) as A.
    pose proof (HF Fwd 2 2 3 2 _ eq_refl eq_refl ltac:(lia) eq_refl) as B. simpl in A, B. lia. }
  split; [vm_compute; reflexivity|]. split; [vm_compute; reflexivity|].
  revert result. induction k as [|k IH]; intros result; [split; reflexivity|].
  split; cbn [unpack_tree]; cbn; apply IH.
Qed.
Print Assumptions C68_circle_never_ends_unchecked.
