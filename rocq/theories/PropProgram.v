(** * PropProgram: C87, the program of the README as a whole; C17, the queues of the libraries; C60, default parameters; C16, wrapped weights *)
From Verif Require Export ProgramFacts.
From Coq Require Import Permutation Lia.
Open Scope N_scope.

(** C17: the array algorithms of the libraries (std::collections::BinaryHeap and the crate priority-queue) satisfy the
    contracts under which all properties are proved. *)
Theorem C17_library_queues : heap_laws bin_heap bh_inv /\ pq_laws bin_pq bp_inv.
Proof. exact (conj bin_heap_laws bin_pq_laws). Qed.
Print Assumptions C17_library_queues.

(** They break ties in another way than queues that keep the order of insertion. *)
Example C17_library_queues_case :
  let pushed Q := pq_push Q (pq_push Q (pq_push Q [] 5 9) 6 9) 7 9 in
  let second Q := match pq_pop Q (pushed Q) with Some (_, q) => option_map fst (pq_pop Q q) | None => None end in
  second bin_pq = Some (7, 9) /\ second list_pq = Some (6, 9) /\
  option_map fst (pq_pop bin_pq (pq_change_priority bin_pq (pushed bin_pq) 7 3)) = Some (7, 3).
Proof. vm_compute. repeat split; reflexivity. Qed.

(** C87: the program of the README, with the queues of the libraries and in a build with overflow checks, ends; it
    returns a shortest path along the given edges; or None, and then there is none lighter than the greatest
    integer; or it panics because a number or a vector got too large, or because a node does not exist. *)
Theorem C87_program_is_right : forall c edges s t, debug_build c = true -> 1 <= umax c -> usize_edges c edges ->
  match readme_program c edges s t with
  | Ok (Some p) =>
      known edges s /\ known edges t /\ sp_get_source p = s /\ sp_get_target p = t /\
      walk (usable edges) s t (sp_get_nodes p) (sp_get_weight p) /\
      (forall ns W, walk (usable edges) s t ns W -> sp_get_weight p <= W)
  | Ok None => known edges s /\ known edges t /\ forall ns W, walk (usable edges) s t ns W -> umax c <= W
  | Panic r => r = POverflow \/ r = PCapacity \/
      (r = PAssert "invalid start node" /\ ~ known edges s) \/
      (r = PAssert "invalid end node" /\ known edges s /\ ~ known edges t)
  | Diverge => False
  end.
Proof. exact C87_right_proof. Qed.
Print Assumptions C87_program_is_right.

(** For nodes below 500 (the default limit of settled nodes) and weights up to a 498002nd of the greatest integer it
    returns, and a build without overflow checks returns the same. *)
Theorem C87_program_returns : forall c edges M s t,
  debug_build c = true -> 500000 <= umax c ->
  (forall u v w, In (u, v, w) edges -> u < 500 /\ v < 500 /\ w <= M) ->
  498002 * M <= umax c -> lenN edges <= umax c / 2 -> known edges s -> known edges t ->
  exists r, readme_program c edges s t = Ok r /\ readme_program (unchecked c) edges s t = Ok r.
Proof. exact C87_returns_proof. Qed.
Print Assumptions C87_program_returns.

Definition readme_edges : list (N * N * N) :=
  [(0, 6, 12); (8, 7, 4); (7, 3, 1); (3, 6, 9); (7, 6, 11); (6, 8, 2); (4, 4, 5); (2, 3, 0); (3, 2, 6); (2, 6, 2)].
Example C87_case :
  debug_build cfg64 = true /\ 500000 <= umax cfg64 /\
  (forall u v w, In (u, v, w) readme_edges -> u < 500 /\ v < 500 /\ w <= 12) /\ 498002 * 12 <= umax cfg64 /\
  lenN readme_edges <= umax cfg64 / 2 /\ known readme_edges 8 /\ known readme_edges 6 /\
  readme_program cfg64 readme_edges 8 6 = Ok (Some (mkSP 8 6 13 [8; 7; 3; 2; 6])) /\
  readme_program cfg64 readme_edges 0 5 = Ok None /\
  readme_program cfg64 readme_edges 9 5 = Panic (PAssert "invalid start node") /\
  readme_program cfg64 [(0, 1, umax cfg64); (1, 2, 1)] 0 2 = Panic POverflow.
Proof.
  split; [reflexivity|]. split; [vm_compute; discriminate|]. split.
  { intros u v w H. repeat (destruct H as [H|H]; [injection H as <- <- <-; repeat split; lia|]). destruct H. }
  split; [vm_compute; discriminate|]. split; [vm_compute; discriminate|].
  split; [exists (mkEdge 8 7 4); split; [vm_compute; auto|simpl; lia]|].
  split; [exists (mkEdge 0 6 12); split; [vm_compute; auto|simpl; lia]|].
  vm_compute. repeat split; reflexivity.
Qed.

(** The same for one calculator that answers a list of queries with weighted sources and targets: it returns all
    right answers, and then all queries are allowed; or it panics, by a size or with the message for a query of the
    list that is not allowed. *)
Theorem C87_batch_is_right : forall c edges queries, debug_build c = true -> 1 <= umax c -> usize_edges c edges ->
  match readme_batch c edges queries with
  | Ok rs => Forall2 (right_answer c edges) queries rs /\ (forall q msg, In q queries -> ~ not_allowed edges q msg)
  | Panic r => r = POverflow \/ r = PCapacity \/ exists q msg, In q queries /\ not_allowed edges q msg /\ r = PAssert msg
  | Diverge => False
  end.
Proof. exact C87_batch_proof. Qed.
Print Assumptions C87_batch_is_right.
Example C87_batch_case : usize_edges cfg64 readme_edges /\
  readme_batch cfg64 readme_edges
    [([(8, 0)], [(6, 0)]); ([(3, 7); (0, 4)], [(2, 5); (8, 1)]); ([(6, 0)], [(5, 0)]); ([(8, 0)], [(6, 0)])] =
    Ok [Some (mkSP 8 6 13 [8; 7; 3; 2; 6]); Some (mkSP 3 8 18 [3; 2; 6; 8]); None; Some (mkSP 8 6 13 [8; 7; 3; 2; 6])] /\
  readme_batch cfg64 readme_edges [([(8, 0)], [(6, 0)]); ([(8, 0)], [(6, 0); (9, 0)])] =
    Panic (PAssert "invalid end node").
Proof.
  split; [|vm_compute; split; reflexivity].
  intros u v w H. repeat (destruct H as [H|H]; [injection H as <- <- <-; repeat split; vm_compute; discriminate|]). destruct H.
Qed.

(** The same when the order found for one graph is used for another one (README: "Preparing the graph after
    changes"): the answer is right for the new edges, and an error is returned if the two graphs do not have the same
    nodes. *)
Theorem C87_update_is_right : forall c edges edges' s t, debug_build c = true -> 1 <= umax c ->
  usize_edges c edges -> usize_edges c edges' ->
  match readme_update c edges edges' s t with
  | Ok (inl r) => (forall v, known edges v <-> known edges' v) /\ known edges' s /\ known edges' t /\
                  right_answer c edges' ([(s, 0)], [(t, 0)]) r
  | Ok (inr _) => ~ (forall v, known edges v <-> known edges' v)
  | Panic r => r = POverflow \/ r = PCapacity \/
      (r = PAssert "invalid start node" /\ ~ known edges' s) \/
      (r = PAssert "invalid end node" /\ known edges' s /\ ~ known edges' t)
  | Diverge => False
  end.
Proof. exact C87_update_proof. Qed.
Print Assumptions C87_update_is_right.
Definition changed_edges : list (N * N * N) :=
  [(0, 6, 12); (8, 7, 4); (7, 3, 20); (3, 6, 9); (7, 6, 11); (6, 8, 2); (6, 1, 3)].
Example C87_update_case : usize_edges cfg64 readme_edges /\ usize_edges cfg64 changed_edges /\
  readme_update cfg64 readme_edges changed_edges 8 6 = Ok (inl (Some (mkSP 8 6 15 [8; 7; 6]))) /\
  (exists msg, readme_update cfg64 readme_edges [(0, 6, 12)] 0 6 = Ok (inr msg)).
Proof.
  split; [exact (proj1 C87_batch_case)|]. split.
  { intros u v w H. repeat (destruct H as [H|H]; [injection H as <- <- <-; repeat split; vm_compute; discriminate|]). destruct H. }
  split; [vm_compute; reflexivity|]. eexists. vm_compute. reflexivity.
Qed.

(** On small inputs the batch returns if all its queries are allowed, and a build without overflow checks returns the
    same. *)
Theorem C87_batch_returns : forall c edges queries M K, debug_build c = true -> 500000 <= umax c ->
  (forall u v w, In (u, v, w) edges -> u < 500 /\ v < 500 /\ w <= M) ->
  (forall ss ts v w, In (ss, ts) queries -> In (v, w) ss \/ In (v, w) ts -> w <= K) ->
  498002 * M + 2 * K <= umax c -> lenN edges <= umax c / 2 ->
  (forall q msg, In q queries -> ~ not_allowed edges q msg) ->
  exists rs, readme_batch c edges queries = Ok rs /\ readme_batch (unchecked c) edges queries = Ok rs.
Proof. exact C87_batch_returns_proof. Qed.
Print Assumptions C87_batch_returns.
Definition batch_queries : list (list (N * N) * list (N * N)) := [([(3, 7); (0, 4)], [(2, 5); (8, 1)]); ([(6, 0)], [(5, 0)])].
Example C87_batch_returns_case :
  (forall ss ts v w, In (ss, ts) batch_queries -> In (v, w) ss \/ In (v, w) ts -> w <= 10) /\
  498002 * 12 + 2 * 10 <= umax cfg64 /\ (forall q msg, In q batch_queries -> ~ not_allowed readme_edges q msg).
Proof.
  split.
  { intros ss ts v w Hq Hv.
    repeat (destruct Hq as [Hq|Hq]; [injection Hq as <- <-; simpl in Hv;
      repeat (destruct Hv as [Hv|Hv]); try tauto; injection Hv as <- <-; vm_compute; discriminate|]). destruct Hq. }
  split; [vm_compute; discriminate|].
  assert (HK : forall v, v <= 8 -> known readme_edges v).
  { intros v Hv. exists (mkEdge 8 7 4). split; [vm_compute; auto|left; exact Hv]. }
  intros q msg Hq HN.
  repeat (destruct Hq as [<-|Hq]; [inversion HN; subst; match goal with
    | X : ~ known _ _, I : In _ _ |- _ => apply X, HK; simpl in I;
        repeat (destruct I as [I|I]); try tauto; injection I as <- <-; lia end|]). destruct Hq.
Qed.

(** So does the update, for nodes below 100: this is the default limit for preparations with a given order. *)
Theorem C87_update_returns : forall c edges edges' M s t, debug_build c = true -> 500000 <= umax c ->
  (forall u v w, In (u, v, w) edges \/ In (u, v, w) edges' -> u < 100 /\ v < 100 /\ w <= M) ->
  19602 * M <= umax c -> lenN edges <= umax c / 2 -> lenN edges' <= umax c / 2 ->
  (forall v, known edges v <-> known edges' v) -> known edges' s -> known edges' t ->
  exists r, readme_update c edges edges' s t = Ok (inl r) /\ readme_update (unchecked c) edges edges' s t = Ok (inl r).
Proof. exact C87_update_returns_proof. Qed.
Print Assumptions C87_update_returns.
Example C87_update_returns_case :
  (forall u v w, In (u, v, w) readme_edges \/ In (u, v, w) changed_edges -> u < 100 /\ v < 100 /\ w <= 20) /\
  19602 * 20 <= umax cfg64 /\ (forall v, known readme_edges v <-> known changed_edges v) /\ known changed_edges 8.
Proof.
  split.
  { intros u v w [H|H]; repeat (destruct H as [H|H]; [injection H as <- <- <-; repeat split; lia|]); destruct H. }
  split; [vm_compute; discriminate|].
  assert (forall l, In (mkEdge 8 7 4) (usable l) -> (forall e, In e (usable l) -> e_from e <= 8 /\ e_to e <= 8) ->
    forall v, known l v <-> v <= 8) as HK.
  { intros l H1 H2 v. split; [intros (e & He & Hv); apply H2 in He; lia|intros Hv; exists (mkEdge 8 7 4); auto]. }
  assert (forall v, known readme_edges v <-> v <= 8) as K1.
  { apply HK; [vm_compute; auto|]. intros e He. vm_compute in He.
    repeat (destruct He as [<-|He]; [split; vm_compute; discriminate|]). destruct He. }
  assert (forall v, known changed_edges v <-> v <= 8) as K2.
  { apply HK; [vm_compute; auto|]. intros e He. vm_compute in He.
    repeat (destruct He as [<-|He]; [split; vm_compute; discriminate|]). destruct He. }
  split; [intros v; rewrite K1, K2; tauto|]. apply K2. lia.
Qed.

(** A build without overflow checks returns for all weights (if a vector can hold the square of the number of nodes),
    and the nodes it returns are a path along the given edges; the weight it reports can be wrong. *)
Theorem C87_release_is_safe : forall c edges B s t, debug_build c = false -> usize_edges c edges ->
  (forall u v w, In (u, v, w) edges -> u < B /\ v < B) -> B * B <= umax c / 2 -> B + 1 <= umax c / 2 ->
  lenN edges <= umax c / 2 -> known edges s -> known edges t ->
  exists r, readme_program c edges s t = Ok r /\
    forall p, r = Some p -> sp_get_source p = s /\ sp_get_target p = t /\ exists W, walk (usable edges) s t (sp_get_nodes p) W.
Proof. exact C87_release_proof. Qed.
Print Assumptions C87_release_is_safe.
Definition heavy_edges : list (N * N * N) := [(0, 1, 2 ^ 63); (1, 2, 2 ^ 63); (2, 3, 2 ^ 64 - 1)].
Example C87_release_case : usize_edges (unchecked cfg64) heavy_edges /\
  (forall u v w, In (u, v, w) heavy_edges -> u < 4 /\ v < 4) /\ 4 * 4 <= umax cfg64 / 2 /\ known heavy_edges 3 /\
  readme_program (unchecked cfg64) heavy_edges 0 2 = Ok (Some (mkSP 0 2 0 [0; 1; 2])).
Proof.
  split; [|split; [|split; [vm_compute; discriminate|split; [|vm_compute; reflexivity]]]].
  - intros u v w H. repeat (destruct H as [H|H]; [injection H as <- <- <-; repeat split; vm_compute; discriminate|]). destruct H.
  - intros u v w H. repeat (destruct H as [H|H]; [injection H as <- <- <-; repeat split; vm_compute; reflexivity|]). destruct H.
  - exists (mkEdge 2 3 (2 ^ 64 - 1)). split; [vm_compute; auto|simpl; lia].
Qed.

(** C60: preparation with default parameters never fails on a graph with up to 500 nodes (the default limit) and
    weights up to a 1996th of the largest integer. *)
Theorem C60_default_for_five_hundred_nodes : forall c ops ig M H hinv Q qinv,
  debug_build c = true -> frozen_graph c ops ig -> heap_laws H hinv -> pq_laws Q qinv ->
  ig_num_nodes ig <= 500 -> (forall e, In e (accepted ops) -> e_weight e <= M) ->
  1996 * M <= umax c -> 500000 <= umax c ->
  exists fg, prepare c H Q ig = Ok fg.
Proof. exact C60_default500_proof. Qed.
Print Assumptions C60_default_for_five_hundred_nodes.
Example C60_default500_case : debug_build cfg64 = true /\ frozen_graph cfg64 ex_ops ex_ig /\
  heap_laws bin_heap bh_inv /\ pq_laws bin_pq bp_inv /\ ig_num_nodes ex_ig <= 500 /\
  (forall e, In e (accepted ex_ops) -> e_weight e <= 100) /\ 1996 * 100 <= umax cfg64 /\ 500000 <= umax cfg64.
Proof.
  split; [reflexivity|]. split; [exact ex_frozen|]. split; [exact bin_heap_laws|]. split; [exact bin_pq_laws|].
  split; [vm_compute; discriminate|]. split; [|split; vm_compute; discriminate].
  apply Forall_forall. vm_compute. repeat constructor; discriminate.
Qed.

(** C16: when sums wrap around in a build without overflow checks, the reported weight need not even be the weight of the
    returned path modulo 2^64: a node of the path is relaxed again after its successor was reached over it. *)
Definition stale_ops : list ig_op :=
  [OpAddEdge 0 2 5; OpAddEdge 0 1 7; OpAddEdge 1 2 (2 ^ 64 - 6); OpAddEdge 2 3 (2 ^ 64 - 3); OpAddEdge 3 4 100; OpFreeze].
Definition stale_ig : InputGraph := Eval vm_compute in get_ok (ig_run (unchecked cfg64) ig_new stale_ops) ig_new.
Definition stale_fg : FastGraph := Eval vm_compute in
  match prepare_with_order (unchecked cfg64) bin_heap stale_ig [0; 1; 2; 3; 4] with
  | Ok (inl fg) => fg | _ => mkFG 0 [] [] [] [] [] end.
Theorem C16_not_even_modulo_refuted : exists ops ig order fg p W,
  frozen_graph (unchecked cfg64) ops ig /\ permutation_of_nodes (ig_num_nodes ig) order /\
  prepare_with_order (unchecked cfg64) bin_heap ig order = Ok (inl fg) /\
  calc_path (unchecked cfg64) bin_heap fg 0 4 = Ok (Some p) /\
  walk (accepted ops) 0 4 (sp_get_nodes p) W /\
  (forall W', walk (accepted ops) 0 4 (sp_get_nodes p) W' -> W' = W) /\
  W mod 2 ^ 64 = 98 /\ sp_get_weight p = 102.
Proof.
  exists stale_ops, stale_ig, [0; 1; 2; 3; 4], stale_fg, (mkSP 0 4 102 [0; 1; 2; 3; 4]), (7 + (2 ^ 64 - 6 + (2 ^ 64 - 3 + (100 + 0)))).
  change (accepted stale_ops) with [mkEdge 0 2 5; mkEdge 0 1 7; mkEdge 1 2 (2 ^ 64 - 6); mkEdge 2 3 (2 ^ 64 - 3); mkEdge 3 4 100].
  split; [|split; [|split; [|split; [|split; [|split; [|split]]]]]].
  - split; [|split; vm_compute; reflexivity].
    intros o Ho. repeat (destruct Ho as [<-|Ho]; [vm_compute; repeat split; discriminate|]). destruct Ho.
  - split; [repeat constructor; simpl; intuition discriminate|]. intros x. simpl. split.
    + intros H. repeat (destruct H as [<-|H]; [reflexivity|]). destruct H.
    + intros H. assert (x = 0 \/ x = 1 \/ x = 2 \/ x = 3 \/ x = 4) by lia. intuition subst; auto.
  - vm_compute. reflexivity.
  - vm_compute. reflexivity.
  - eapply walk_cons; [right; left; reflexivity|]. eapply walk_cons; [do 2 right; left; reflexivity|].
    eapply walk_cons; [do 3 right; left; reflexivity|]. eapply walk_cons; [do 4 right; left; reflexivity|]. constructor.
  - intros W' HW. cbn [sp_get_nodes sp_nodes] in HW.
    repeat match goal with
    | H : walk _ _ _ (_ :: _) _ |- _ => inversion H; subst; clear H
    | H : walk _ _ _ [] _ |- _ => inversion H
    | H : In (mkEdge _ _ _) _ |- _ => simpl in H; repeat (destruct H as [H|H]; [try discriminate H; injection H as <-|]); try destruct H
    end; try lia.
  - vm_compute. reflexivity.
  - reflexivity.
Qed.
Print Assumptions C16_not_even_modulo_refuted.
