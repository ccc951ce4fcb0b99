(** * PropStar: C81, the edges that every preparation stores, and how much the order matters *)
From Verif Require Export StarProps Examples.
From Coq Require Import Lia.
Open Scope N_scope.

(** C81: if all nodes on lightest walks from [u] to [v] come before both in the node ordering, the edge from [u] to [v] is
    stored, with the distance as its weight, whatever the parameters. *)
Theorem C81_unavoidable_edges : forall c ops ig fg order u v w, debug_build c = true -> frozen_graph c ops ig ->
  prepared c ig fg -> get_node_ordering fg = Ok order -> u <> v -> is_dist (accepted ops) u v w -> w < umax c ->
  only_earlier_between (accepted ops) order u v -> stored_edge fg u v w.
Proof. exact C81_must_proof. Qed.
Print Assumptions C81_unavoidable_edges.

(** C81: if there is only one lightest walk from [u] to [v], an edge of its weight is stored exactly if all its inner nodes
    come before both ends. *)
Theorem C81_unique_walks_decide : forall c ops ig fg order u v ns w, debug_build c = true -> frozen_graph c ops ig ->
  prepared c ig fg -> get_node_ordering fg = Ok order -> u <> v -> w < umax c ->
  walk (accepted ops) u v ns w ->
  (forall ns' W', walk (accepted ops) u v ns' W' -> w < W' \/ (W' = w /\ ns' = ns)) ->
  (stored_edge fg u v w <-> forall y, In y ns -> y <> u -> y <> v -> earlier order y u /\ earlier order y v).
Proof. exact C81_unique_proof. Qed.
Print Assumptions C81_unique_walks_decide.

(** C81: on a star, whatever the limit on settled nodes, contracting the hub first stores as many edges as a graph with that
    many nodes can have (C55), and contracting it last stores one edge per node and direction. *)
Theorem C81_hub_first_is_largest : forall c n k ig fg, debug_build c = true -> 2 <= n -> frozen_graph c (star_calls n) ig ->
  ig_num_nodes ig = n -> prepared_by_order c ig (hub_first n) (mkParamsWithOrder k) fg ->
  2 * fg_get_num_out_edges fg = n * (n - 1) /\ 2 * fg_get_num_in_edges fg = n * (n - 1).
Proof. exact C81_first_proof. Qed.
Print Assumptions C81_hub_first_is_largest.

Theorem C81_hub_last_is_linear : forall c n k ig fg, debug_build c = true -> 2 <= n -> frozen_graph c (star_calls n) ig ->
  ig_num_nodes ig = n -> prepared_by_order c ig (hub_last n) (mkParamsWithOrder k) fg ->
  fg_get_num_out_edges fg = n - 1 /\ fg_get_num_in_edges fg = n - 1.
Proof. exact C81_last_proof. Qed.
Print Assumptions C81_hub_last_is_linear.

(** C81: both preparations succeed, so for every number of nodes there are a graph and two orders whose prepared graphs
    differ in size by the factor n/2. *)
Theorem C81_order_decides_size : forall c H hinv n k, debug_build c = true -> heap_laws H hinv -> 2 <= n -> n <= k ->
  n * n <= umax c / 2 -> 4 * n <= umax c ->
  exists ig fg1 fg2, frozen_graph c (star_calls n) ig /\ ig_num_nodes ig = n /\
    permutation_of_nodes n (hub_first n) /\ permutation_of_nodes n (hub_last n) /\
    prepare_with_order_with_params c H ig (hub_first n) (mkParamsWithOrder k) = Ok (inl fg1) /\
    prepare_with_order_with_params c H ig (hub_last n) (mkParamsWithOrder k) = Ok (inl fg2) /\
    2 * fg_get_num_out_edges fg1 = n * (n - 1) /\ 2 * fg_get_num_in_edges fg1 = n * (n - 1) /\
    fg_get_num_out_edges fg2 = n - 1 /\ fg_get_num_in_edges fg2 = n - 1.
Proof. exact C81_star_proof. Qed.
Print Assumptions C81_order_decides_size.

(** a thousand leaves: about 500000 edges per direction with one order, 1000 with the other *)
Example C81_star_case : exists ig fg1 fg2, frozen_graph cfg64 (star_calls 1001) ig /\
  prepared_by_order cfg64 ig (hub_first 1001) (mkParamsWithOrder 1001) fg1 /\
  prepared_by_order cfg64 ig (hub_last 1001) (mkParamsWithOrder 1001) fg2 /\
  fg_get_num_out_edges fg1 = 500500 /\ fg_get_num_out_edges fg2 = 1000.
Proof.
  destruct (C81_order_decides_size cfg64 list_heap (fun _ => True) 1001 1001 eq_refl list_heap_laws)
    as (ig & fg1 & fg2 & H1 & _ & _ & _ & E1 & E2 & S1 & _ & S2 & _).
  - vm_compute. discriminate.
  - reflexivity || (vm_compute; discriminate).
  - vm_compute. discriminate.
  - vm_compute. discriminate.
  - exists ig, fg1, fg2. split; [exact H1|].
    split; [exists list_heap, (fun _ => True); split; [exact list_heap_laws|exact E1]|].
    split; [exists list_heap, (fun _ => True); split; [exact list_heap_laws|exact E2]|].
    split; [lia|]. rewrite S2. reflexivity.
Qed.

(** the only lightest walk from 2 to 4 in the example leads over 3, which is contracted before both *)
Local Ltac pick E := cbn in E; repeat (destruct E as [E|E]; [try discriminate; inversion E; clear E; subst|]); try (destruct E; fail).
Lemma ex_unique : forall ns W, walk (accepted ex_ops) 2 4 ns W -> 6 < W \/ (W = 6 /\ ns = [2; 3; 4]).
Proof.
  assert (exists es, es = accepted ex_ops) as (es & Hes) by eauto. rewrite <- Hes. vm_compute in Hes. subst es.
  intros ns W HW.
  inversion HW as [|u1 y1 t1 w1 ns1 W1 E1 H1]; clear HW; subst. pick E1.
  inversion H1 as [|u2 y2 t2 w2 ns2 W2 E2 H2]; clear H1; subst. pick E2.
  - inversion H2 as [|u3 y3 t3 w3 ns3 W3 E3 H3]; clear H2; subst. pick E3. left. lia.
  - inversion H2 as [|u3 y3 t3 w3 ns3 W3 E3 H3]; clear H2; subst; [right; auto|]. pick E3. left. lia.
Qed.
Example C81_unique_case : stored_edge ex_fg 2 4 6 /\ only_earlier_between (accepted ex_ops) [0; 5; 3; 1; 4; 2] 2 4.
Proof.
  assert (walk (accepted ex_ops) 2 4 [2; 3; 4] 6) as HW.
  { change 6 with (4 + (2 + 0)). apply walk_cons with (v := 3); [vm_compute; tauto|].
    apply walk_cons with (v := 4); [vm_compute; tauto|constructor]. }
  assert (get_node_ordering ex_fg = Ok [0; 5; 3; 1; 4; 2]) as HO by (vm_compute; reflexivity).
  split.
  - apply (C81_unique_walks_decide cfg64 ex_ops ex_ig ex_fg [0; 5; 3; 1; 4; 2] 2 4 [2; 3; 4] 6 eq_refl ex_frozen ex_prepared HO);
      [discriminate|reflexivity|exact HW|exact ex_unique|].
    intros y [<-|[<-|[<-|[]]]] H1 H2; [congruence| |congruence].
    split; [exists 2, 5|exists 2, 4]; repeat split.
  - intros y H1 H2 Hon. destruct (Hon _ _ HW) as (n1 & A & n2 & B & W1 & W2 & Hle).
    destruct (walk_middle _ _ _ _ _ _ _ _ W1 W2) as (n3 & W3 & Hin). destruct (ex_unique _ _ W3) as [G|[_ ->]]; [lia|].
    destruct Hin as [<-|[<-|[<-|[]]]]; [congruence| |congruence]. split; [exists 2, 5|exists 2, 4]; repeat split.
Qed.
