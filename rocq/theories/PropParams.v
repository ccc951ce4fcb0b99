(** * PropParams: C83, what the parameters of the preparation mean *)
From Verif Require Export SpecOverlay Lib Examples BinHeapFacts.
From Coq Require Import ZArith Lia.
Open Scope N_scope.

(** The f32 with mantissa [m] and exponent [e] is [m * 2^e]; [m] has at most 24 bits and [e] is between -149 and 104.
    [nearest m e a b]: no other positive f32 is nearer to the fraction [a / b] (all multiplied by [b * 2^149]). *)
Definition nearest (m e a b : Z) : Prop := forall m' e', (0 < m' < 2 ^ 24)%Z -> (-149 <= e' <= 104)%Z ->
  (Z.abs (b * (m * 2 ^ (e + 149)) - a * 2 ^ 149) <= Z.abs (b * (m' * 2 ^ (e' + 149)) - a * 2 ^ 149))%Z.

Lemma one_tenth_nearest : nearest 13421773 (-27) 1 10.
Proof.
  intros m e Hm He. change (10 * (13421773 * 2 ^ (-27 + 149)) - 1 * 2 ^ 149)%Z with (2 * 2 ^ 122)%Z.
  rewrite Z.abs_eq by (apply Z.mul_nonneg_nonneg; [lia|apply Z.pow_nonneg; lia]).
  assert (0 < 2 ^ 122)%Z as P by (apply Z.pow_pos_nonneg; lia).
  destruct (Z_lt_ge_dec e (-27)) as [L|G].
  - assert (2 ^ (e + 149) <= 2 ^ 121)%Z as U by (apply Z.pow_le_mono_r; lia).
    assert (0 < 2 ^ (e + 149))%Z as U0 by (apply Z.pow_pos_nonneg; lia).
    assert (m * 2 ^ (e + 149) <= 2 ^ 24 * 2 ^ 121)%Z as B by (apply Z.mul_le_mono_nonneg; lia).
    change (2 ^ 24 * 2 ^ 121)%Z with (8388608 * 2 ^ 122)%Z in B. change (1 * 2 ^ 149)%Z with (134217728 * 2 ^ 122)%Z.
    rewrite Z.abs_neq by lia. lia.
  - replace (e + 149)%Z with ((e + 27) + 122)%Z by lia. rewrite Z.pow_add_r by lia.
    change (1 * 2 ^ 149)%Z with (134217728 * 2 ^ 122)%Z.
    replace (10 * (m * (2 ^ (e + 27) * 2 ^ 122)) - 134217728 * 2 ^ 122)%Z with ((10 * (m * 2 ^ (e + 27)) - 134217728) * 2 ^ 122)%Z by ring.
    rewrite Z.abs_mul, (Z.abs_eq (2 ^ 122)) by lia. apply Z.mul_le_mono_nonneg_r; [lia|].
    set (k := (m * 2 ^ (e + 27))%Z). lia.
Qed.

(** C83: [prepare] is [prepare_with_params] with depth factor 0.1 (the nearest f32), quotient factor 1 and at most 500
    settled nodes per search for the first priorities, 100 for later priorities and 500 for contractions; [Params::new]
    leaves all but the quotient factor to the caller; [prepare_with_order] is [prepare_with_order_with_params] with at
    most 100 settled nodes per search. *)
Theorem C83_defaults : forall c H Q ig order,
  (exists m e, nearest (Zpos m) e 1 10 /\
     prepare c H Q ig = prepare_with_params c H Q ig (mkParams (S754_finite false m e) (S754_finite false 8388608 (-23)) 500 100 500)) /\
  (forall ratio initial neighbor contraction,
     params_new ratio initial neighbor contraction = mkParams ratio (S754_finite false 8388608 (-23)) initial neighbor contraction) /\
  prepare_with_order c H ig order = prepare_with_order_with_params c H ig order (mkParamsWithOrder 100).
Proof.
  intros. split; [|split; reflexivity]. exists 13421773%positive, (-27)%Z. split; [exact one_tenth_nearest|reflexivity].
Qed.
Print Assumptions C83_defaults.

(** 8388608 * 2^-23 is 1 *)
Example C83_one : (8388608 = 2 ^ 23)%Z.
Proof. reflexivity. Qed.

(** Three nodes in a row. *)
Definition row_ops : list ig_op := [OpAddEdgeBidir 0 1 1; OpAddEdgeBidir 1 2 1; OpFreeze].
Definition row_ig : InputGraph := Eval vm_compute in get_ok (ig_run cfg64 ig_new row_ops) ig_new.

(** C83: "only its relative size compared to hierarchy_depth_factor plays a role" (of the quotient factor) is not so: doubling both factors
    can change the order in which the nodes are contracted, and with it the number of stored edges. *)
Theorem C83_relative_size_is_not_all : exists ops ig h q n fg1 fg2 order1 order2,
  frozen_graph cfg64 ops ig /\ ig_num_nodes ig <= n /\
  prepare_with_params cfg64 list_heap list_pq ig (mkParams h q n n n) = Ok fg1 /\
  prepare_with_params cfg64 list_heap list_pq ig (mkParams (f32_mul (f32_of_Z 2) h) (f32_mul (f32_of_Z 2) q) n n n) = Ok fg2 /\
  get_node_ordering fg1 = Ok order1 /\ get_node_ordering fg2 = Ok order2 /\ order1 <> order2 /\
  lenN (fg_edges_fwd fg2) < lenN (fg_edges_fwd fg1).
Proof.
  exists row_ops, row_ig, (S754_finite false 8388608 (-26)), (S754_finite false 8388608 (-25)), 3. do 4 eexists.
  split.
  { split; [|split; [vm_compute; reflexivity|reflexivity]]. intros o Ho. cbn in Ho.
    destruct Ho as [<-|[<-|[<-|[]]]]; cbn; repeat split; try exact Logic.I; discriminate. }
  split; [discriminate|]. split; [vm_compute; reflexivity|]. split; [vm_compute; reflexivity|].
  split; [vm_compute; reflexivity|]. split; [vm_compute; reflexivity|]. split; [discriminate|vm_compute; reflexivity].
Qed.
Print Assumptions C83_relative_size_is_not_all.
