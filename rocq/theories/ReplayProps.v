(** * ReplayProps: preparing again with the ordering of a prepared graph *)
From Verif Require Import ReplayFacts OrderProps ShortcutProps.
Open Scope N_scope.

Lemma C61_again_proof : forall c H Q qinv ig params fg order, pq_laws Q qinv ->
  prepare_with_params c H Q ig params = Ok fg -> get_node_ordering fg = Ok order ->
  permutation_of_nodes (ig_num_nodes ig) order /\
  prepare_with_order_with_params c H ig order
    (mkParamsWithOrder (p_max_settled_nodes_contraction params)) = Ok (inl fg).
Proof.
  intros c H Q qinv ig params fg order QL E O.
  destruct (C61_proof c H Q qinv ig params fg QL E) as (o & P & O' & E'). rewrite O in O'. injection O' as <-. auto.
Qed.

Lemma C61_new_proof : forall c H Q qinv ig ratio initial neighbor contraction fg order, pq_laws Q qinv ->
  prepare_with_params c H Q ig (params_new ratio initial neighbor contraction) = Ok fg ->
  get_node_ordering fg = Ok order ->
  prepare_with_order_with_params c H ig order (mkParamsWithOrder contraction) = Ok (inl fg).
Proof.
  intros c H Q J ig r i k m fg order QL E O. destruct (C61_again_proof c H Q J ig _ fg order QL E O) as (_ & X). exact X.
Qed.

Lemma C61_exists_proof : forall c H Q qinv ig params fg, pq_laws Q qinv ->
  prepare_with_params c H Q ig params = Ok fg -> exists order, get_node_ordering fg = Ok order.
Proof.
  intros c H Q J ig params fg QL E. destruct (C61_proof c H Q J ig params fg QL E) as (o & _ & O & _).
  exists o. exact O.
Qed.

Lemma C61_other_proof : forall c ops ig H hinv Q qinv params fg order H' hinv' params',
  debug_build c = true -> frozen_graph c ops ig -> heap_laws H hinv -> pq_laws Q qinv ->
  prepare_with_params c H Q ig params = Ok fg -> get_node_ordering fg = Ok order ->
  heap_laws H' hinv' ->
  ig_num_nodes ig <= p_max_settled_nodes_contraction params ->
  ig_num_nodes ig <= po_max_settled_nodes_contraction_with_order params' ->
  prepare_with_order_with_params c H' ig order params' = Ok (inl fg) \/
  prepare_with_order_with_params c H' ig order params' = Panic POverflow \/
  prepare_with_order_with_params c H' ig order params' = Panic PCapacity.
Proof.
  intros c ops ig H I Q J params fg order H' I' params' Hd Hf HL QL E O HL' Hm Hm'.
  destruct (C61_again_proof c H Q J ig params fg order QL E O) as (P & E1).
  destruct (C07_accepts_proof c ops ig H' I' order params' Hd Hf HL' P) as [(fg' & E2)|[E2|E2]]; [|right; left; exact E2|right; right; exact E2].
  left. rewrite E2. f_equal. f_equal. symmetry.
  refine (C57_order_proof c ops ig order (mkParamsWithOrder (p_max_settled_nodes_contraction params)) params'
      fg fg' Hd Hf Hm Hm' _ _); [exists H, I|exists H', I']; split; assumption.
Qed.

Lemma C61_default_proof : forall c ops ig H hinv Q qinv fg order H' hinv',
  debug_build c = true -> frozen_graph c ops ig -> heap_laws H hinv -> pq_laws Q qinv ->
  prepare c H Q ig = Ok fg -> get_node_ordering fg = Ok order -> heap_laws H' hinv' ->
  ig_num_nodes ig <= 100 ->
  prepare_with_order c H' ig order = Ok (inl fg) \/
  prepare_with_order c H' ig order = Panic POverflow \/
  prepare_with_order c H' ig order = Panic PCapacity.
Proof.
  intros c ops ig H I Q J fg order H' I' Hd Hf HL QL E O HL' Hn.
  assert (ig_num_nodes ig <= 500) as Hn' by lia.
  exact (C61_other_proof c ops ig H I Q J params_default fg order H' I' params_with_order_default Hd Hf HL QL E O HL' Hn' Hn).
Qed.
