(** * SerialFacts: what the deserializers return for saved values and for pieces of them *)
From Verif Require Export SpecSerial Fg32Props.
Open Scope N_scope.

(** [dec] reads what [enc] writes, if [ok]; otherwise it fails. *)
Definition reads {A} (P : A -> Prop) (ok : A -> bool) (enc : A -> list N) (dec : list N -> load A) : Prop :=
  forall x rest, P x -> dec (enc x ++ rest) = if ok x then Loaded x rest else LoadError EIntegerRange.
(** [dec] notices that a piece is missing. *)
Definition notices {A} (P : A -> Prop) (ok : A -> bool) (enc : A -> list N) (dec : list N -> load A) : Prop :=
  forall x p q, P x -> ok x = true -> q <> [] -> enc x = p ++ q -> dec p = LoadError EUnexpectedEof.

Lemma pre_cases {A} (e1 : list A) : forall e2 p q, e1 ++ e2 = p ++ q ->
  (exists q', q' <> [] /\ e1 = p ++ q') \/ (exists p', p = e1 ++ p' /\ e2 = p' ++ q).
Proof.
  induction e1 as [|a e1 IH]; intros e2 p q E; simpl in E.
  - right. exists p. auto.
  - destruct p as [|b p]; simpl in E.
    + left. exists (a :: e1). split; [discriminate|reflexivity].
    + injection E as -> E. destruct (IH _ _ _ E) as [(q' & H1 & ->)|(p' & -> & ->)].
      * left. exists q'. auto.
      * right. exists p'. auto.
Qed.

(** ** integers *)
Lemma enc_le_length k : forall x, List.length (enc_le k x) = k.
Proof. induction k; intros; simpl; auto. Qed.
Lemma enc_le_bytes k : forall x b, In b (enc_le k x) -> b < 256.
Proof.
  induction k as [|k IH]; intros x b; simpl; [tauto|]. intros [<-|H]; [apply N.mod_lt; lia|eauto].
Qed.
Lemma dec_enc_le k : forall x rest, x < 256 ^ N.of_nat k -> dec_le k (enc_le k x ++ rest) = Loaded x rest.
Proof.
  induction k as [|k IH]; intros x rest Hx.
  - change (256 ^ N.of_nat 0) with 1 in Hx. simpl. f_equal. lia.
  - cbn [enc_le dec_le app]. rewrite IH.
    + simpl. f_equal. pose proof (N.div_mod x 256 ltac:(lia)). lia.
    + rewrite Nat2N.inj_succ, N.pow_succ_r' in Hx. apply N.div_lt_upper_bound; lia.
Qed.
Lemma dec_le_short k : forall bs, (List.length bs < k)%nat -> dec_le k bs = LoadError EUnexpectedEof.
Proof.
  induction k as [|k IH]; intros bs H; [lia|]. destruct bs as [|b t]; simpl; auto.
  rewrite IH by (simpl in H; lia). reflexivity.
Qed.
Lemma piece_short {A} (e p q : list A) k : List.length e = k -> q <> [] -> e = p ++ q -> (List.length p < k)%nat.
Proof. intros <- Hq ->. rewrite app_length. destruct q; [contradiction|simpl; lia]. Qed.

Definition all {A} (_ : A) : bool := true.
Definition u32P (x : N) : Prop := x < 2 ^ 32.
Lemma u32_reads : reads u32P all enc_u32 dec_u32.
Proof. intros x rest Hx. apply dec_enc_le. exact Hx. Qed.
Lemma u32_notices : notices u32P all enc_u32 dec_u32.
Proof. intros x p q _ _ Hq E. apply dec_le_short. eapply piece_short; eauto. apply enc_le_length. Qed.

Definition usizeP (x : N) : Prop := x < 2 ^ 64.
Definition usize_ok (c : cfg) (x : N) : bool := x <=? umax c.
Lemma usize_reads c : reads usizeP (usize_ok c) enc_usize (dec_usize c).
Proof. intros x rest Hx. unfold dec_usize, enc_usize, usize_ok. rewrite dec_enc_le by exact Hx. reflexivity. Qed.
Lemma usize_notices c : notices usizeP (usize_ok c) enc_usize (dec_usize c).
Proof.
  intros x p q _ _ Hq E. unfold dec_usize. rewrite dec_le_short; auto. eapply piece_short; eauto. apply enc_le_length.
Qed.

Lemma bool_reads : reads (fun _ => True) all enc_bool dec_bool.
Proof. intros [] rest _; reflexivity. Qed.
Lemma bool_notices : notices (fun _ => True) all enc_bool dec_bool.
Proof.
  intros x p q _ _ Hq E. destruct p as [|b p]; [reflexivity|]. unfold enc_bool in E. injection E as _ E.
  symmetry in E. apply app_eq_nil in E. destruct E; contradiction.
Qed.

(** ** vectors *)
Section Vec.
  Context {A : Type} (P : A -> Prop) (ok : A -> bool) (enc : A -> list N) (dec : list N -> load A).
  Hypothesis Hr : reads P ok enc dec.
  Hypothesis Hn : notices P ok enc dec.
  Hypothesis Hne : forall x, enc x <> [].

  Lemma items_reads l : forall fuel rest, Forall P l -> (List.length l <= fuel)%nat ->
    dec_items dec fuel (lenN l) (flat_map enc l ++ rest) =
    if forallb ok l then Loaded l rest else LoadError EIntegerRange.
  Proof using Hr.
    clear Hn Hne.
    induction l as [|x l IH]; intros fuel rest HP Hf.
    - destruct fuel; reflexivity.
    - destruct fuel as [|fuel]; [simpl in Hf; lia|]. inversion_clear HP as [|? ? H1 H2].
      rewrite lenN_cons. cbn [dec_items]. destruct (N.eqb_spec (lenN l + 1) 0); [lia|].
      cbn [flat_map]. rewrite <- app_assoc, Hr by auto. cbn [forallb]. destruct (ok x); [|reflexivity].
      cbn [lbind andb]. replace (lenN l + 1 - 1) with (lenN l) by lia. rewrite IH by (simpl in Hf; auto; lia).
      destruct (forallb ok l); reflexivity.
  Qed.

  Lemma items_notices l : forall fuel p q, Forall P l -> forallb ok l = true -> (List.length p <= fuel)%nat ->
    q <> [] -> flat_map enc l = p ++ q -> dec_items dec fuel (lenN l) p = LoadError EUnexpectedEof.
  Proof using Hr Hn Hne.
    induction l as [|x l IH]; intros fuel p q HP Hok Hf Hq E.
    - simpl in E. symmetry in E. apply app_eq_nil in E. destruct E; contradiction.
    - inversion_clear HP as [|? ? H1 H2]. cbn [forallb] in Hok. apply andb_true_iff in Hok as [Hx Hl].
      rewrite lenN_cons. cbn [flat_map] in E.
      destruct fuel as [|fuel]; cbn [dec_items]; (destruct (N.eqb_spec (lenN l + 1) 0); [lia|]); [reflexivity|].
      apply pre_cases in E as [(q' & Hq' & E)|(p' & -> & E)].
      + rewrite (Hn x p q'); auto.
      + rewrite Hr, Hx by auto. cbn [lbind]. replace (lenN l + 1 - 1) with (lenN l) by lia.
        rewrite (IH fuel p' q); auto. rewrite app_length in Hf. specialize (Hne x).
        destruct (enc x); [contradiction|simpl in Hf; lia].
  Qed.

  Definition vecP (l : list A) : Prop := Forall P l /\ lenN l < 2 ^ 64.
  Definition vec_ok (c : cfg) (l : list A) : bool := (lenN l <=? umax c) && forallb ok l.

  Lemma flat_len l : (List.length l <= List.length (flat_map enc l))%nat.
  Proof using Hne.
    clear - Hne. induction l as [|x l IH]; simpl; auto. rewrite app_length. specialize (Hne x).
    destruct (enc x); [contradiction|simpl; lia].
  Qed.

  Lemma vec_reads c : reads vecP (vec_ok c) (enc_vec enc) (dec_vec c dec).
  Proof using Hr Hne.
    intros l rest [HP HL]. unfold enc_vec, dec_vec, vec_ok. rewrite <- app_assoc.
    change (enc_le 8 (lenN l)) with (enc_usize (lenN l)). rewrite (usize_reads c) by exact HL.
    unfold usize_ok. destruct (lenN l <=? umax c); [|reflexivity]. cbn [lbind andb]. apply items_reads; auto.
    rewrite app_length. pose proof (flat_len l). lia.
  Qed.
  Lemma vec_notices c : notices vecP (vec_ok c) (enc_vec enc) (dec_vec c dec).
  Proof using Hr Hn Hne.
    intros l p q [HP HL] Hok Hq E. unfold enc_vec, dec_vec, vec_ok in *. apply andb_true_iff in Hok as [O1 O2].
    change (enc_le 8 (lenN l)) with (enc_usize (lenN l)) in E.
    apply pre_cases in E as [(q' & Hq' & E)|(p' & -> & E)].
    - rewrite (usize_notices c (lenN l) p q'); auto.
    - rewrite (usize_reads c) by exact HL. unfold usize_ok. rewrite O1. cbn [lbind].
      eapply items_notices; eauto.
  Qed.
  Lemma enc_vec_ne l : enc_vec enc l <> [].
  Proof. unfold enc_vec. simpl. discriminate. Qed.
End Vec.

(** ** structs *)

(** a field followed by others *)
Lemma field_reads {A B} (P : A -> Prop) ok enc dec (x : A) (tail : list N) (k : A -> list N -> load B) :
  reads P ok enc dec -> P x ->
  lbind (dec (enc x ++ tail)) k = if ok x then k x tail else LoadError EIntegerRange.
Proof. intros Hr Hx. rewrite Hr by auto. destruct (ok x); reflexivity. Qed.
Lemma field_notices {A B} (P : A -> Prop) ok enc dec (x : A) (tail p q : list N) (k : A -> list N -> load B) :
  reads P ok enc dec -> notices P ok enc dec -> P x -> ok x = true -> enc x ++ tail = p ++ q ->
  (forall p', tail = p' ++ q -> k x p' = LoadError EUnexpectedEof) ->
  lbind (dec p) k = LoadError EUnexpectedEof.
Proof.
  intros Hr Hn Hx Hok E Hk. apply pre_cases in E as [(q' & Hq' & E)|(p' & -> & E)].
  - rewrite (Hn x p q') by auto. reflexivity.
  - rewrite (field_reads P ok enc dec x p' k), Hok by auto. auto.
Qed.
Lemma last_notices {A B} (P : A -> Prop) ok enc dec (x : A) (p q : list N) (k : A -> list N -> load B) :
  notices P ok enc dec -> P x -> ok x = true -> q <> [] -> enc x = p ++ q ->
  lbind (dec p) k = LoadError EUnexpectedEof.
Proof. intros Hn Hx Hok Hq E. rewrite (Hn x p q) by auto. reflexivity. Qed.

Definition edgeP (e : Edge) : Prop := usizeP (e_from e) /\ usizeP (e_to e) /\ usizeP (e_weight e).
Definition edge_ok (c : cfg) (e : Edge) : bool :=
  usize_ok c (e_from e) && (usize_ok c (e_to e) && usize_ok c (e_weight e)).
Lemma edge_reads c : reads edgeP (edge_ok c) enc_edge (dec_edge c).
Proof.
  intros [f t w] rest (H1 & H2 & H3). unfold enc_edge, dec_edge, edge_ok. cbn [e_from e_to e_weight] in *.
  rewrite <- !app_assoc.
  rewrite (field_reads _ _ _ _ _ _ _ (usize_reads c) H1). destruct (usize_ok c f); [|reflexivity]. cbn [andb].
  rewrite (field_reads _ _ _ _ _ _ _ (usize_reads c) H2). destruct (usize_ok c t); [|reflexivity]. cbn [andb].
  rewrite (field_reads _ _ _ _ _ _ _ (usize_reads c) H3). destruct (usize_ok c w); reflexivity.
Qed.
Lemma edge_notices c : notices edgeP (edge_ok c) enc_edge (dec_edge c).
Proof.
  intros [f t w] p q (H1 & H2 & H3) Hok Hq E. unfold enc_edge, dec_edge, edge_ok in *. cbn [e_from e_to e_weight] in *.
  rewrite !andb_true_iff in Hok. destruct Hok as (O1 & O2 & O3).
  apply (field_notices _ _ _ _ f _ p q _ (usize_reads c) (usize_notices c) H1 O1 E). clear E p. intros p E.
  apply (field_notices _ _ _ _ t _ p q _ (usize_reads c) (usize_notices c) H2 O2 E). clear E p. intros p E.
  apply (last_notices _ _ _ _ w p q _ (usize_notices c) H3 O3 Hq E).
Qed.
Lemma enc_edge_ne e : enc_edge e <> [].
Proof. discriminate. Qed.

Definition igP (g : InputGraph) : Prop := vecP edgeP (ig_edges g) /\ usizeP (ig_num_nodes g).
Definition igraph_ok (c : cfg) (g : InputGraph) : bool :=
  vec_ok (edge_ok c) c (ig_edges g) && usize_ok c (ig_num_nodes g).
Lemma ig_reads c : reads igP (igraph_ok c) enc_input_graph (dec_input_graph c).
Proof.
  intros [es n b] rest (H1 & H2). unfold enc_input_graph, dec_input_graph, igraph_ok. cbn [ig_edges ig_num_nodes ig_frozen] in *.
  rewrite <- !app_assoc.
  rewrite (field_reads _ _ _ _ _ _ _ (vec_reads _ _ _ _ (edge_reads c) enc_edge_ne c) H1).
  destruct (vec_ok (edge_ok c) c es); [|reflexivity]. cbn [andb].
  rewrite (field_reads _ _ _ _ _ _ _ (usize_reads c) H2). destruct (usize_ok c n); [|reflexivity].
  rewrite (field_reads _ _ _ _ _ _ _ bool_reads I). reflexivity.
Qed.
Lemma ig_notices c : notices igP (igraph_ok c) enc_input_graph (dec_input_graph c).
Proof.
  intros [es n b] p q (H1 & H2) Hok Hq E. unfold enc_input_graph, dec_input_graph, igraph_ok in *.
  cbn [ig_edges ig_num_nodes ig_frozen] in *. rewrite !andb_true_iff in Hok. destruct Hok as (O1 & O2).
  apply (field_notices _ _ _ _ es _ p q _ (vec_reads _ _ _ _ (edge_reads c) enc_edge_ne c)
    (vec_notices _ _ _ _ (edge_reads c) (edge_notices c) enc_edge_ne c) H1 O1 E). clear E p. intros p E.
  apply (field_notices _ _ _ _ n _ p q _ (usize_reads c) (usize_notices c) H2 O2 E). clear E p. intros p E.
  apply (last_notices _ _ _ _ b p q _ bool_notices I eq_refl Hq E).
Qed.

Definition feP (e : FastGraphEdge) : Prop := Forall usizeP (edge_ints e).
Definition fe_ok (c : cfg) (e : FastGraphEdge) : bool := forallb (usize_ok c) (edge_ints e).
Lemma fe_reads c : reads feP (fe_ok c) enc_fast_edge (dec_fast_edge c).
Proof.
  intros [a b w i o] rest H. unfold enc_fast_edge, dec_fast_edge, fe_ok, feP, edge_ints in *.
  cbn [fe_base fe_adj fe_weight fe_replaced_in fe_replaced_out forallb] in *.
  repeat match goal with H : Forall _ (_ :: _) |- _ => let H1 := fresh "K" in let H2 := fresh "K" in
    inversion_clear H as [|? ? H1 H2] end.
  rewrite <- !app_assoc.
  repeat (erewrite (field_reads _ _ _ _ _ _ _ (usize_reads c)) by assumption;
    match goal with |- (if ?o then _ else _) = _ => destruct o; [|reflexivity] end; cbn [andb]).
  reflexivity.
Qed.
Lemma fe_notices c : notices feP (fe_ok c) enc_fast_edge (dec_fast_edge c).
Proof.
  intros [a b w i o] p q H Hok Hq E. unfold enc_fast_edge, dec_fast_edge, fe_ok, feP, edge_ints in *.
  cbn [fe_base fe_adj fe_weight fe_replaced_in fe_replaced_out forallb] in *.
  rewrite !andb_true_iff in Hok. destruct Hok as (O1 & O2 & O3 & O4 & O5 & _).
  repeat match goal with H : Forall _ (_ :: _) |- _ => let H1 := fresh "K" in let H2 := fresh "K" in
    inversion_clear H as [|? ? H1 H2] end.
  do 4 (refine (field_notices _ _ _ _ _ _ p q _ (usize_reads c) (usize_notices c) _ _ E _); [assumption|assumption|];
    clear E p; intros p E).
  refine (last_notices _ _ _ _ _ p q _ (usize_notices c) _ _ Hq E); assumption.
Qed.
Lemma enc_fe_ne e : enc_fast_edge e <> [].
Proof. discriminate. Qed.
Lemma enc_usize_ne x : enc_usize x <> [].
Proof. discriminate. Qed.
Lemma enc_u32_ne x : enc_u32 x <> [].
Proof. discriminate. Qed.

Definition fgP (g : FastGraph) : Prop :=
  usizeP (fg_num_nodes g) /\ vecP usizeP (fg_ranks g) /\ vecP feP (fg_edges_fwd g) /\
  vecP usizeP (fg_first_edge_ids_fwd g) /\ vecP feP (fg_edges_bwd g) /\ vecP usizeP (fg_first_edge_ids_bwd g).
Definition fgraph_ok (c : cfg) (g : FastGraph) : bool :=
  usize_ok c (fg_num_nodes g) && (vec_ok (usize_ok c) c (fg_ranks g) && (vec_ok (fe_ok c) c (fg_edges_fwd g) &&
  (vec_ok (usize_ok c) c (fg_first_edge_ids_fwd g) && (vec_ok (fe_ok c) c (fg_edges_bwd g) &&
   vec_ok (usize_ok c) c (fg_first_edge_ids_bwd g))))).
Lemma fg_reads c : reads fgP (fgraph_ok c) enc_fast_graph (dec_fast_graph c).
Proof.
  intros [n rk ef ff eb fb] rest (H1 & H2 & H3 & H4 & H5 & H6). unfold enc_fast_graph, dec_fast_graph, fgraph_ok.
  cbn [fg_num_nodes fg_ranks fg_edges_fwd fg_first_edge_ids_fwd fg_edges_bwd fg_first_edge_ids_bwd] in *.
  pose proof (vec_reads _ _ _ _ (usize_reads c) enc_usize_ne c) as VU.
  pose proof (vec_reads _ _ _ _ (fe_reads c) enc_fe_ne c) as VE.
  rewrite <- !app_assoc.
  rewrite (field_reads _ _ _ _ _ _ _ (usize_reads c) H1). destruct (usize_ok c n); [|reflexivity]. cbn [andb].
  rewrite (field_reads _ _ _ _ _ _ _ VU H2). destruct (vec_ok _ c rk); [|reflexivity]. cbn [andb].
  rewrite (field_reads _ _ _ _ _ _ _ VE H3). destruct (vec_ok _ c ef); [|reflexivity]. cbn [andb].
  rewrite (field_reads _ _ _ _ _ _ _ VU H4). destruct (vec_ok _ c ff); [|reflexivity]. cbn [andb].
  rewrite (field_reads _ _ _ _ _ _ _ VE H5). destruct (vec_ok _ c eb); [|reflexivity]. cbn [andb].
  rewrite (field_reads _ _ _ _ _ _ _ VU H6). destruct (vec_ok _ c fb); reflexivity.
Qed.
Lemma fg_notices c : notices fgP (fgraph_ok c) enc_fast_graph (dec_fast_graph c).
Proof.
  intros [n rk ef ff eb fb] p q (H1 & H2 & H3 & H4 & H5 & H6) Hok Hq E.
  unfold enc_fast_graph, dec_fast_graph, fgraph_ok in *.
  cbn [fg_num_nodes fg_ranks fg_edges_fwd fg_first_edge_ids_fwd fg_edges_bwd fg_first_edge_ids_bwd] in *.
  pose proof (vec_reads _ _ _ _ (usize_reads c) enc_usize_ne c) as VU.
  pose proof (vec_reads _ _ _ _ (fe_reads c) enc_fe_ne c) as VE.
  pose proof (vec_notices _ _ _ _ (usize_reads c) (usize_notices c) enc_usize_ne c) as NU.
  pose proof (vec_notices _ _ _ _ (fe_reads c) (fe_notices c) enc_fe_ne c) as NE.
  rewrite !andb_true_iff in Hok. destruct Hok as (O1 & O2 & O3 & O4 & O5 & O6).
  apply (field_notices _ _ _ _ n _ p q _ (usize_reads c) (usize_notices c) H1 O1 E). clear E p. intros p E.
  apply (field_notices _ _ _ _ rk _ p q _ VU NU H2 O2 E). clear E p. intros p E.
  apply (field_notices _ _ _ _ ef _ p q _ VE NE H3 O3 E). clear E p. intros p E.
  apply (field_notices _ _ _ _ ff _ p q _ VU NU H4 O4 E). clear E p. intros p E.
  apply (field_notices _ _ _ _ eb _ p q _ VE NE H5 O5 E). clear E p. intros p E.
  apply (last_notices _ _ _ _ fb p q _ NU H6 O6 Hq E).
Qed.

(** ** the 32-bit form *)
Definition feP32 (e : FastGraphEdge32) : Prop := Forall u32P (edge_ints32 e).
Lemma fe32_reads : reads feP32 all enc_fast_edge32 dec_fast_edge32.
Proof.
  intros [a b w i o] rest H. unfold enc_fast_edge32, dec_fast_edge32, all, feP32, edge_ints32 in *.
  cbn [fe32_base fe32_adj fe32_weight fe32_replaced_in fe32_replaced_out] in *.
  repeat match goal with H : Forall _ (_ :: _) |- _ => let H1 := fresh "K" in let H2 := fresh "K" in
    inversion_clear H as [|? ? H1 H2] end.
  rewrite <- !app_assoc.
  repeat (erewrite (field_reads _ _ _ _ _ _ _ u32_reads) by assumption; unfold all).
  reflexivity.
Qed.
Lemma fe32_notices : notices feP32 all enc_fast_edge32 dec_fast_edge32.
Proof.
  intros [a b w i o] p q H Hok Hq E. unfold enc_fast_edge32, dec_fast_edge32, feP32, edge_ints32 in *.
  cbn [fe32_base fe32_adj fe32_weight fe32_replaced_in fe32_replaced_out] in *.
  repeat match goal with H : Forall _ (_ :: _) |- _ => let H1 := fresh "K" in let H2 := fresh "K" in
    inversion_clear H as [|? ? H1 H2] end.
  do 4 (refine (field_notices _ _ _ _ _ _ p q _ u32_reads u32_notices _ eq_refl E _); [assumption|];
    clear E p; intros p E).
  refine (last_notices _ _ _ _ _ p q _ u32_notices _ eq_refl Hq E); assumption.
Qed.
Lemma enc_fe32_ne e : enc_fast_edge32 e <> [].
Proof. discriminate. Qed.

Definition fg32P (g : FastGraph32) : Prop :=
  u32P (fg32_num_nodes g) /\ vecP u32P (fg32_ranks g) /\ vecP feP32 (fg32_edges_fwd g) /\
  vecP u32P (fg32_first_edge_ids_fwd g) /\ vecP feP32 (fg32_edges_bwd g) /\ vecP u32P (fg32_first_edge_ids_bwd g).
Definition fg32_ok (c : cfg) (g : FastGraph32) : bool :=
  vec_ok all c (fg32_ranks g) && (vec_ok all c (fg32_edges_fwd g) &&
  (vec_ok all c (fg32_first_edge_ids_fwd g) && (vec_ok all c (fg32_edges_bwd g) &&
   vec_ok all c (fg32_first_edge_ids_bwd g)))).
Lemma fg32_reads c : reads fg32P (fg32_ok c) enc_fast_graph32 (dec_fast_graph32 c).
Proof.
  intros [n rk ef ff eb fb] rest (H1 & H2 & H3 & H4 & H5 & H6). unfold enc_fast_graph32, dec_fast_graph32, fg32_ok.
  cbn [fg32_num_nodes fg32_ranks fg32_edges_fwd fg32_first_edge_ids_fwd fg32_edges_bwd fg32_first_edge_ids_bwd] in *.
  pose proof (vec_reads _ _ _ _ u32_reads enc_u32_ne c) as VU.
  pose proof (vec_reads _ _ _ _ fe32_reads enc_fe32_ne c) as VE.
  rewrite <- !app_assoc.
  rewrite (field_reads _ _ _ _ _ _ _ u32_reads H1). unfold all at 1.
  rewrite (field_reads _ _ _ _ _ _ _ VU H2). destruct (vec_ok _ c rk); [|reflexivity]. cbn [andb].
  rewrite (field_reads _ _ _ _ _ _ _ VE H3). destruct (vec_ok _ c ef); [|reflexivity]. cbn [andb].
  rewrite (field_reads _ _ _ _ _ _ _ VU H4). destruct (vec_ok _ c ff); [|reflexivity]. cbn [andb].
  rewrite (field_reads _ _ _ _ _ _ _ VE H5). destruct (vec_ok _ c eb); [|reflexivity]. cbn [andb].
  rewrite (field_reads _ _ _ _ _ _ _ VU H6). destruct (vec_ok _ c fb); reflexivity.
Qed.
Lemma fg32_notices c : notices fg32P (fg32_ok c) enc_fast_graph32 (dec_fast_graph32 c).
Proof.
  intros [n rk ef ff eb fb] p q (H1 & H2 & H3 & H4 & H5 & H6) Hok Hq E.
  unfold enc_fast_graph32, dec_fast_graph32, fg32_ok in *.
  cbn [fg32_num_nodes fg32_ranks fg32_edges_fwd fg32_first_edge_ids_fwd fg32_edges_bwd fg32_first_edge_ids_bwd] in *.
  pose proof (vec_reads _ _ _ _ u32_reads enc_u32_ne c) as VU.
  pose proof (vec_reads _ _ _ _ fe32_reads enc_fe32_ne c) as VE.
  pose proof (vec_notices _ _ _ _ u32_reads u32_notices enc_u32_ne c) as NU.
  pose proof (vec_notices _ _ _ _ fe32_reads fe32_notices enc_fe32_ne c) as NE.
  rewrite !andb_true_iff in Hok. destruct Hok as (O2 & O3 & O4 & O5 & O6).
  apply (field_notices _ _ _ _ n _ p q _ u32_reads u32_notices H1 eq_refl E). clear E p. intros p E.
  apply (field_notices _ _ _ _ rk _ p q _ VU NU H2 O2 E). clear E p. intros p E.
  apply (field_notices _ _ _ _ ef _ p q _ VE NE H3 O3 E). clear E p. intros p E.
  apply (field_notices _ _ _ _ ff _ p q _ VU NU H4 O4 E). clear E p. intros p E.
  apply (field_notices _ _ _ _ eb _ p q _ VE NE H5 O5 E). clear E p. intros p E.
  apply (last_notices _ _ _ _ fb p q _ NU H6 O6 Hq E).
Qed.
