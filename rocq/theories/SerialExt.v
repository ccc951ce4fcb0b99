(** * SerialExt: every file that can be loaded starts with a saved graph *)
From Verif Require Export SerialProps.
Open Scope N_scope.

Definition bytes (bs : list N) : Prop := Forall (fun b => b < 256) bs.
(** Whatever [dec] accepts starts with what [enc] writes for the value that [dec] returns. *)
Definition canon {A} (P : A -> Prop) (ok : A -> bool) (enc : A -> list N) (dec : list N -> load A) : Prop :=
  forall bs x rest, bytes bs -> dec bs = Loaded x rest -> bs = enc x ++ rest /\ P x /\ ok x = true /\ bytes rest.

Lemma le_canon k : forall bs x rest, bytes bs -> dec_le k bs = Loaded x rest ->
  bs = enc_le k x ++ rest /\ x < 256 ^ N.of_nat k /\ bytes rest.
Proof.
  induction k as [|k IH]; intros bs x rest Hb E; cbn [dec_le] in E.
  - injection E as <- <-. change (256 ^ N.of_nat 0) with 1. split; [reflexivity|]. split; [lia|auto].
  - destruct bs as [|b t]; [discriminate|]. inversion_clear Hb as [|? ? Hb1 Hb2].
    destruct (dec_le k t) as [y r|] eqn:Ey; cbn [lbind] in E; [|discriminate]. injection E as <- <-.
    destruct (IH _ _ _ Hb2 Ey) as (Ht & Hy & Hr). subst t.
    rewrite Nat2N.inj_succ, N.pow_succ_r'. split; [|split; [lia|auto]].
    cbn [enc_le app]. replace ((b + 256 * y) mod 256) with b; [replace ((b + 256 * y) / 256) with y; [reflexivity|]|].
    + rewrite (N.mul_comm 256), N.div_add, N.div_small by lia. lia.
    + rewrite (N.mul_comm 256), N.mod_add, N.mod_small by lia. reflexivity.
Qed.
Lemma u32_canon : canon u32P all enc_u32 dec_u32.
Proof. intros bs x rest Hb E. destruct (le_canon 4 bs x rest Hb E) as (A & B & C). auto. Qed.
Lemma usize_canon c : canon usizeP (usize_ok c) enc_usize (dec_usize c).
Proof.
  intros bs x rest Hb E. unfold dec_usize in E. destruct (dec_le 8 bs) as [y r|] eqn:Ey; cbn [lbind] in E; [|discriminate].
  destruct (y <=? umax c) eqn:Hy; [|discriminate]. injection E as <- <-.
  destruct (le_canon 8 bs y r Hb Ey) as (A & B & C). auto.
Qed.
Lemma bool_canon : canon (fun _ => True) all enc_bool dec_bool.
Proof.
  intros bs x rest Hb E. unfold dec_bool in E. destruct bs as [|b t]; [discriminate|]. inversion_clear Hb as [|? ? Hb1 Hb2].
  destruct (N.eqb_spec b 0); [|destruct (N.eqb_spec b 1); [|discriminate]]; injection E as <- <-; subst b; auto.
Qed.

Section Vec.
  Context {A : Type} (P : A -> Prop) (ok : A -> bool) (enc : A -> list N) (dec : list N -> load A).
  Hypothesis Hk : canon P ok enc dec.
  Lemma items_canon fuel : forall n bs l rest, bytes bs -> dec_items dec fuel n bs = Loaded l rest ->
    bs = flat_map enc l ++ rest /\ Forall P l /\ forallb ok l = true /\ lenN l = n /\ bytes rest.
  Proof using Hk.
    induction fuel as [|fuel IH]; intros n bs l rest Hb E; cbn [dec_items] in E; destruct (N.eqb_spec n 0) as [->|Hn].
    - injection E as <- <-. simpl. auto.
    - discriminate.
    - injection E as <- <-. simpl. auto.
    - destruct (dec bs) as [x r|] eqn:Ex; cbn [lbind] in E; [|discriminate].
      destruct (dec_items dec fuel (n - 1) r) as [l' r'|] eqn:El; cbn [lbind] in E; [|discriminate].
      injection E as <- <-. destruct (Hk _ _ _ Hb Ex) as (-> & H1 & H2 & H3).
      destruct (IH _ _ _ _ H3 El) as (-> & K1 & K2 & K3 & K4).
      cbn [flat_map forallb]. rewrite <- app_assoc, H2, K2, lenN_cons. repeat split; auto. lia.
  Qed.
  Lemma vec_canon c : canon (vecP P) (vec_ok ok c) (enc_vec enc) (dec_vec c dec).
  Proof using Hk.
    intros bs l rest Hb E. unfold dec_vec in E. destruct (dec_usize c bs) as [n r|] eqn:En; cbn [lbind] in E; [|discriminate].
    destruct (usize_canon c _ _ _ Hb En) as (-> & H1 & H2 & H3).
    destruct (items_canon _ _ _ _ _ H3 E) as (-> & K1 & K2 & K3 & K4).
    unfold enc_vec, vecP, vec_ok. rewrite K3. rewrite <- app_assoc. split; [reflexivity|].
    split; [split; auto|]. split; [rewrite K2; unfold usize_ok in H2; rewrite H2; reflexivity|auto].
  Qed.
End Vec.

(** take apart the fields of a struct *)
Ltac field K := match goal with
  | Hb : bytes ?bs, E : lbind (?d ?bs) _ = Loaded _ _ |- _ =>
      let x := fresh "x" in let r := fresh "r" in let Ex := fresh "Ex" in
      let P := fresh "P" in let O := fresh "O" in let Q := fresh "E" in let B := fresh "B" in
      destruct (d bs) as [x r|] eqn:Ex; cbn [lbind] in E; [|discriminate E];
      destruct (K bs x r Hb Ex) as (Q & P & O & B); clear Ex Hb; subst bs
  end.

Lemma edge_canon c : canon edgeP (edge_ok c) enc_edge (dec_edge c).
Proof.
  intros bs e rest Hb E. unfold dec_edge in E. do 3 field (usize_canon c). injection E as <- <-.
  unfold enc_edge, edgeP, edge_ok. cbn [e_from e_to e_weight]. rewrite <- !app_assoc. rewrite O, O0, O1. auto 10.
Qed.
Lemma ig_canon c : canon igP (igraph_ok c) enc_input_graph (dec_input_graph c).
Proof.
  intros bs e rest Hb E. unfold dec_input_graph in E.
  field (vec_canon _ _ _ _ (edge_canon c) c). field (usize_canon c). field bool_canon. injection E as <- <-.
  unfold enc_input_graph, igP, igraph_ok. cbn [ig_edges ig_num_nodes ig_frozen]. rewrite <- !app_assoc. rewrite O, O0. auto 10.
Qed.
Lemma fe_canon c : canon feP (fe_ok c) enc_fast_edge (dec_fast_edge c).
Proof.
  intros bs e rest Hb E. unfold dec_fast_edge in E. do 5 field (usize_canon c). injection E as <- <-.
  unfold enc_fast_edge, feP, fe_ok, edge_ints. cbn [fe_base fe_adj fe_weight fe_replaced_in fe_replaced_out forallb].
  rewrite <- !app_assoc. rewrite O, O0, O1, O2, O3. auto 15.
Qed.
Lemma fg_canon c : canon fgP (fgraph_ok c) enc_fast_graph (dec_fast_graph c).
Proof.
  intros bs e rest Hb E. unfold dec_fast_graph in E.
  pose proof (vec_canon _ _ _ _ (usize_canon c) c) as VU. pose proof (vec_canon _ _ _ _ (fe_canon c) c) as VE.
  field (usize_canon c). field VU. field VE. field VU. field VE. field VU. injection E as <- <-.
  unfold enc_fast_graph, fgP, fgraph_ok.
  cbn [fg_num_nodes fg_ranks fg_edges_fwd fg_first_edge_ids_fwd fg_edges_bwd fg_first_edge_ids_bwd].
  rewrite <- !app_assoc. rewrite O, O0, O1, O2, O3, O4. auto 15.
Qed.
Lemma fe32_canon : canon feP32 all enc_fast_edge32 dec_fast_edge32.
Proof.
  intros bs e rest Hb E. unfold dec_fast_edge32 in E. do 5 field u32_canon. injection E as <- <-.
  unfold enc_fast_edge32, feP32, edge_ints32. cbn [fe32_base fe32_adj fe32_weight fe32_replaced_in fe32_replaced_out].
  rewrite <- !app_assoc. auto 15.
Qed.
Lemma fg32_canon c : canon fg32P (fg32_ok c) enc_fast_graph32 (dec_fast_graph32 c).
Proof.
  intros bs e rest Hb E. unfold dec_fast_graph32 in E.
  pose proof (vec_canon _ _ _ _ u32_canon c) as VU. pose proof (vec_canon _ _ _ _ fe32_canon c) as VE.
  field u32_canon. field VU. field VE. field VU. field VE. field VU. injection E as <- <-.
  unfold enc_fast_graph32, fg32P, fg32_ok.
  cbn [fg32_num_nodes fg32_ranks fg32_edges_fwd fg32_first_edge_ids_fwd fg32_edges_bwd fg32_first_edge_ids_bwd].
  rewrite <- !app_assoc. rewrite O0, O1, O2, O3, O4. auto 15.
Qed.

(** a platform on which everything that was read fits *)
Definition wide : cfg := mkCfg (2 ^ 64 - 1) true.
Lemma P_wide_usize l : Forall usizeP l -> forallb (usize_ok wide) l = true.
Proof.
  intros H. apply forallb_forall. rewrite Forall_forall in H. intros x Hx. specialize (H x Hx). unfold usizeP in H.
  apply N.leb_le. cbn [umax wide]. lia.
Qed.
Lemma P_wide_vec {A} (P : A -> Prop) ok l : (forall x, P x -> ok x = true) -> vecP P l -> vec_ok ok wide l = true.
Proof.
  intros H [H1 H2]. unfold vec_ok. apply andb_true_iff. split; [apply N.leb_le; cbn [umax wide]; lia|].
  apply forallb_forall. rewrite Forall_forall in H1. auto.
Qed.
Lemma P_wide_u x : usizeP x -> usize_ok wide x = true.
Proof. unfold usizeP. intros H. apply N.leb_le. cbn [umax wide]. lia. Qed.
Lemma P_wide fg : fgP fg -> fgraph_ok wide fg = true.
Proof.
  intros (H1 & H2 & H3 & H4 & H5 & H6). unfold fgraph_ok.
  rewrite (P_wide_u _ H1), !(P_wide_vec usizeP), !(P_wide_vec feP); auto using P_wide_u; intros e He; apply P_wide_usize, He.
Qed.
Lemma P32_wide g : fg32P g -> fg32_ok wide g = true.
Proof.
  intros (H1 & H2 & H3 & H4 & H5 & H6). unfold fg32_ok.
  rewrite !(P_wide_vec u32P), !(P_wide_vec feP32); auto.
Qed.
Lemma Pig_wide g : igP g -> igraph_ok wide g = true.
Proof.
  intros (H1 & H2). unfold igraph_ok. rewrite (P_wide_vec edgeP), P_wide_u; auto.
  intros e (A & B & C). unfold edge_ok. rewrite !P_wide_u; auto.
Qed.

Lemma bytes_piece p q : bytes (p ++ q) -> bytes p.
Proof. unfold bytes. rewrite !Forall_forall. intros H x Hx. apply H, in_or_app. auto. Qed.
Lemma bytes_Forall l : (forall b, In b l -> b < 256) -> bytes l.
Proof. intros H. apply Forall_forall, H. Qed.

(** a piece of what [enc] writes is not accepted on any platform *)
Lemma canon_cut {A} (P : A -> Prop) okw enc decw ok' dec' x p q :
  reads P okw enc decw -> (forall y, P y -> okw y = true) -> canon P ok' enc dec' ->
  P x -> bytes (enc x) -> q <> [] -> enc x = p ++ q -> exists e, dec' p = LoadError e.
Proof.
  intros Hr Hw Hk Hx Hb Hq E. destruct (dec' p) as [y r|e] eqn:Ey; [|eauto]. exfalso.
  rewrite E in Hb. destruct (Hk p y r (bytes_piece _ _ Hb) Ey) as (-> & Hy & _ & _).
  pose proof (Hr x [] Hx) as E1. pose proof (Hr y (r ++ q) Hy) as E2. rewrite (Hw x Hx) in E1. rewrite (Hw y Hy) in E2.
  rewrite app_nil_r, E, <- app_assoc, E2 in E1. injection E1 as _ E1. apply app_eq_nil in E1. destruct E1; contradiction.
Qed.

Lemma enc_usize_bytes x b : In b (enc_usize x) -> b < 256.
Proof. apply enc_le_bytes. Qed.
Lemma enc_u32_bytes x b : In b (enc_u32 x) -> b < 256.
Proof. apply enc_le_bytes. Qed.
Lemma enc_input_bytes g : bytes (enc_input_graph g).
Proof.
  apply bytes_Forall. intros b. unfold enc_input_graph. rewrite !in_app_iff.
  assert (E : forall x b, In b (enc_edge x) -> b < 256).
  { intros x b'. unfold enc_edge. rewrite !in_app_iff. intros [H|[H|H]]; eauto using enc_usize_bytes. }
  intros [H|[H|H]]; eauto using enc_vec_bytes, enc_usize_bytes. destruct (ig_frozen g), H as [<-|[]]; lia.
Qed.
Lemma enc_fg32_bytes g : bytes (enc_fast_graph32 g).
Proof.
  apply bytes_Forall. intros b. unfold enc_fast_graph32. rewrite !in_app_iff.
  assert (E : forall x b, In b (enc_fast_edge32 x) -> b < 256).
  { intros x b'. unfold enc_fast_edge32. rewrite !in_app_iff. intros [H|[H|[H|[H|H]]]]; eauto using enc_u32_bytes. }
  intros [H|[H|[H|[H|[H|H]]]]]; eauto using enc_vec_bytes, enc_u32_bytes.
Qed.

Lemma C44_file_proof : forall c file fg, (forall b, In b file -> b < 256) ->
  load_from_disk c file = inr fg -> representable c fg /\ exists extra, file = save_to_disk fg ++ extra.
Proof.
  intros c file fg Hb E. unfold load_from_disk in E. destruct (dec_fast_graph c file) as [fg' rest|] eqn:Ed; [|discriminate].
  injection E as ->. destruct (fg_canon c file fg rest (bytes_Forall _ Hb) Ed) as (E & _ & O & _).
  split; [apply representable_ok, O|exists rest; exact E].
Qed.
Lemma C44_input_file_proof : forall c file ig rest, (forall b, In b file -> b < 256) ->
  dec_input_graph c file = Loaded ig rest -> file = enc_input_graph ig ++ rest.
Proof. intros c file ig rest Hb E. apply (ig_canon c file ig rest (bytes_Forall _ Hb) E). Qed.

Lemma C45_any_proof : forall c c' fg piece, platform c -> representable c fg ->
  cut (save_to_disk fg) piece -> exists e, load_from_disk c' piece = inl e.
Proof.
  intros c c' fg piece Hc Hr (q & Hq & E). unfold save_to_disk in E.
  destruct (canon_cut _ _ _ _ _ _ fg piece q (fg_reads wide) P_wide (fg_canon c')
    (representable_P c fg Hc Hr) (bytes_Forall _ (C44_bytes_proof fg)) Hq E) as [e He].
  exists e. unfold load_from_disk. rewrite He. reflexivity.
Qed.
Lemma C45_any_input_proof : forall c c' ops ig piece, platform c -> (forall o, In o ops -> op_repr c o) ->
  ig_run c ig_new ops = Ok ig -> cut (enc_input_graph ig) piece -> exists e, dec_input_graph c' piece = LoadError e.
Proof.
  intros c c' ops ig piece Hc Hr Hrun (q & Hq & E). destruct (run_igP c ops ig Hc Hr Hrun) as [HP HO].
  exact (canon_cut _ _ _ _ _ _ ig piece q (ig_reads wide) Pig_wide (ig_canon c') HP (enc_input_bytes ig) Hq E).
Qed.
Lemma C45_any_32_proof : forall c c' fg bytes piece, platform64 c -> vectors_fit c fg ->
  serialize_32 c fg = Ok bytes -> cut bytes piece -> exists e, load_from_disk32 c' piece = Ok (inl e).
Proof.
  intros c c' fg bts piece Hc HL HE (q & Hq & E). unfold serialize_32 in HE.
  destruct (to_fast_graph32 c fg) as [g| |] eqn:Hg; try discriminate. injection HE as <-.
  destruct (to32_ok c c fg g Hc (p64_platform c Hc) Hg HL) as [HP _].
  destruct (canon_cut _ _ _ _ _ _ g piece q (fg32_reads wide) P32_wide (fg32_canon c') HP (enc_fg32_bytes g) Hq E) as [e He].
  exists e. unfold load_from_disk32, deserialize_32. rewrite He. reflexivity.
Qed.

(** what is read from the 32-bit form is written in the same way again *)
Lemma to32_back c x : u32_max < umax c -> x <= u32_max -> to32 c (u32_to_usize c x) = x /\ fit c (u32_to_usize c x).
Proof.
  intros Hc Hx. unfold to32, u32_to_usize, fit. destruct (N.eqb_spec x u32_max).
  - rewrite N.eqb_refl. auto.
  - destruct (N.eqb_spec x (umax c)); [lia|auto].
Qed.
Lemma to32_back_list c l : u32_max < umax c -> Forall u32P l ->
  map (to32 c) (map (u32_to_usize c) l) = l /\ Forall (fit c) (map (u32_to_usize c) l).
Proof.
  intros Hc H. induction H as [|x l Hx Hl [IH1 IH2]]; [split; [reflexivity|constructor]|].
  assert (x <= u32_max) as Hx' by (unfold u32P in Hx; change (2 ^ 32) with (u32_max + 1) in Hx; lia).
  destruct (to32_back c x Hc Hx') as [A B]. cbn [map]. rewrite A, IH1. auto.
Qed.
Lemma to32_back_edges c l : u32_max < umax c -> Forall feP32 l ->
  map (to32_edge c) (map (u32_to_usize_edge c) l) = l /\
  Forall (fit c) (flat_map edge_ints (map (u32_to_usize_edge c) l)).
Proof.
  intros Hc H. induction H as [|e l He Hl [IH1 IH2]]; [split; [reflexivity|constructor]|].
  destruct (to32_back_list c _ Hc He) as [A B]. destruct e as [a b w i o]. unfold edge_ints32 in A, B.
  cbn [map fe32_base fe32_adj fe32_weight fe32_replaced_in fe32_replaced_out] in A, B. injection A as A1 A2 A3 A4 A5. split.
  - cbn [map]. rewrite IH1. f_equal. unfold to32_edge, u32_to_usize_edge.
    cbn [fe_base fe_adj fe_weight fe_replaced_in fe_replaced_out fe32_base fe32_adj fe32_weight fe32_replaced_in fe32_replaced_out].
    rewrite A1, A2, A3, A4, A5. reflexivity.
  - cbn [map flat_map]. apply Forall_app. split; [exact B|exact IH2].
Qed.
Lemma from32_to32 c g fg : platform64 c -> fg32P g -> from_fast_graph32 c g = Ok fg -> to_fast_graph32 c fg = Ok g.
Proof.
  intros Hc (H1 & (H2 & _) & (H3 & _) & (H4 & _) & (H5 & _) & (H6 & _)) E. pose proof (p64 c Hc) as [Hu _].
  unfold from_fast_graph32, fg32_convert_to_usize in E.
  destruct (fg_new c (fg32_num_nodes g)) as [f| |] eqn:Ef; cbn [bind] in E; try discriminate. injection E as <-.
  assert (fg_num_nodes f = fg32_num_nodes g) as En.
  { unfold fg_new in Ef. destruct (_ <=? _); [|discriminate]. destruct (uadd c _ 1); cbn [bind] in Ef; try discriminate.
    destruct (_ <=? _); [|discriminate]. injection Ef as <-. reflexivity. }
  assert (fg32_num_nodes g <= u32_max) as Hn by (unfold u32P in H1; change (2 ^ 32) with (u32_max + 1) in H1; lia).
  destruct (to32_back_list c _ Hu H2) as [A2 B2]. destruct (to32_back_edges c _ Hu H3) as [A3 B3].
  destruct (to32_back_list c _ Hu H4) as [A4 B4]. destruct (to32_back_edges c _ Hu H5) as [A5 B5].
  destruct (to32_back_list c _ Hu H6) as [A6 B6].
  unfold to_fast_graph32. match goal with |- fg32_new _ c ?h = _ => set (fg' := h) end.
  assert (Forall (fit c) (ints fg')) as HF.
  { unfold ints, fg'. cbn [fg_num_nodes fg_ranks fg_edges_fwd fg_first_edge_ids_fwd fg_edges_bwd fg_first_edge_ids_bwd].
    rewrite En. constructor; [left; exact Hn|]. rewrite !Forall_app. auto. }
  match goal with |- fg32_new ?k _ _ = _ => change k with (S (S (Nat.pred (Nat.pred k)))) end.
  rewrite (proj1 (graph_conv _ c Hu fg') HF). f_equal. unfold to32_graph, fg'.
  cbn [fg_num_nodes fg_ranks fg_edges_fwd fg_first_edge_ids_fwd fg_edges_bwd fg_first_edge_ids_bwd].
  rewrite A2, A3, A4, A5, A6, En. replace (to32 c (fg32_num_nodes g)) with (fg32_num_nodes g).
  - destruct g. reflexivity.
  - unfold to32. destruct (N.eqb_spec (fg32_num_nodes g) (umax c)); [lia|reflexivity].
Qed.
Lemma C46_file_proof : forall c file fg, platform64 c -> (forall b, In b file -> b < 256) ->
  load_from_disk32 c file = Ok (inr fg) ->
  exists bytes extra, save_to_disk32 c fg = Ok bytes /\ file = bytes ++ extra.
Proof.
  intros c file fg Hc Hb E. unfold load_from_disk32, deserialize_32 in E.
  destruct (dec_fast_graph32 c file) as [g rest|] eqn:Ed; [|discriminate].
  destruct (from_fast_graph32 c g) as [fg'| |] eqn:Ef; cbn [bind] in E; try discriminate. injection E as ->.
  destruct (fg32_canon c file g rest (bytes_Forall _ Hb) Ed) as (Efile & HP & _ & _).
  exists (enc_fast_graph32 g), rest. split; [|exact Efile].
  unfold save_to_disk32, serialize_32. rewrite (from32_to32 c g fg Hc HP Ef). reflexivity.
Qed.
