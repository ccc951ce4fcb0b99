(** * SpecSerial: which values can be saved, and what a file that was cut off is *)
From Verif Require Export Spec32 Serial.
Open Scope N_scope.

(** Platforms Rust supports: usize has at most 64 bits. *)
Definition platform (c : cfg) : Prop := umax c < 2 ^ 64.

(** The lengths of the vectors fit into usize. *)
Definition vectors_fit (c : cfg) (fg : FastGraph) : Prop :=
  lenN (fg_ranks fg) <= umax c /\ lenN (fg_edges_fwd fg) <= umax c /\
  lenN (fg_first_edge_ids_fwd fg) <= umax c /\ lenN (fg_edges_bwd fg) <= umax c /\
  lenN (fg_first_edge_ids_bwd fg) <= umax c.

(** A value that can exist on the platform: every integer and every length fits into usize. *)
Definition representable (c : cfg) (fg : FastGraph) : Prop :=
  (forall x, In x (ints fg) -> x <= umax c) /\ vectors_fit c fg.

(** [piece] is what is left of [file] if writing stopped before its last byte. *)
Definition cut (file piece : list N) : Prop := exists missing, missing <> [] /\ file = piece ++ missing.
