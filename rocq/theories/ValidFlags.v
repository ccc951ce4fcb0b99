(** * ValidFlags: model of valid_flags.rs *)
From Verif Require Export Base.

(** std::u32::MAX *)
Definition u32_max : N := 4294967295.

(** valid_flags.rs:26-29 *)
Record ValidFlags := mkValidFlags { vf_flags : list N; vf_flag : N }.

(** valid_flags.rs:32-37, ValidFlags::new *)
Definition vf_new (num_nodes : N) : ValidFlags :=
  mkValidFlags (vec_repeat 0 num_nodes) 1.

(** valid_flags.rs:39-41, ValidFlags::is_valid *)
Definition vf_is_valid (f : ValidFlags) (node : N) : res bool :=
  x <- idx (vf_flags f) node ;;
  Ok (x =? vf_flag f).

(** valid_flags.rs:43-45, ValidFlags::set_valid *)
Definition vf_set_valid (f : ValidFlags) (node : N) : res ValidFlags :=
  fl <- upd (vf_flags f) node (vf_flag f) ;;
  Ok (mkValidFlags fl (vf_flag f)).

(** valid_flags.rs:47-54, ValidFlags::invalidate_all.  The increment cannot
    overflow because of the preceding test. *)
Definition vf_invalidate_all (f : ValidFlags) : ValidFlags :=
  if vf_flag f =? u32_max
  then mkValidFlags (vec_repeat 0 (lenN (vf_flags f))) 1
  else mkValidFlags (vf_flags f) (vf_flag f + 1).

(** ** Call histories *)

(** A call that changes the flags. *)
Inductive vf_op := VfSet (node : N) | VfReset.
(** Dispatches to the methods above. *)
Definition vf_step (f : ValidFlags) (o : vf_op) : res ValidFlags :=
  match o with
  | VfSet v => vf_set_valid f v
  | VfReset => Ok (vf_invalidate_all f)
  end.
