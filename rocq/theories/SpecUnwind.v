(** * SpecUnwind: histories of calls where some calls panic *)
From Verif Require Export SpecApi Unwind.

(** The calls that returned, given all calls and their results. *)
Fixpoint returned (ops : list ig_op) (outs : list (res ig_out)) : list ig_op :=
  match ops, outs with
  | o :: ops', Ok _ :: outs' => o :: returned ops' outs'
  | _ :: ops', _ :: outs' => returned ops' outs'
  | _, _ => []
  end.
