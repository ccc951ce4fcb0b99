(** * Base: configuration, error monad, vectors, machine integers.

    Common vocabulary of the model: how Rust's [usize] arithmetic, panics, [Vec]
    indexing and [for] loops are rendered in Gallina. *)
From Coq Require Export NArith String List Bool.
Export ListNotations.
Open Scope N_scope.

(** The compilation target and profile.
    - [umax] is [std::usize::MAX] (2^64-1 or 2^32-1);
    - [debug_build] is true for builds with overflow checks and debug assertions
      (cargo's dev/test profile), false for release builds, where arithmetic wraps.
    Simplification: overflow checks and debug assertions are switched together. *)
Record cfg := mkCfg { umax : N; debug_build : bool }.

(** Why a panic happened.  [POverflow]: "attempt to add with overflow";
    [PCapacity]: Vec "capacity overflow"; [PIndex]: index out of bounds;
    [PUnwrap]: [Option::unwrap]/[Result::unwrap] on None/Err; [PAssert]: a failed
    [assert!]/[assert_eq!]/[assert_ne!]; [PExplicit]: an explicit [panic!]. *)
Inductive panic_reason :=
| POverflow
| PCapacity
| PIndex
| PUnwrap
| PAssert (msg : string)
| PExplicit (msg : string).

(** Result of running a Rust function that may panic.  [Diverge] is the value of
    a loop whose fuel is exhausted. *)
Inductive res (A : Type) :=
| Ok (a : A)
| Panic (r : panic_reason)
| Diverge.
Arguments Ok {A} a.
Arguments Panic {A} r.
Arguments Diverge {A}.

Definition bind {A B} (m : res A) (k : A -> res B) : res B :=
  match m with
  | Ok a => k a
  | Panic r => Panic r
  | Diverge => Diverge
  end.

Notation "x <- m ;; k" := (bind m (fun x => k))
  (at level 61, m at next level, right associativity).
Notation "' p <- m ;; k" := (bind m (fun p => k))
  (at level 61, p pattern, m at next level, right associativity).

(** constants.rs:24-27.  All three sentinels are [std::usize::MAX]. *)
Definition INVALID_NODE (c : cfg) : N := umax c.
Definition INVALID_EDGE (c : cfg) : N := umax c.
Definition WEIGHT_MAX (c : cfg) : N := umax c.
Definition WEIGHT_ZERO : N := 0.

(** [a + b] on [usize]: panics in builds with overflow checks, wraps otherwise. *)
Definition uadd (c : cfg) (a b : N) : res N :=
  if a + b <=? umax c then Ok (a + b)
  else if debug_build c then Panic POverflow
  else Ok ((a + b) mod (umax c + 1)).

Definition lenN {A} (l : list A) : N := N.of_nat (List.length l).

(** [l.get(i)] *)
Fixpoint getN {A} (l : list A) (i : N) : option A :=
  match l with
  | [] => None
  | x :: t => if i =? 0 then Some x else getN t (N.pred i)
  end.

(** functional update of position [i]; unchanged if out of bounds *)
Fixpoint setN {A} (l : list A) (i : N) (y : A) : list A :=
  match l with
  | [] => []
  | x :: t => if i =? 0 then y :: t else x :: setN t (N.pred i) y
  end.

(** [l[i]] *)
Definition idx {A} (l : list A) (i : N) : res A :=
  match getN l i with
  | Some a => Ok a
  | None => Panic PIndex
  end.

(** [l[i] = y] *)
Definition upd {A} (l : list A) (i : N) (y : A) : res (list A) :=
  if i <? lenN l then Ok (setN l i y) else Panic PIndex.

(** [Vec::push].  A Vec never holds more than isize::MAX bytes: growing beyond
    that panics with "capacity overflow".  Simplification: the limit is taken to
    be isize::MAX elements, whatever the element size (the real limit is lower, or
    memory is exhausted before). *)
Definition vpush {A} (c : cfg) (l : list A) (x : A) : res (list A) :=
  if lenN l <? umax c / 2 then Ok (l ++ [x]) else Panic PCapacity.

(** [b..e] *)
Fixpoint range_from (k : nat) (b : N) : list N :=
  match k with
  | O => []
  | S k' => b :: range_from k' (b + 1)
  end.
Definition rangeN (b e : N) : list N := range_from (N.to_nat (e - b)) b.

(** [for a in l { s = f(s, a)? }] *)
Fixpoint foldM {S A} (f : S -> A -> res S) (l : list A) (s : S) : res S :=
  match l with
  | [] => Ok s
  | a :: r => s' <- f s a ;; foldM f r s'
  end.

(** The number of rounds granted to a loop.  A unary number whose predecessors are computed on demand,
    so that a loop may be granted 2^64 rounds and more. *)
Inductive fuel :=
| FO
| FS (rest : unit -> fuel).

(** [p] rounds more than [rest] *)
Fixpoint fuel_pos (p : positive) (rest : unit -> fuel) : fuel :=
  match p with
  | xH => FS rest
  | xO q => fuel_pos q (fun _ => fuel_pos q rest)
  | xI q => FS (fun _ => fuel_pos q (fun _ => fuel_pos q rest))
  end.
Definition fuel_of (n : N) : fuel :=
  match n with
  | 0 => FO
  | Npos p => fuel_pos p (fun _ => FO)
  end.

(** [vec![x; n]] *)
Definition vec_repeat {A} (x : A) (n : N) : list A := List.repeat x (N.to_nat n).

(** [assert!(b, msg)] *)
Definition assert (b : bool) (msg : string) : res unit :=
  if b then Ok tt else Panic (PAssert msg).
