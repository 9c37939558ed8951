(** Right-hand sides of recurrences as equations on sequences of real numbers. *)
From Coq Require Import ZArith Reals List String Bool.
From Verif Require Import Ast.
Import ListNotations.

(** The function x(.) is read as the sequence [x] on the natural numbers, undefined elsewhere. *)
Definition with_x (I : interp) (x : nat -> R) : interp := MkI (icst I) (fun f l =>
  match f, l with
  | FX, [v] => match as_int v with Some z => if (0 <=? z)%Z then Some (x (Z.to_nat z)) else None | None => None end
  | _, _ => ifun I f l
  end).
(** x(n) = rhs holds at the index [n]; "n" is the symbol Recurrence::n. *)
Definition holds_at (I : interp) (rho : string -> R) (rhs : expr) (x : nat -> R) (n : nat) : Prop :=
  eval (with_x I x) (upd rho "n" (INR n)) rhs = Some (x n).
(** ... for every index from [k] on. *)
Definition solves_from (I : interp) (rho : string -> R) (k : nat) (rhs : expr) (x : nat -> R) : Prop :=
  forall n, (k <= n)%nat -> holds_at I rho rhs x n.
(** The expression [e] (in which x(.) does not occur) has the values [y] at n = 0, 1, ... *)
Definition denotes (I : interp) (rho : string -> R) (e : expr) (y : nat -> R) : Prop :=
  forall n, eval I (upd rho "n" (INR n)) e = Some (y n).
