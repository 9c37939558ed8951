(** Vocabulary for C70. *)
From Coq Require Import ZArith QArith Qcanon Reals List String.
From Verif Require Import Ast ExprModel.
Import ListNotations.
Local Open Scope list_scope.

(** The sequence x(r), x(d+r), x(2d+r), ... *)
Definition every (d r0 : nat) (x : nat -> R) (k : nat) : R := x (d * k + r0)%nat.
(** The argument of x() is n - c with c a multiple of d. *)
Definition decrement_ok (d : nat) (a : expr) : Prop :=
  exists c : Z, a = Add [Sym "n"; Num (zq (Z.of_nat d * c))] \/ a = Add [Num (zq (Z.of_nat d * c)); Sym "n"].
(** n and x() occur in [e] only as operands of powers and functions, not in sums or products; r does not occur, n and r are no indices. *)
Fixpoint direct (r : string) (d : nat) (e : expr) : Prop :=
  match e with
  | Num _ | Cst _ => True
  | Sym s => s <> r
  | Add _ | Mul _ => has "n" e = false /\ has r e = false /\ has_x_function e = false
  | Pow a b => direct r d a /\ direct r d b
  | Fun FX l => exists a, l = [a] /\ decrement_ok d a
  | Fun _ l => fold_right (fun a P => direct r d a /\ P) True l
  | SumE k lo up b | ProdE k lo up b => k <> "n"%string /\ k <> r /\ direct r d lo /\ direct r d up /\ direct r d b
  end.
(** A term: a product of such factors. *)
Definition direct_term (r : string) (d : nat) (t : expr) : Prop :=
  match t with Mul l => Forall (direct r d) l | _ => direct r d t end.
Definition terms (rhs : expr) : list expr := match rhs with Add l => l | _ => [rhs] end.
(** The sequence put together from its parts y(0), ..., y(d-1). *)
Definition interleave (d : nat) (y : nat -> nat -> R) (n : nat) : R := y (n mod d)%nat (n / d)%nat.
