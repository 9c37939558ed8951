(** Vocabulary for C30. *)
From Coq Require Import ZArith QArith Qcanon Reals List String.
From Verif Require Import Ast.
Import ListNotations.
Local Open Scope R_scope.

Section Spec.
Context (I : interp) (rho : string -> R).
(** The value of [e] at n. *)
Definition value_at (n : Z) (e : expr) : option R := eval I (upd rho "n" (IZR n)) e.
(** Non-negative and non-decreasing from [c] on, where it has values. *)
Definition nnd (c : Z) (e : expr) : Prop := forall n v w, (c <= n)%Z -> value_at n e = Some v -> value_at (n + 1) e = Some w -> 0 <= v <= w.
(** base^n e(n) is non-negative and non-decreasing from [c] on. *)
Definition nnd_exp (base : Qc) (c : Z) (e : expr) : Prop := forall n v w, (c <= n)%Z -> value_at n e = Some v -> value_at (n + 1) e = Some w ->
  0 <= powerRZ (rv base) n * v <= powerRZ (rv base) (n + 1) * w.
(** The numbers and constants in [e] are non-negative; its powers and functions that do not depend on
    n, and its logarithms, are non-negative and non-decreasing; the bases of powers with variable
    exponent are at least 1. *)
Fixpoint benign (c : Z) (e : expr) : Prop :=
  match e with
  | Num q => 0 <= rv q
  | Cst s => 0 <= icst I s
  | Sym _ => True
  | Pow a b => if has "n" e then benign c a /\ benign c b /\ (has "n" b = true -> forall n v, (c <= n)%Z -> value_at n a = Some v -> 1 <= v)
               else nnd c e
  | Fun _ _ => nnd c e
  | Add l | Mul l => fold_right (fun a P => benign c a /\ P) True l
  | SumE _ _ _ _ | ProdE _ _ _ _ => True
  end.
End Spec.
