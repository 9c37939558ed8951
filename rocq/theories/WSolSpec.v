(** Vocabulary for C83. *)
From Coq Require Import ZArith QArith Qcanon Reals List String Bool.
From Verif Require Import Ast ExprModel ExprSpec SeqInterp ElimSpec VerifySpec WClassSpec CSolSpec.
Import ListNotations.
Local Open Scope R_scope.

(** At every index n > lo the right-hand side is F(n) s + H(n), where s is the sum; F and H come from terms and factors free of x. *)
Definition parts_from (I : interp) (rho : string -> R) (s rhs : expr) (lo : nat) (F H : nat -> R) : Prop :=
  forall x n, (lo < n)%nat -> has_parts (with_x I x) (upd rho "n" (INR n)) s rhs (F n) (H n).
(** [sol] is the solution of the first order recurrence [rhs] in terms of x(f). *)
Definition general_solution (I : interp) (rho : string -> R) (rhs : expr) (f : nat) (sol : expr) : Prop :=
  (forall x, exists y, solution_with I rho rhs f 1 x y) /\
  forall x y, solution_with I rho rhs f 1 x y -> forall n, (f <= n)%nat -> at_n I rho x n sol = Some (y n).
(** x occurs in [e] only as [t], where [r] can be put in its place. *)
Fixpoint x_only_as (t r e : expr) : Prop :=
  match e with
  | Add l | Mul l => fold_right (fun a P => x_only_as t r a /\ P) True l
  | Pow a b => x_only_as t r a /\ x_only_as t r b
  | Fun FX l => Fun FX l = t
  | Fun _ l => fold_right (fun a P => x_only_as t r a /\ P) True l
  | SumE k lo up e | ProdE k lo up e => has k r = false /\ x_only_as t r lo /\ x_only_as t r up /\ x_only_as t r e
  | _ => True
  end.
