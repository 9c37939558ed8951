(** Vocabulary for C77. *)
From Coq Require Import ZArith QArith Qcanon Reals List String Bool.
From Verif Require Import Ast ExprModel ExprSpec SeqInterp VerifySpec NonLinSpec.
Import ListNotations.
Local Open Scope R_scope.

(** x(.) occurs only as x(f), ..., x(f+k-1). *)
Fixpoint only_conditions (f k : nat) (e : expr) : Prop :=
  match e with
  | Add l | Mul l => fold_right (fun a P => only_conditions f k a /\ P) True l
  | Pow a b => only_conditions f k a /\ only_conditions f k b
  | Fun FX l => exists j, (f <= j < f + k)%nat /\ l = [Num (zq (Z.of_nat j))]
  | Fun _ l => fold_right (fun a P => only_conditions f k a /\ P) True l
  | SumE _ lo up e | ProdE _ lo up e => only_conditions f k lo /\ only_conditions f k up /\ only_conditions f k e
  | _ => True
  end.
(** A simplification that moves no x(.) into sums and products. *)
Definition keeps_outside (f : expr -> expr) : Prop := forall e, x_outside e = true -> x_outside (f e) = true.
(** The first value is positive. *)
Definition positive_start (z : nat -> R) : Prop := 0 < z 0%nat.
