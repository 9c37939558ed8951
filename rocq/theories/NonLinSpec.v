(** Specification for non-linear recurrences. *)
From Coq Require Import ZArith QArith Qcanon Reals List String.
From Verif Require Import Ast SeqInterp.
Import ListNotations.
Local Open Scope R_scope.

(** log, exp and x(.) as they should be: x(.) is given by the sequence only. *)
Definition log_exp_interp (I : interp) : Prop :=
  (forall v, 0 < v -> ifun I FLog [v] = Some (ln v)) /\ (forall v, ifun I FExp [v] = Some (exp v)) /\ (forall l, ifun I FX l = None).
(** A rewriting that preserves the values of expressions containing x(.). *)
Definition preserves_x (I : interp) (simp : expr -> expr) : Prop := forall x e, refines (with_x I x) e (simp e).
(** [s] is the general solution of the recurrence rhs of order [k]: for any values z(0), ...,
    z(k-1) of the symbolic initial conditions x(0), ..., x(k-1). *)
Definition general_solution (I : interp) (rho : string -> R) (k : nat) (rhs s : expr) (P : (nat -> R) -> Prop) : Prop :=
  forall z, P z -> exists y,
   (forall n, eval (with_x I z) (upd rho "n" (INR n)) s = Some (y n)) /\
   (forall i, (i < k)%nat -> y i = z i) /\ P y /\ solves_from I rho k rhs y.
Definition positive (x : nat -> R) : Prop := forall n, 0 < x n.
Definition any_seq (x : nat -> R) : Prop := True.
(** No x(.) below another one (classified as malformed otherwise). *)
Fixpoint x_inside (e : expr) : Prop :=
  match e with
  | Add l | Mul l => fold_right (fun a P => x_inside a \/ P) False l
  | Pow a b => x_inside a \/ x_inside b
  | Fun FX _ => True
  | Fun _ l => fold_right (fun a P => x_inside a \/ P) False l
  | SumE _ lo up e | ProdE _ lo up e => x_inside lo \/ x_inside up \/ x_inside e
  | _ => False
  end.
Fixpoint not_nested (e : expr) : Prop :=
  match e with
  | Add l | Mul l => fold_right (fun a P => not_nested a /\ P) True l
  | Pow a b => not_nested a /\ not_nested b
  | Fun FX l => fold_right (fun a P => ~ x_inside a /\ P) True l
  | Fun _ l => fold_right (fun a P => not_nested a /\ P) True l
  | SumE _ lo up e | ProdE _ lo up e => not_nested lo /\ not_nested up /\ not_nested e
  | _ => True
  end.
(** [e] is a product all of whose factors are positive numbers, for every sequence x and n >= k. *)
Definition positive_product (I : interp) (rho : string -> R) (k : nat) (e : expr) : Prop :=
  forall x n, (k <= n)%nat -> exists l, e = Mul l /\ Forall (fun f => exists v, 0 < v /\ eval (with_x I x) (upd rho "n" (INR n)) f = Some v) l.
(** The right-hand side has a value for all positive sequences and n >= k. *)
Definition defined_on_positive (I : interp) (rho : string -> R) (k : nat) (e : expr) : Prop :=
  forall x n, positive x -> (k <= n)%nat -> exists v, eval (with_x I x) (upd rho "n" (INR n)) e = Some v.
