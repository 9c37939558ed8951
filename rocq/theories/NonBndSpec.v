(** Vocabulary for C72. *)
From Coq Require Import Reals Arith.
Local Open Scope R_scope.

(** x(n) = g(n) x(floor(n/b))^a for n >= b, with initial values x(1), ..., x(b-1) in [lo, hi]. *)
Definition power_equation (a : R) (b : nat) (g : nat -> R) (x : nat -> R) : Prop :=
  forall n, (b <= n)%nat -> x n = g n * Rpower (x (n / b)%nat) a.
Definition initial_values (b : nat) (P : R -> Prop) (x : nat -> R) : Prop := forall i, (1 <= i < b)%nat -> P (x i).
(** A solution for given initial values. *)
Fixpoint pe_aux (fuel : nat) (a : R) (b : nat) (g x0 : nat -> R) (n : nat) : R :=
  match fuel with
  | O => x0 n
  | S fuel => if (n <? b)%nat then x0 n else g n * Rpower (pe_aux fuel a b g x0 (n / b)%nat) a
  end.
Definition pe_solution (a : R) (b : nat) (g x0 : nat -> R) (n : nat) : R := pe_aux n a b g x0 n.
(** The logarithms to base a of the positive function g are the sum of the addends. *)
Definition positive_function (b : nat) (g : nat -> R) : Prop := forall n, (b <= n)%nat -> 0 < g n.
