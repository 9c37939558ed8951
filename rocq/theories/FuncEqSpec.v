(** Vocabulary for C28, C29. *)
From Coq Require Import Reals List Arith.
From Verif Require Import FuncEqModel.
Import ListNotations.
Local Open Scope R_scope.

(** The value of an addend at n, and of their sum. *)
Definition addend_at (g : addend) (n : nat) : R :=
  match g with
  | Mono a k => a * Rpower (INR n) k
  | Logn a k => a * (Rpower (INR n) k * ln (INR n))
  | Expn a base => a * Rpower base (INR n)
  end.
Definition inhomogeneous (gs : list addend) (n : nat) : R := fold_right (fun g acc => addend_at g n + acc) 0 gs.
(** x(n) = a x(floor(n/b)) + g(n) for all n >= b, with initial values x(1), ..., x(b-1) >= 0:
    set_initial_conditions refuses the others (Recurrence.cc:199-238). *)
Definition divide_and_conquer (a : R) (b : nat) (g : nat -> R) (x : nat -> R) : Prop :=
  (forall n, (b <= n)%nat -> x n = a * x (n / b)%nat + g n) /\ forall i, (1 <= i < b)%nat -> 0 <= x i.
(** A solution for given initial values. *)
Fixpoint dc_aux (fuel : nat) (a : R) (b : nat) (g x0 : nat -> R) (n : nat) : R :=
  match fuel with
  | O => x0 n
  | S fuel => if (n <? b)%nat then x0 n else a * dc_aux fuel a b g x0 (n / b)%nat + g n
  end.
Definition dc_solution (a : R) (b : nat) (g x0 : nat -> R) (n : nat) : R := dc_aux n a b g x0 n.

Definition coef (g : addend) : R := match g with Mono a _ | Logn a _ | Expn a _ => a end.
(** n^k and n^k log(n) with k >= 0, c^n with c > 1. *)
Definition increasing (g : addend) : Prop := match g with Mono _ k | Logn _ k => 0 <= k | Expn _ c => 1 < c end.
(** The cases in which the lower bounds for n^k are right. *)
Definition lower_right (a : R) (b n : nat) (k : R) : Prop :=
  let bk := Rpower (INR b) k in
  let bk1 := Rpower (INR b) (k - 1) in
  k = 0
  \/ (0 < k < 1 /\ a <> bk /\ (a < bk \/ (b <= n)%nat) /\ (a <= 1 \/ a * a <= bk * bk * (a - 1)))
  \/ (1 <= k /\ (a = bk1 \/ ((b <= n)%nat /\ bk1 < a <= bk))).
Definition lower_right_for (a : R) (b n : nat) (g : addend) : Prop :=
  match g with Mono _ k => lower_right a b n k | Logn _ _ => True | Expn _ _ => (b <= n)%nat end.
