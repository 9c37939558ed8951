(** Specification vocabulary for linear recurrences: sequences are functions from Z to a
    field, indices below the initial ones are irrelevant. *)
From Coq Require Import ZArith List.
From Verif Require Import Fld.
Import ListNotations.

Section Spec.
Context {K : Fld}.
Local Open Scope fld_scope.

(** f lo + f (lo+1) + ... + f hi, zero if hi < lo. *)
Definition zsum (lo hi : Z) (f : Z -> K) : K :=
  bsum (Z.to_nat (hi - lo + 1)) (fun i => f (lo + Z.of_nat i)%Z).
(** f lo * ... * f hi, one if hi < lo. *)
Definition zprod (lo hi : Z) (f : Z -> K) : K :=
  bprod (Z.to_nat (hi - lo + 1)) (fun i => f (lo + Z.of_nat i)%Z).

(** a_1 x(n-1) + ... + a_k x(n-k) for a = [a_1; ...; a_k]. *)
Definition lincomb (a : list K) (x : Z -> K) (n : Z) : K :=
  bsum (length a) (fun j => nth j a 0 * x (n - 1 - Z.of_nat j)%Z).

(** [x] satisfies x(n) = a_1 x(n-1) + ... + a_k x(n-k) + p(n) for all n >= start. *)
Definition satisfies (a : list K) (p x : Z -> K) (start : Z) : Prop :=
  forall n, (start <= n)%Z -> x n = lincomb a x n + p n.

(** [x] is the solution with initial values [ic] at the [k] indices f, ..., f+k-1. *)
Definition solves (a : list K) (p : Z -> K) (f : Z) (ic x : Z -> K) : Prop :=
  (forall i, (f <= i < f + Z.of_nat (length a))%Z -> x i = ic i) /\
  satisfies a p x (f + Z.of_nat (length a)).
End Spec.
