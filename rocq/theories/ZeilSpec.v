(** Vocabulary for C68 and C69. *)
From mathcomp Require Import all_ssreflect all_algebra.
Set Implicit Arguments.
Unset Strict Implicit.
Unset Printing Implicit Defensive.
Import GRing.Theory Num.Theory.
Local Open Scope ring_scope.

Section Spec.
Context (K : fieldType).
Implicit Types (p q r s : {poly K}).
(** p(k + h) *)
Definition shift p (h : K) : {poly K} := p \Po ('X + h%:P).
(** Contracts of the parameters of the model: a greatest common divisor, a fraction equal to r/s, and a basis of the solutions of a system: every row
    is a solution, and every solution is the combination of the rows with the solution's own entries. *)
Definition gcd_ok (ggcd : {poly K} -> {poly K} -> {poly K}) : Prop := forall p q, ggcd p q %= gcdp p q.
Definition fraction_ok (numden : {poly K} -> {poly K} -> {poly K} * {poly K}) : Prop := forall r s, s != 0 -> (numden r s).2 != 0 /\ (numden r s).1 * s = (numden r s).2 * r.
Definition lsolve_ok (lsolve : forall n c : nat, 'M[K]_(n, c) -> 'M[K]_n) : Prop := forall n c (M : 'M_(n, c)),
  lsolve n c M *m M = 0 /\ forall v : 'rV_n, v *m M = 0 -> v = v *m lsolve n c M.
End Spec.

Section Terms.
Context (K V : fieldType) (phi : {rmorphism K -> V}) (order : nat) (s1 s2 : nat -> {poly K}) (r1 r2 : {poly K}).
(** F j k is the value of F(m+j, k). The ratios F(m+j, k)/F(m+j-1, k) = s1_j(k)/s2_j(k) for j from 1 to the order, and F(m, k+1)/F(m, k) = r1(k)/r2(k). *)
Definition ratio_in_m (F : nat -> int -> V) (k : int) : Prop := forall j : nat, (0 < j <= order)%N -> F j k * phi (s2 j).[k%:~R] = F j.-1 k * phi (s1 j).[k%:~R].
Definition ratio_in_k (F : nat -> int -> V) (k : int) : Prop := F 0%N (k + 1) * phi r2.[k%:~R] = F 0%N k * phi r1.[k%:~R].
Definition regular (k : int) : Prop := forall j : nat, (0 < j <= order)%N -> (s2 j).[k%:~R] != 0.
End Terms.
(** f(lo) + ... + f(lo + n - 1) *)
Definition sum_from (V : zmodType) (f : int -> V) (lo : int) (n : nat) : V := \sum_(i < n) f (lo + i%:Z).
(** a_0 F(m, k) + ... + a_J F(m+J, k) *)
Definition combination (K V : fieldType) (phi : {rmorphism K -> V}) (order : nat) (a : nat -> K) (F : nat -> V) : V := \sum_(0 <= j < order.+1) phi (a j) * F j.
