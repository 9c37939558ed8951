(** Vocabulary for C43 and C44. *)
From mathcomp Require Import all_ssreflect all_algebra.
Set Implicit Arguments.
Unset Strict Implicit.
Unset Printing Implicit Defensive.
Import GRing.Theory Num.Theory.
Local Open Scope ring_scope.

(** Contracts of the parameters of the model. *)
Definition gcd_ok (ggcd : {poly rat} -> {poly rat} -> {poly rat}) : Prop := forall p q, ggcd p q %= gcdp p q.
Definition int_poly_ok (int_poly : {poly rat} -> {poly rat} * rat) : Prop := forall p, p != 0 -> (int_poly p).2 != 0 /\ p = (int_poly p).2 *: (int_poly p).1.
Definition divisors_ok (find_divisors : nat -> option (seq nat)) : Prop := forall n l, (0 < n)%N -> find_divisors n = Some l -> forall d, (d \in l) = (d %| n)%N.
Definition lsolve_ok (lsolve : forall r c : nat, 'M[rat]_(r, c) -> 'rV[rat]_c -> option 'rV[rat]_r) : Prop := forall r c (M : 'M_(r, c)) v,
  match lsolve r c M v with Some u => u *m M = v | None => forall u, u *m M <> v end.
(** p(m + h) *)
Definition shift (p : {poly rat}) (h : rat) : {poly rat} := p \Po ('X + h%:P).
(** a(m) x(m+1) - b(m-1) x(m) = c(m) *)
Definition key_equation (a b c x : {poly rat}) : Prop := a * shift x 1 - shift b (-1) * x = c.
(** p and q have no common factor, whichever natural number p is shifted by. *)
Definition dispersed (p q : {poly rat}) : Prop := forall h : nat, coprimep p (shift q h%:R).
(** t(lo) + ... + t(lo + n - 1) *)
Definition sum_from (V : zmodType) (t : int -> V) (lo : int) (n : nat) : V := \sum_(i < n) t (lo + i%:Z).
