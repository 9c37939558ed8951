(** Vocabulary for C74. *)
From mathcomp Require Import all_ssreflect all_algebra.
Set Implicit Arguments.
Unset Strict Implicit.
Unset Printing Implicit Defensive.
Import GRing.Theory Num.Theory.
Local Open Scope ring_scope.

(** No common factor of the coefficients, positive leading coefficient. *)
Definition primitive_poly (q : {poly int}) : Prop := 0 < lead_coef q /\ forall d : int, (forall i, (d %| q`_i)%Z) -> `|d| = 1.
(** q with rational coefficients. *)
Definition over_rat (q : {poly int}) : {poly rat} := map_poly intr q.
(** d is a greatest common divisor of f and g among the polynomials with integer coefficients. *)
Definition divides (d f : {poly int}) : Prop := exists u, f = d * u.
Definition is_gcd (f g d : {poly int}) : Prop := divides d f /\ divides d g /\ forall e, divides e f -> divides e g -> divides e d.
