(** Model of convert_to_integer_polynomial and general_gcd (src/util.cc): polynomials in x over the
    rational numbers are mathcomp's. *)
From mathcomp Require Import all_ssreflect all_algebra.
Set Implicit Arguments.
Unset Strict Implicit.
Unset Printing Implicit Defensive.
Import GRing.Theory Num.Theory.
Local Open Scope ring_scope.

(** util.cc:281-286: the least common multiple of the denominators of the coefficients. GiNaC's denominators are positive. *)
Definition t_lcm (p : {poly rat}) : nat :=
  foldl (fun t i => lcmn t `|denq p`_i|) `|denq p`_(size p).-1|%N (iota 0 (size p).-1.+1).
(** (p * t_lcm).expand(), whose coefficients are integers. *)
Definition scaled (p : {poly rat}) : {poly int} := \poly_(i < size p) numq (p`_i * (t_lcm p)%:R).
(** util.cc:276-288 convert_to_integer_polynomial; GiNaC's primpart divides by the greatest common divisor of the
    coefficients and by the sign of the leading one. *)
Definition convert (p : {poly rat}) : {poly int} := zprimitive (scaled p).
(** util.cc:295-311: the version that also returns the factor; [None]: a division by zero is thrown. *)
Definition convert_with_factor (p : {poly rat}) : option ({poly int} * rat) :=
  let q := convert p in
  if lead_coef q == 0 then None else Some (q, lead_coef p / (lead_coef q)%:~R).
(** util.cc:75-80 general_gcd, with GiNaC's gcd on polynomials with integer coefficients. *)
Definition general_gcd (zgcd : {poly int} -> {poly int} -> {poly int}) (p q : {poly rat}) : {poly rat} :=
  map_poly intr (zgcd (convert p) (convert q)).
