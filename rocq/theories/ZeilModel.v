(** Model of src/zeilberger.cc. Polynomials in k are mathcomp's, with coefficients in any field K: the rational functions of m, or numbers for a
    fixed m. The ratios F(m, k+1)/F(m, k) = r_1/r_2 and F(m, k)/F(m-1, k) = s_1/s_2 of step one are given (simplifications, the test
    is_rational_function and the change of signs of lines 92-98, 104-110 are left out). GiNaC's quo is division of polynomials; gcd, numerator_denominator and lsolve
    are parameters. *)
From mathcomp Require Import all_ssreflect all_algebra.
Set Implicit Arguments.
Unset Strict Implicit.
Unset Printing Implicit Defensive.
Import GRing.Theory Num.Theory.
Local Open Scope ring_scope.

Section Model.
Context (K : fieldType).
Notation P := {poly K}.
Context (ggcd : P -> P -> P) (numden : P -> P -> P * P) (lsolve : forall n c : nat, 'M[K]_(n, c) -> 'M[K]_n).
(** p.substitute(k, k + h). *)
Definition sub_shift (p : P) (h : K) : P := p \Po ('X + h%:P).
(** GiNaC's degree, also of 0. *)
Definition deg (p : P) : nat := (size p).-1.

(** zeilberger.cc:116-126: the polynomial that coefficients[j] is multiplied by in p_0_k; [s1 i] is s_1.substitute(m, m+i). *)
Definition p0_part (order : nat) (s1 s2 : nat -> P) (j : nat) : P := (\prod_(0 <= i < j) s1 (j - i)%N) * (\prod_(j.+1 <= i < order.+1) s2 i).
(** zeilberger.cc:128-137. *)
Definition r_k (order : nat) (s2 : nat -> P) (r1 : P) : P := r1 * \prod_(1 <= i < order.+1) s2 i.
Definition s_k (order : nat) (s2 : nat -> P) (r2 : P) : P := r2 * \prod_(1 <= i < order.+1) sub_shift (s2 i) 1.

(** zeilberger.cc:164-173: the step for h. *)
Definition split_step (st : P * P * P) (h : nat) : P * P * P :=
  let: (p2, p3, p1) := st in
  let s := ggcd p2 (sub_shift p3 h%:R) in
  (p2 %/ s, p3 %/ sub_shift s (- h%:R), p1 * \prod_(1 <= j < h.+1) sub_shift s (- j%:R)).
(** zeilberger.cc:150-244 parametric_gosper_step_two, for the ratio r/s. The condition of line 164 is about num and den, that do not change. *)
Definition step_two (r s : P) : P * P * P :=
  let: (num, den) := numden r s in
  foldl (fun st h => if (0 < deg (ggcd num den))%N then split_step st h else st) (num, den, 1) (iota 1 100).

(** zeilberger.cc:260-292. degc is the degree of p_m, whose coefficients contain the unknown symbols; A, B and B_A are not used. *)
Definition degree_x (p2 p3 : P) (degc : nat) : option nat :=
  if (deg p2 != deg p3) || (lead_coef p2 != lead_coef p3) then
    if (deg p3 <= deg p2)%N && (deg p2 <= degc)%N then Some (degc - deg p2)%N
    else if (deg p2 < deg p3)%N && (deg p3 <= degc)%N then Some (degc - deg p3)%N else None
  else if (deg p2 <= degc.+1)%N then Some (degc.+1 - deg p2)%N else None.
(** zeilberger.cc:302-311: the number of the unknowns A, B, ... *)
Definition unknowns (p2 p3 : P) (degc d : nat) : nat := maxn (d.+1 + maxn (deg p2) (deg p3)) degc.
(** zeilberger.cc:337-368: the coefficients of p2(k) b(k+1) - p3(k-1) b(k) - p(k); the unknown i is a coefficient of b for i <= d, and
    coefficients[j] for i = N + j. The number of equations is that of all unknowns. *)
Definition key_row (p2 p3 : P) (i : nat) : P := p2 * sub_shift 'X^i 1 - sub_shift p3 (-1) * 'X^i.
Definition system_row (p2 p3 : P) (ps : nat -> P) (d N i : nat) : P :=
  if (i <= d)%N then key_row p2 p3 i else if (i < N)%N then 0 else - ps (i - N)%N.
(** The value of the unknown i. *)
Definition entry (n : nat) (u : 'rV[K]_n) (i : nat) : K := if insub i is Some i' then u 0 i' else 0.
(** zeilberger.cc:249-413 parametric_gosper_step_three. Row i of [lsolve M] is the solution for which the unknown i is 1 and the other unknowns
    the solution leaves free are 0 (row i is 0 if the unknown i is not left free): all free unknowns get the value 1. The result is b and the
    values of the coefficients. *)
Definition step_three (order : nat) (p2 p3 : P) (ps : nat -> P) : option (P * (nat -> K)) :=
  let degc := \max_(j < order.+1) deg (ps j) in
  match degree_x p2 p3 degc with
  | Some d =>
    let N := unknowns p2 p3 degc d in
    let n := (N + order.+1)%N in
    let u : 'rV[K]_n := const_mx 1 *m lsolve (\matrix_(i < n, j < n) (system_row p2 p3 ps d N i)`_j) in
    let b := \sum_(i < d.+1) entry u i *: 'X^i in
    if b == 0 then None else Some (b, fun j => entry u (N + j))
  | None => None
  end.

(** zeilberger.cc:418-472 zeilberger_for_fixed_order up to the recurrence: b, the values of coefficients, p_1, p_2, p_3. *)
Definition for_order (order : nat) (s1 s2 : nat -> P) (r1 r2 : P) : option (P * (nat -> K) * (P * P * P)) :=
  let: (p2, p3, p1) := step_two (r_k order s2 r1) (s_k order s2 r2) in
  match step_three order p2 p3 (fun j => p0_part order s1 s2 j * p1) with
  | Some (b, a) => Some (b, a, (p1, p2, p3))
  | None => None
  end.
(** zeilberger.cc:480-488: the right-hand side of x(n) = ...; [None]: the assertion of line 487 fails. *)
Definition rhs (order : nat) (a : nat -> K) (x : nat -> K) : option K := if a 0%N == 0 then None else Some (- (\sum_(1 <= i < order.+1) a i * x i) / a 0%N).
End Model.
(** zeilberger.cc:498-507: the initial conditions are sums of F(m, k) for k from 0 to 10. *)
Definition initial_value (V : zmodType) (F : nat -> V) : V := \sum_(0 <= k < 11) F k.

(** zeilberger.cc:525-546 zeilberger_algorithm: the orders from 1 to 9; [fixed i] is zeilberger_for_fixed_order for order i. *)
Definition algorithm (R : Type) (fixed : nat -> option R) : option (nat * R) :=
  foldr (fun i later => if fixed i is Some r then Some (i, r) else later) None (iota 1 9).
