(** Model of src/gosper.cc from the ratio t(m+1)/t(m) on: polynomials in m over the rational numbers
    are mathcomp's. GiNaC's quo is division of polynomials and its resultant the determinant of the
    Sylvester matrix (C58); general_gcd, convert_to_integer_polynomial, find_divisors and lsolve are
    parameters. Coefficients with parameters are left out. *)
From mathcomp Require Import all_ssreflect all_algebra.
Set Implicit Arguments.
Unset Strict Implicit.
Unset Printing Implicit Defensive.
Import GRing.Theory Num.Theory.
Local Open Scope ring_scope.

Notation QP := {poly rat}.
(** p.substitute(m, m + h). *)
Definition sub_shift (p : QP) (h : rat) : QP := p \Po ('X + h%:P).
(** GiNaC's degree, also of 0. *)
Definition deg (p : QP) : nat := (size p).-1.

Section Model.
Context (ggcd : QP -> QP -> QP) (is_integer_poly : QP -> bool) (int_poly : QP -> QP * rat) (find_divisors : nat -> option (seq nat)).
Context (lsolve : forall r c : nat, 'M[rat]_(r, c) -> 'rV[rat]_c -> option 'rV[rat]_r).

(** gosper.cc:89-107: Res_m(f(m), g(m+h)) as a polynomial in h, with integer coefficients without a
    common factor. *)
Definition res_h (f g : QP) : QP := resultant f^:P (poly_XaY g).
Definition primitive (p : QP) : {poly int} := let: existT q _ := rat_poly_scale p in zprimitive q.
(** GiNaC's tcoeff: the coefficient of the lowest power that occurs. *)
Definition tcoeff (q : {poly int}) : int := q`_(find (fun c => c != 0) q).
(** gosper.cc:107-133. The trailing coefficient is never 0, so that the loop of lines 114-121 is not
    entered; coefficients are numbers. *)
Definition integer_roots (f g : QP) : option (seq nat) :=
  let q := primitive (res_h f g) in
  match find_divisors `|tcoeff q|%N with
  | Some l => Some (sort leq [seq d <- rev l | q.[d%:Z] == 0])
  | None => None
  end.
(** gosper.cc:173-181: one root h. *)
Definition split_step (s : QP * QP * QP) (h : nat) : QP * QP * QP :=
  let: (a, b, c) := s in
  let s := ggcd a (sub_shift b h%:R) in
  (a %/ s, b %/ sub_shift s (- h%:R), c * \prod_(1 <= j < h.+1) sub_shift s (- j%:R)).
(** gosper.cc:164-182. *)
Definition split_roots (f g : QP) (roots : seq nat) : QP * QP * QP :=
  let: (a, b, c) := foldl split_step ((lead_coef f)^-1 *: f, (lead_coef g)^-1 *: g, 1) roots in
  ((lead_coef f / lead_coef g) *: a, b, c).
(** gosper.cc:183-198. *)
Definition integer_pair (a b : QP) : QP * QP :=
  let: (a, b) := if is_integer_poly a then (a, b) else let: (q, u) := int_poly a in ((numq u)%:~R *: q, (denq u)%:~R *: b) in
  if is_integer_poly b then (a, b) else let: (q, u) := int_poly b in ((denq u)%:~R *: a, (numq u)%:~R *: q).
(** gosper.cc:141-204. *)
Definition step_two (f g : QP) : option (QP * QP * QP) :=
  match integer_roots f g with
  | Some roots => let: (a, b, c) := split_roots f g roots in let: (a, b) := integer_pair a b in Some (a, b, c)
  | None => None
  end.

(** p.coeff(m, d - 1) for unsigned d: for d = 0 the index wraps around and the coefficient is 0. *)
Definition coeff_before (p : QP) (d : nat) : rat := if d is d'.+1 then p`_d' else 0.
(** gosper.cc:275-303. *)
Definition degree_x (a b c : QP) : option nat :=
  if (deg a != deg b) || (lead_coef a != lead_coef b) then
    if (deg b <= deg a)%N && (deg a <= deg c)%N then Some (deg c - deg a)%N
    else if (deg a < deg b)%N && (deg b <= deg c)%N then Some (deg c - deg b)%N else None
  else
    let A := coeff_before a (deg a) in
    let B := coeff_before (sub_shift b (-1)) (deg a) in
    let BA := (B - A) / lead_coef a in
    let possible : int := (deg c)%:Z - (deg a)%:Z + 1 in
    let possible := if (BA \is a Qnat) && (possible < numq BA) then numq BA else possible in
    if 0 <= possible then Some `|possible|%N else None.
(** gosper.cc:208-221: the numbers of unknown coefficients and of equations. *)
Definition equations (a b c : QP) (d : nat) : nat := maxn (d.+1 + maxn (deg a) (deg b)) (deg c).
(** gosper.cc:227-244: the coefficients of a(m) x(m+1) - b(m-1) x(m) for x = m^i and of c(m). *)
Definition key_row (a b : QP) (i : nat) : QP := a * sub_shift 'X^i 1 - sub_shift b (-1) * 'X^i.
Definition find_solution (a b c : QP) (d : nat) : option QP :=
  let N := equations a b c d in
  match lsolve (\matrix_(i < d.+1, j < N) (key_row a b i)`_j) (\row_(j < N) c`_j) with
  | Some u => Some (\sum_(i < d.+1) u 0 i *: 'X^i)
  | None => None
  end.
(** gosper.cc:272-310. *)
Definition step_three (a b c : QP) : option QP := if degree_x a b c is Some d then find_solution a b c d else None.
(** gosper.cc:363-391, from the ratio f/g on: [None]: returns false; [Some None]: the symbolic sum. *)
Definition gosper (f g : QP) : option (option (QP * QP * QP)) :=
  match step_two f g with
  | Some (a, b, c) => if step_three a b c is Some x then Some (Some (b, c, x)) else Some None
  | None => None
  end.
End Model.

(** gosper.cc:316-348, for upper = m + d: the value of the solution, as a function of m. The values
    t(m) of the term are in a field V that contains the rational numbers. *)
Section Four.
Context (V : fieldType) (phi : {rmorphism rat -> V}).
Definition z_value (b c x : QP) (t : int -> V) (m : int) : V := phi ((sub_shift b (-1)).[m%:~R] * x.[m%:~R]) * t m / phi c.[m%:~R].
Definition step_four (b c x : QP) (t : int -> V) (lower d : int) (m : int) : V :=
  let solution m := z_value b c x t m - z_value b c x t lower in
  if d == -1 then solution m else if d == 0 then solution (m + 1) else solution (m + d + 1).
End Four.
