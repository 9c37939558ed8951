(** Model of the bounds for x(n) = a x(n/b) + g(n) (src/compute_bounds.cc): expressions are
    represented by their real values at [n].  The divisor is an integer >= 2: the others are refused
    (known_class_of_functional_eq_rank_1, compute_bounds.cc:709-715), so the branches for
    non-integer divisors cannot be reached.  compare() is exact. *)
From Coq Require Import Reals List Arith Bool.
Import ListNotations.
Local Open Scope R_scope.

Inductive bound_type := LOWER_BOUND | UPPER_BOUND.
(** compute_bounds.cc:291-293 swap_type. *)
Definition swap_type (t : bound_type) : bound_type := match t with LOWER_BOUND => UPPER_BOUND | UPPER_BOUND => LOWER_BOUND end.

Definition Rltb (a b : R) : bool := if Rlt_dec a b then true else false.
Definition Reqb (a b : R) : bool := if Req_EM_T a b then true else false.

Section Bounds.
(** coefficient, divisor, and the value of n *)
Context (coeff divisor n : R).
Definition frac_log : R := ln n / ln divisor.
Definition pow_frac_log : R := Rpower n (ln coeff / ln divisor).

(** compute_bounds.cc:90-203 compute_bounds_for_power_of_n, with mu_b = c_b = lambda_b = 1. *)
Definition power_of_n (type : bound_type) (k : R) : option R :=
  let pow_div_k := Rpower divisor k in
  let pow_n_k := Rpower n k in
  match type with
  | LOWER_BOUND =>
    if Reqb k 0 then
      if Reqb coeff 1 then Some (frac_log - 1)
      else Some ((1 - pow_frac_log * Rpower coeff (-1)) / (1 - coeff))
    else if Rltb k 1 then
      if Rltb coeff pow_div_k then
        Some (pow_n_k * pow_div_k / (pow_div_k - coeff)
              - pow_div_k / (pow_div_k - coeff) * Rpower (pow_div_k / coeff) 2 * pow_frac_log
              - Rpower 1 k * (frac_log - 1))
      else if Reqb coeff pow_div_k then Some ((frac_log - 1) * (pow_n_k - Rpower 1 k) + Rpower 1 k)
      else Some (pow_div_k / (coeff - pow_div_k) * Rpower (pow_div_k / coeff) 2 * pow_frac_log
                 - pow_div_k / (coeff - pow_div_k) * pow_n_k - Rpower 1 k * (frac_log - 1))
    else
      let pow_div_k_minus := Rpower divisor (k - 1) in
      let pow_n_k_minus := Rpower n (k - 1) in
      if Rltb coeff pow_div_k_minus then
        Some (pow_div_k / (pow_div_k - coeff) * (pow_n_k - pow_frac_log * (pow_div_k / coeff)))
      else if Reqb coeff pow_div_k_minus then
        Some (divisor / (divisor - 1) * pow_n_k
              - (Rpower divisor 2 / (divisor - 1) + k * frac_log - 1) * pow_n_k_minus)
      else if Rltb coeff pow_div_k then
        Some (pow_div_k / (pow_div_k - coeff) * pow_n_k
              - (pow_div_k / (pow_div_k - coeff) * (pow_div_k / coeff) + k * pow_div_k_minus / (coeff - pow_div_k_minus)) * pow_frac_log
              + k * coeff * pow_n_k_minus / (coeff - pow_div_k_minus))
      else if Reqb coeff pow_div_k then
        Some (pow_n_k * (frac_log - 1 - k / (divisor - 1)) + k * pow_n_k_minus * divisor / (divisor - 1))
      else None
  | UPPER_BOUND =>
    if Rltb coeff pow_div_k then Some (pow_n_k * pow_div_k / (pow_div_k - coeff))
    else if Reqb coeff pow_div_k then Some (pow_n_k * frac_log)
    else Some (pow_div_k * (pow_frac_log - pow_n_k) / (coeff - pow_div_k))
  end.

(** compute_bounds.cc:205-239 compute_bounds_for_logarithm_function. *)
Definition logarithm (type : bound_type) : option R :=
  match type with
  | LOWER_BOUND => None
  | UPPER_BOUND =>
    if Reqb coeff 1 then Some (1 / 2 * ln n * (frac_log + 1))
    else Some (ln divisor / ((coeff - 1) * (coeff - 1)) * (coeff * pow_frac_log - (coeff - 1) * ln n / ln divisor - coeff))
  end.
(** compute_bounds.cc:241-288 compute_bounds_for_power_times_logarithm_function. *)
Definition power_times_logarithm (type : bound_type) (k : R) : option R :=
  let pow_div_k := Rpower divisor k in
  match type with
  | LOWER_BOUND => None
  | UPPER_BOUND =>
    let pow_n_k_log := Rpower n k * ln n in
    if Reqb coeff pow_div_k then Some (1 / 2 * pow_n_k_log * (frac_log + 1))
    else Some (pow_div_k * ln divisor / ((coeff - pow_div_k) * (coeff - pow_div_k))
               * (coeff * pow_frac_log - (coeff - pow_div_k) * pow_n_k_log / ln divisor - coeff))
  end.
(** compute_bounds.cc:60-87 compute_bounds_for_exp_function. [None] for the branch that uses the
    Gamma function (not modelled). *)
Definition exp_function (type : bound_type) (base : R) : option R :=
  match type with
  | LOWER_BOUND => Some (Rpower base n)
  | UPPER_BOUND =>
    let tmp := Rpower base (divisor * divisor) in
    if Rltb (coeff * Rpower base divisor) tmp then
      Some (Rpower base n + coeff * tmp / (tmp - coeff * Rpower base divisor) * Rpower base (n / divisor))
    else None
  end.

(** The addends a n^k, a n^k log(n), a base^n, the coefficient being a number. *)
Inductive addend := Mono (a k : R) | Logn (a k : R) | Expn (a base : R).
(** a positive: the bound of that type; a negative: the other one (compute_bounds.cc:305-327 etc.). *)
Definition scaled (f : bound_type -> option R) (type : bound_type) (a : R) : option R :=
  if Rltb 0 a then option_map (Rmult a) (f type)
  else if Rltb a 0 then option_map (Rmult a) (f (swap_type type))
  else None.
(** compute_bounds.cc:298-401 sharper_bounds_for_polynomial_function, 403-529
    sharper_bounds_for_no_polynomial_function, 531-599 sharper_bounds_for_exponential: what is added
    to [bound]; the case of -n is at 338-345. *)
Definition sharper (type : bound_type) (g : addend) : option R :=
  match g with
  | Mono a k => if Reqb a (-1) && Reqb k 1 then power_of_n (swap_type type) 1 else scaled (fun t => power_of_n t k) type a
  | Logn a k => if Reqb k 0 then scaled logarithm type a else scaled (fun t => power_times_logarithm t k) type a
  | Expn a base => if Rltb coeff 1 then None else scaled (fun t => exp_function t base) type a
  end.
(** compute_bounds.cc:752-779: the addends one after the other.  The method used when no sharper bound is known is
    not modelled: [None]. *)
Fixpoint non_homogeneous_part (type : bound_type) (gs : list addend) (bound : R) : option R :=
  match gs with
  | [] => Some bound
  | g :: gs => match sharper type g with Some b => non_homogeneous_part type gs (bound + b) | None => None end
  end.
End Bounds.

(** q = floor(log(n)/log(divisor)) for n >= 1. *)
Fixpoint ilog_aux (fuel d n : nat) : nat :=
  match fuel with O => O | S fuel => if (n <? d)%nat then O else S (ilog_aux fuel d (n / d)) end.
Definition ilog (d n : nat) : nat := ilog_aux n d n.
(** Expr.cc:137-165: Sc(n, d) = floor(n / d^floor(log(n)/log(d))). *)
Definition Sc (n d : nat) : nat := (n / d ^ ilog d n)%nat.
(** compute_bounds.cc:893-930 compute_term_about_initial_condition, with the applicability condition 1. *)
Definition term_about_initial_condition (type : bound_type) (coeff : R) (divisor n : nat) (x : nat -> R) : R :=
  let index := if (divisor =? 2)%nat then 1%nat else Sc n divisor in
  let t := ln (INR n) / ln (INR divisor) in
  let tmp := match type with UPPER_BOUND => if Rltb coeff 1 then t - 1 else t | LOWER_BOUND => if Rltb 1 coeff then t - 1 else t end in
  Rpower coeff tmp * x index.
(** compute_bounds.cc:937-979 approximate_functional_equation, rank 1, for the sum of the addends
    [gs]: the value at [n] of the bound in terms of the initial values. *)
Definition approximate_functional_equation (type : bound_type) (coeff : R) (divisor : nat) (gs : list addend) (n : nat) (x : nat -> R) : option R :=
  match non_homogeneous_part coeff (INR divisor) (INR n) type gs 0 with
  | Some b => Some (b + term_about_initial_condition type coeff divisor n x)
  | None => None
  end.

(** compute_bounds.cc:957-975: what approximate_functional_equation leaves in the recurrence when the
    bound of the given type is [bound].  [E] is the type of the expressions, [eqb] their comparison and
    [of_bool] the conversion from bool to int to Expr (Expr.defs.hh:507) that makes
    set_expression(upper_bound_.has_expression()) compile. *)
Record cached {E : Type} := { lower_bound : option E; upper_bound : option E; exact_solution : option E }.
Arguments cached : clear implicits.
Definition has {E} (o : option E) : bool := match o with Some _ => true | None => false end.
Definition store_bound {E} (eqb : E -> E -> bool) (of_bool : bool -> E) (type : bound_type) (bound : E) (c : cached E) : cached E :=
  match type with
  | LOWER_BOUND =>
    {| lower_bound := Some bound; upper_bound := upper_bound c;
       exact_solution := match upper_bound c with
                         | Some u => if eqb u bound then Some (of_bool (has (upper_bound c))) else exact_solution c
                         | None => exact_solution c end |}
  | UPPER_BOUND =>
    {| lower_bound := lower_bound c; upper_bound := Some bound;
       exact_solution := match lower_bound c with
                         | Some l => if eqb bound l then Some (of_bool (has (lower_bound c))) else exact_solution c
                         | None => exact_solution c end |}
  end.
