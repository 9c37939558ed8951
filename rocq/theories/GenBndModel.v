(** Model of the method used in src/compute_bounds.cc when no sharper bound is known for an addend of g(n) in x(n) = a x(n/b) + g(n),
    and of the loop over the addends. As in FuncEqModel.v, expressions are represented by their values (functions of n) and comparisons are exact.
    A symbolic sum whose upper limit is not an integer means the sum up to its floor. *)
From Coq Require Import Reals List Arith ZArith Bool.
From Verif Require Import FuncEqModel.
Import ListNotations.
Local Open Scope R_scope.

(** What exp_poly_decomposition and the summation algorithms give for the summand s(k) = p(b^k) or p(b^k - 1):
    - both kinds of coefficients;
    - polynomial coefficients only: for each base the value of the polynomial at 0 and 1 and what sum_poly_times_exponentials returns (as a function of n);
    - no polynomial coefficients: the number of bases, and what Gosper's algorithm returns. *)
Record piece := { pbase : R; p_at_0 : R; p_at_1 : R; from_zero : R -> R }.
Inductive decomposition := Mixed | Polynomials (l : list piece) | NoPolynomial (bases : nat) (gosper : option (R -> R)).

Definition rsum_list {A} (f : A -> R) (l : list A) : R := fold_right (fun a acc => f a + acc) 0 l.
(** floor(t), 0 for negative t. *)
Definition floor_nat (t : R) : nat := Z.to_nat (Int_part t).

Section Method.
Context (coeff : R) (divisor : nat).
(** For the summand and the type. *)
Context (decompose : (nat -> R) -> bound_type -> decomposition).

(** compute_bounds.cc:603-658 compute_sum. In the last branch every base adds the same sum. *)
Definition compute_sum (type : bound_type) (summand : nat -> R) : option (R -> R) :=
  match decompose summand type with
  | Mixed => None
  | Polynomials l =>
    Some (fun n => rsum_list (fun p => from_zero p n - p_at_0 p - match type with UPPER_BOUND => p_at_1 p * pbase p / coeff | LOWER_BOUND => 0 end) l * Rpower coeff n)
  | NoPolynomial O _ => Some (fun n => 0 * Rpower coeff n)
  | NoPolynomial bases (Some f) => Some (fun n => rsum_list (fun _ => f n) (repeat tt bases) * Rpower coeff n)
  | NoPolynomial _ None => None
  end.
(** compute_bounds.cc:667-692 try_to_compute_sum; the last cases are symbolic sums. *)
Definition symbolic_sum (type : bound_type) (summand : nat -> R) (n : R) : R :=
  match type with
  | LOWER_BOUND => rsum_list (fun h => Rpower coeff (n - INR h) * summand (divisor ^ h)%nat) (seq 1 (floor_nat n))
  | UPPER_BOUND => rsum_list (fun h => Rpower coeff (n - INR h) * summand (divisor ^ h - 1)%nat) (seq 2 (floor_nat n - 1))
  end.
Definition try_to_compute_sum (type : bound_type) (summand : nat -> R) : R -> R :=
  match compute_sum type summand with
  | Some f => f
  | None => match compute_sum (swap_type type) summand with
            | Some f => f
            | None => symbolic_sum type summand
            end
  end.

(** An addend: its values, its form when it is one of those with a sharper bound, and what is_non_negative_non_decreasing makes of [condition]
    for it ([None]: false). *)
Record term := { at_ : nat -> R; known : option addend; nnd : Z -> option Z }.
(** The coefficient of a base: zero, one addend, a sum of addends. *)
Inductive coefficient := Zero | One (t : term) | Sum (l : list term).
Record group := { gbase : option R; poly_coeff : coefficient; no_poly_coeff : coefficient }.

Section At.
Context (n : R) (type : bound_type).
Definition sharper_for (t : term) : option R :=
  match known t with Some g => sharper coeff (INR divisor) n type g | None => None end.
(** compute_bounds.cc:772-782 and 801-806. *)
Definition general (summand : nat -> R) : R :=
  let t := ln n / ln (INR divisor) in
  try_to_compute_sum type summand (match type with LOWER_BOUND => t - 1 | UPPER_BOUND => t + 1 end).
(** compute_bounds.cc:759-783: one addend of a sum. The state is (bound, condition). *)
Definition one_of_sum (base : R) (st : R * Z) (t : term) : option (R * Z) :=
  let r := sharper_for t in
  let bound := match r with Some v => fst st + v | None => fst st end in
  if match r with Some _ => negb (Reqb base 1) | None => true end then
    match nnd t (snd st) with
    | Some c => Some (bound + general (fun i => at_ t i * Rpower base (INR i)), c)
    | None => None
    end
  else Some (bound, snd st).
Fixpoint all_of_sum (base : R) (st : R * Z) (l : list term) : option (R * Z) :=
  match l with
  | [] => Some st
  | t :: l => match one_of_sum base st t with Some st => all_of_sum base st l | None => None end
  end.
(** compute_bounds.cc:752-809 compute_poly_or_no_poly: for one addend the power of [base] is not in the summand. (Zero with a base other than 1 does not occur.) *)
Definition poly_or_no_poly (c : coefficient) (base : R) (st : R * Z) : option (R * Z) :=
  match c with
  | Zero => Some st
  | Sum l => all_of_sum base st l
  | One t =>
    let r := sharper_for t in
    let bound := match r with Some v => fst st + v | None => fst st end in
    if match r with Some _ => negb (Reqb base 1) | None => true end then
      match nnd t (snd st) with
      | Some c => Some (bound + general (at_ t), c)
      | None => None
      end
    else Some (bound, snd st)
  end.
(** compute_bounds.cc:534-592 sharper_bounds_for_exponential: a number times base^n. *)
Definition sharper_exponential (base : R) (c : coefficient) : option addend :=
  if Rltb coeff 1 then None
  else match c with
  | One t => match known t with Some (Mono a k) => if Reqb k 0 then Some (Expn a base) else None | _ => None end
  | _ => None
  end.
(** [Unknown]: the branch of compute_bounds_for_exp_function that uses the Gamma function (not modelled). *)
Inductive outcome (A : Type) := Unknown | Failure | Done (a : A).
Arguments Unknown {A}. Arguments Failure {A}. Arguments Done {A} a.
Definition lift {A} (o : option A) : outcome A := match o with Some a => Done a | None => Failure end.
Definition bind {A B} (o : outcome A) (f : A -> outcome B) : outcome B := match o with Done a => f a | Unknown => Unknown | Failure => Failure end.
(** compute_bounds.cc:843-886: one base. *)
Definition one_group (g : group) (st : R * Z) : outcome (R * Z) :=
  match gbase g with
  | None => Failure
  | Some base =>
    if negb (Rltb 0 base) then Failure
    else if Reqb base 1 then
      bind (lift (poly_or_no_poly (poly_coeff g) 1 st)) (fun st => lift (poly_or_no_poly (no_poly_coeff g) 1 st))
    else
      bind (match poly_coeff g with
            | Zero => Done st
            | c => match sharper_exponential base c with
                   | Some e => match sharper coeff (INR divisor) n type e with
                               | Some v => Done (fst st + v, snd st)
                               | None => if Reqb (match e with Expn a _ => a | _ => 0 end) 0 then lift (poly_or_no_poly c base st) else Unknown
                               end
                   | None => lift (poly_or_no_poly c base st)
                   end
            end)
           (fun st => lift (poly_or_no_poly (no_poly_coeff g) base st))
  end.
(** compute_bounds.cc:832-888 compute_non_homogeneous_part. *)
Fixpoint compute_non_homogeneous_part (gs : list group) (st : R * Z) : outcome (R * Z) :=
  match gs with
  | [] => Done st
  | g :: gs => bind (one_group g st) (compute_non_homogeneous_part gs)
  end.
End At.
Arguments Unknown {A}. Arguments Failure {A}. Arguments Done {A} a.

(** compute_bounds.cc:897-930 compute_term_about_initial_condition: [condition] is the applicability condition. *)
Definition initial_condition_term (type : bound_type) (condition : nat) (n : nat) (x : nat -> R) : R :=
  let index := if (divisor =? 2)%nat then (if (1 <? condition)%nat then condition else 1%nat) else Sc n divisor in
  let t := ln (INR n) / ln (INR divisor) in
  let tmp := match type with UPPER_BOUND => if Rltb coeff 1 then t - 1 else t | LOWER_BOUND => if Rltb 1 coeff then t - 1 else t end in
  Rpower coeff tmp * x index.
(** compute_bounds.cc:937-979 approximate_functional_equation, rank 1: the value at [n] of the bound; [old] is the applicability condition before. *)
Definition approximate (type : bound_type) (old : nat) (gs : list group) (n : nat) (x : nat -> R) : outcome R :=
  bind (compute_non_homogeneous_part (INR n) type gs (0, (-1)%Z))
    (fun st => let condition := if (1 <? snd st)%Z then Z.to_nat (snd st) else old in
               Done (fst st + initial_condition_term type condition n x)).
End Method.
Arguments Unknown {A}. Arguments Failure {A}. Arguments Done {A} a.
