(** Vocabulary for C71. *)
From Coq Require Import Reals List Arith ZArith.
From Verif Require Import FuncEqModel FuncEqSpec GenBndModel.
Import ListNotations.
Local Open Scope R_scope.

(** The sum of f(k) for lo <= k <= hi. *)
Definition sum_range (lo hi : nat) (f : nat -> R) : R := fold_right (fun k acc => f k + acc) 0 (seq lo (S hi - lo)).
(** The two sums of the method. *)
Definition lower_sum (a : R) (b : nat) (g : nat -> R) (m : nat) : R := sum_range 1 m (fun k => a ^ (m - k) * g (b ^ k)%nat).
Definition upper_sum (a : R) (b : nat) (g : nat -> R) (m : nat) : R := sum_range 2 m (fun k => a ^ (m - k) * g (b ^ k - 1)%nat).

Definition argument (type : bound_type) (b k : nat) : nat := match type with LOWER_BOUND => (b ^ k)%nat | UPPER_BOUND => (b ^ k - 1)%nat end.
(** What the decomposition and the summation algorithms have to satisfy (C05, C43, C47):
    the summand is the sum of the coefficients times the exponentials, and the sums are right at the natural numbers. *)
Definition piece_ok (a : R) (p : piece) (f : nat -> R) : Prop :=
  p_at_0 p = f O /\ p_at_1 p = f 1%nat /\ forall m, from_zero p (INR m) = sum_range 0 m (fun k => f k * (pbase p / a) ^ k).
Definition decomposition_ok (a : R) (b : nat) (type : bound_type) (s : nat -> R) (d : decomposition) : Prop :=
  match d with
  | Mixed => True
  | Polynomials l => exists fs, Forall2 (piece_ok a) l fs /\
      forall k, s (argument type b k) = fold_right (fun pf acc => snd pf k * pbase (fst pf) ^ k + acc) 0 (combine l fs)
  | NoPolynomial 1 (Some f) => let lo := match type with LOWER_BOUND => 1%nat | UPPER_BOUND => 2%nat end in
      forall m, (lo <= S m)%nat -> f (INR m) = sum_range lo m (fun k => / a ^ k * s (argument type b k))
  | NoPolynomial 1 None => True
  | NoPolynomial _ _ => False
  end.
(** g(1) <= g(2) <= ..., all non-negative. *)
Definition non_negative_non_decreasing (g : nat -> R) : Prop := forall i j, (1 <= i)%nat -> (i <= j)%nat -> 0 <= g i <= g j.
Definition rises (lo : R) (f : R -> R) : Prop := forall u v, lo <= u -> u <= v -> f u <= f v.

(** The closed form used in place of the symbolic sum, if there is one, is non-decreasing from [lo] on. *)
Definition closed_rises (a : R) (dec : (nat -> R) -> bound_type -> decomposition) (lo : R) (type : bound_type) (s : nat -> R) : Prop :=
  forall f, compute_sum a dec type s = Some f \/ (compute_sum a dec type s = None /\ compute_sum a dec (swap_type type) s = Some f) -> rises lo f.

(** The inhomogeneous term made of the groups. *)
Definition terms_of (c : coefficient) : list term := match c with Zero => [] | One t => [t] | Sum l => l end.
Definition group_at (g : group) (i : nat) : R :=
  match gbase g with
  | Some base => rsum_list (fun t => at_ t i * Rpower base (INR i)) (terms_of (poly_coeff g) ++ terms_of (no_poly_coeff g))
  | None => 0
  end.
Definition groups_at (gs : list group) (i : nat) : R := rsum_list (fun g => group_at g i) gs.

(** The addends and groups for which the bounds are right.
    [s]: non-negative, non-decreasing, summed correctly, and its closed form, if there is one, rises; for the upper bound, a >= 1 or there is a closed form. *)
Definition fine (a : R) (b : nat) (dec : (nat -> R) -> bound_type -> decomposition) (type : bound_type) (s : nat -> R) : Prop :=
  non_negative_non_decreasing s /\ (forall ty, decomposition_ok a b ty s (dec s ty)) /\
  match type with
  | LOWER_BOUND => closed_rises a dec 0 LOWER_BOUND s
  | UPPER_BOUND => closed_rises a dec 1 UPPER_BOUND s /\ (1 <= a \/ exists f, compute_sum a dec UPPER_BOUND s = Some f \/ compute_sum a dec LOWER_BOUND s = Some f)
  end.
(** An addend of a known form has a positive coefficient, is increasing, and its sharper bound (if there is one) is right (C28, C29);
    where the general method is used, the summand [s] is fine. The condition is not above 1. *)
Definition term_fine (a : R) (b n : nat) (dec : (nat -> R) -> bound_type -> decomposition) (type : bound_type) (base : R) (s : nat -> R) (t : term) : Prop :=
  (forall g, known t = Some g -> increasing g /\ 0 < coef g /\ (forall i, (1 <= i)%nat -> at_ t i = addend_at g i) /\
     (type = LOWER_BOUND -> base = 1 /\ forall v, sharper a (INR b) (INR n) LOWER_BOUND g = Some v -> lower_right_for a b n g)) /\
  (base <> 1 \/ sharper_for a b (INR n) type t = None -> fine a b dec type s) /\
  (forall c c', (c <= 1)%Z -> nnd t c = Some c' -> (c' <= 1)%Z).
Definition coefficient_fine (a : R) (b n : nat) (dec : (nat -> R) -> bound_type -> decomposition) (type : bound_type) (base : R) (c : coefficient) : Prop :=
  match c with
  | Zero => True
  | One t => base = 1 /\ term_fine a b n dec type 1 (at_ t) t
  | Sum l => Forall (fun t => term_fine a b n dec type base (fun i => at_ t i * Rpower base (INR i)) t) l
  end.
Definition group_fine (a : R) (b n : nat) (dec : (nat -> R) -> bound_type -> decomposition) (type : bound_type) (g : group) : Prop :=
  exists base, gbase g = Some base /\ coefficient_fine a b n dec type base (no_poly_coeff g) /\
  (coefficient_fine a b n dec type base (poly_coeff g) \/
   exists t c, poly_coeff g = One t /\ known t = Some (Mono c 0) /\ (forall i, at_ t i = c) /\ 0 < c /\ 1 < base /\ 1 <= a).
