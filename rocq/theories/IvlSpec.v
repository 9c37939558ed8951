(** Intervals as sets of real numbers. *)
From Coq Require Import ZArith QArith Qcanon Reals Bool.
From Verif Require Import Bool3Model Ast IvlModel.
Local Open Scope R_scope.

Definition integer (r : R) : Prop := exists z, r = IZR z.

(** r is on the right side of a lower, an upper boundary. *)
Definition above (b : bnd) (r : R) : Prop :=
  match bv b with
  | Inf negative => negative = true
  | Fin _ q => match bf b with ZERO => rv q <= r | _ => rv q < r end
  | NaN => False
  end.
Definition below (b : bnd) (r : R) : Prop :=
  match bv b with
  | Inf negative => negative = false
  | Fin _ q => match bf b with ZERO => r <= rv q | _ => r < rv q end
  | NaN => False
  end.
(** r is between the boundaries. *)
Definition hull (x : ivl) (r : R) : Prop := above (lo x) r /\ below (up x) r.
(** The set an interval stands for. *)
Definition member (r : R) (x : ivl) : Prop := hull x r /\ (fl x = INTEGER -> integer r).
Definition no_member (x : ivl) : Prop := forall r, ~ member r x.

(** Well formed intervals. Every finite boundary is closed, or open with the flag of its class (Boundary.defs.hh:98, 151),
    and its value is a number [rep] of the machine. *)
Definition lower_bound (rep : Qc -> Prop) (b : bnd) : Prop := forall s q, bv b = Fin s q -> bf b <> NEG /\ rep q.
Definition upper_bound (rep : Qc -> Prop) (b : bnd) : Prop := forall s q, bv b = Fin s q -> bf b <> POS /\ rep q.
Definition formed (rep : Qc -> Prop) (x : ivl) : Prop := lower_bound rep (lo x) /\ upper_bound rep (up x).
(** An open boundary has the flag of its class (set_empty, Interval.inlines.hh:34-39, puts the others on the infinities of
    the wrong side). *)
Definition typed (x : ivl) : Prop := (bv (lo x) = Inf false \/ bf (lo x) <> NEG) /\ (bv (up x) = Inf true \/ bf (up x) <> POS).
(** A finite boundary of an interval of integers is closed and an integer. *)
Definition integral (b : bnd) : Prop := forall s q, bv b = Fin s q -> bf b = ZERO /\ exists z, q = zq z.
(** The unbounded side is open. *)
Definition lower_inf (b : bnd) : Prop := bv b = Inf true -> bf b = POS.
Definition upper_inf (b : bnd) : Prop := bv b = Inf false -> bf b = NEG.
(** What the comments of the library call "ok": the boundaries are +inf, -inf (no values), or there are values between them; an interval
    of integers has integers as boundaries. *)
Definition normal (x : ivl) : Prop :=
  (bv (lo x) = Inf false /\ bv (up x) = Inf true) \/
  ((exists r, hull x r) /\ lower_inf (lo x) /\ upper_inf (up x) /\ (fl x = INTEGER -> integral (lo x) /\ integral (up x))).

(** An interval that is not marked as one of integers has other values too. *)
Definition tidy (x : ivl) : Prop := fl x = REAL -> exists r, hull x r /\ ~ integer r.

(** A result v, with the remark [strict] that the exact result t is not v, is a lower (an upper) bound of t. *)
Definition under (v : val) (strict : bool) (t : R) : Prop :=
  match v with
  | Inf negative => negative = true
  | Fin _ q => rv q <= t /\ (strict = true -> rv q < t)
  | NaN => False
  end.
Definition over (v : val) (strict : bool) (t : R) : Prop :=
  match v with
  | Inf negative => negative = false
  | Fin _ q => t <= rv q /\ (strict = true -> t < rv q)
  | NaN => False
  end.
(** Directed rounding: downwards for lower boundaries, upwards for upper ones; a boundary is made open only if the result is
    inexact; results are numbers of the machine, and those greater than BOUNDARY_MAX_FRACT are integers. *)
Record directed (A : arith) (rep : Qc -> Prop) : Prop := {
  rounds_down : forall q, under (fst (rnd A false q)) (snd (rnd A false q)) (rv q);
  rounds_up : forall q, over (fst (rnd A true q)) (snd (rnd A true q)) (rv q);
  rounds_to_rep : forall dir q s p, fst (rnd A dir q) = Fin s p -> rep p;
  rep_zero : rep 0%Qc;
  rep_opp : forall q, rep q -> rep (- q)%Qc;
  rep_integer : forall z, Rabs (IZR z) <= rv (fract A) + 1 -> rep (zq z);
  fract_positive : 0 < rv (fract A);
  big_integer : forall q, rep q -> rv q < - rv (fract A) \/ rv (fract A) < rv q -> integer (rv q) }.
(** The functions exp, log and sqrt are rounded in the same way. *)
Definition defined (f : func) (r : R) : Prop := match f with Log => 0 < r | Sqrt => 0 <= r | _ => True end.
Definition exact (f : func) (r : R) : R :=
  match f with Exp => exp r | Log => ln r | Sqrt => sqrt r | Sin => sin r | Cos => cos r | Tan => tan r end.
Record directed_functions (A : arith) (rep : Qc -> Prop) : Prop := {
  fn_down : forall f s q, defined f (rv q) -> under (fst (fn A f false (Fin s q))) (snd (fn A f false (Fin s q))) (exact f (rv q));
  fn_up : forall f s q, defined f (rv q) -> over (fst (fn A f true (Fin s q))) (snd (fn A f true (Fin s q))) (exact f (rv q));
  fn_to_rep : forall f dir v s p, fst (fn A f dir v) = Fin s p -> rep p;
  log_zero : forall dir s, fst (fn A Log dir (Fin s 0%Qc)) = Inf true;
  exp_minus_inf : forall dir, exists s, fn A Exp dir (Inf true) = (Fin s 0%Qc, false);
  plus_inf : forall f dir, f = Exp \/ f = Log \/ f = Sqrt -> fn A f dir (Inf false) = (Inf false, false) }.
(** Sums, products and quotients that are integers up to 1000 are computed exactly. *)
Record exact_integers (A : arith) : Prop := {
  small_exact : forall dir z, (Z.abs z <= 1000)%Z -> exists s, rnd A dir (zq z) = (Fin s (zq z), false);
  fract_large : 1000 <= rv (fract A) }.

(** No boundary is a NaN; the unbounded sides are open. *)
Definition no_nan (x : ivl) : Prop := bv (lo x) <> NaN /\ bv (up x) <> NaN.
Definition infinities_open (x : ivl) : Prop := lower_inf (lo x) /\ upper_inf (up x).
(** A lower boundary 0 is +0, an upper one is -0. *)
Definition signed (y : ivl) : Prop := (forall s q, bv (lo y) = Fin s q -> rv q = 0 -> s = false) /\ (forall s q, bv (up y) = Fin s q -> rv q = 0 -> s = true).
Definition one_signed (y : ivl) : Prop := (forall b, member b y -> 0 <= b) \/ (forall b, member b y -> b <= 0).
(** The finite boundaries are at most BOUNDARY_MAX_FRACT. *)
Definition within_fract (A : arith) (x : ivl) : Prop :=
  (forall s q, bv (lo x) = Fin s q -> Rabs (rv q) <= rv (fract A)) /\ (forall s q, bv (up x) = Fin s q -> Rabs (rv q) <= rv (fract A)).
(** (q - o) / p is computed without error for a finite boundary q, and it is at most BOUNDARY_MAX_FRACT. *)
Definition exact_quotient (A : arith) (dir : bool) (b : bnd) (o p : Qc) : Prop := forall s q, bv b = Fin s q ->
  (exists s', rnd A dir (q - o)%Qc = (Fin s' (q - o)%Qc, false)) /\ (exists s', rnd A dir ((q - o) / p)%Qc = (Fin s' ((q - o) / p)%Qc, false)) /\
  Rabs (rv ((q - o) / p)%Qc) <= rv (fract A).
(** An answer of three values to the question whether P holds between the values of x and those of y. *)
Definition decides (answer : bool3) (x y : ivl) (P : R -> R -> Prop) : Prop :=
  (answer = ALWAYS <-> forall a b, member a x -> member b y -> P a b) /\ (answer = NEVER <-> forall a b, member a x -> member b y -> ~ P a b).

(** Expressions over variables, with real numbers and with intervals. *)
Inductive iexp := Var (n : nat) | Add (e f : iexp) | Sub (e f : iexp) | Mul (e f : iexp) | Opp (e : iexp) | Abs (e : iexp).
Fixpoint reval (v : nat -> R) (e : iexp) : R :=
  match e with
  | Var n => v n
  | Add e f => reval v e + reval v f
  | Sub e f => reval v e - reval v f
  | Mul e f => reval v e * reval v f
  | Opp e => - reval v e
  | Abs e => Rabs (reval v e)
  end.
Fixpoint ieval (A : arith) (env : nat -> ivl) (e : iexp) : ivl :=
  match e with
  | Var n => env n
  | Add e f => i_add A (ieval A env e) (ieval A env f)
  | Sub e f => i_sub A (ieval A env e) (ieval A env f)
  | Mul e f => i_mul A (ieval A env e) (ieval A env f)
  | Opp e => i_neg (ieval A env e)
  | Abs e => i_abs (ieval A env e)
  end.
