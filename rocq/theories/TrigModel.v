(** Model of sum_poly_times_exponentials_times_cos and ..._times_sin (src/sum_poly.cc). Expressions
    are represented by their real values, p by its coefficients, N by a natural number; diff(x, i)
    is the i-th derivative. *)
From Coq Require Import Reals List.
From Coquelicot Require Import Coquelicot.
From Verif Require Import Fld FPoly SumPolyModel.
Import ListNotations.
Local Open Scope R_scope.

(** sum_poly.cc:215, 247: the denominator. *)
Definition trig_den (theta x : R) : R := x ^ 2 - 2 * x * cos theta + 1.
(** sum_poly.cc:212-215. *)
Definition cos_quotient (N : nat) (theta x : R) : R :=
  (x ^ (N + 2) * cos (INR N * theta) - x ^ (N + 1) * cos ((INR N + 1) * theta) + (1 - x * cos theta)) / trig_den theta x.
(** sum_poly.cc:244-247. *)
Definition sin_quotient (N : nat) (theta x : R) : R :=
  (x ^ (N + 2) * sin (INR N * theta) - x ^ (N + 1) * sin ((INR N + 1) * theta) - x * sin theta) / trig_den theta x.
(** sum_poly.cc:211-219, 243-251: the loop, with alpha substituted for x. *)
Fixpoint trig_loop (r : R -> R) (i : nat) (summands : list R) (alpha q : R) : R :=
  match summands with
  | [] => q
  | s :: rest => trig_loop r (S i) rest alpha (q + alpha ^ i * Derive_n r i alpha * s)
  end.
(** sum_poly.cc:200-224. [None]: the substitution of alpha divides by zero. *)
Definition sum_cos (p : list RF) (N : nat) (alpha theta : R) : option R :=
  if Req_EM_T theta 0 then Some (sum_poly_times_exponentials (K:=RF) p N alpha)
  else if Req_EM_T (trig_den theta alpha) 0 then None
  else Some (trig_loop (cos_quotient N theta) 0 (poly_dec (K:=RF) p) alpha 0).
(** sum_poly.cc:233-255. *)
Definition sum_sin (p : list RF) (N : nat) (alpha theta : R) : option R :=
  if Req_EM_T theta 0 then Some 0
  else if Req_EM_T (trig_den theta alpha) 0 then None
  else Some (trig_loop (sin_quotient N theta) 0 (poly_dec (K:=RF) p) alpha 0).
