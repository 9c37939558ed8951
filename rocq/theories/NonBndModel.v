(** Model of the bounds for the non-linear functional equations x(n) = g(n) x(n/b)^a
    (src/Recurrence.cc): the expressions are represented by their values at n, as in
    FuncEqModel. *)
From Coq Require Import Reals List Arith.
From Verif Require Import FuncEqModel.
Import ListNotations.
Local Open Scope R_scope.

(** rr_classifier.cc:749-764, 767-782 (util.cc:609-651 substitute_x_function, EXPONENT): with x(n) = a^y(n), the associated
    linear recurrence is y(n) = a y(n/b) + log(g(n))/log(a); its addends are [gs].  Its
    initial values are the symbols y(i), which become log(x(i))/log(a) in the bound
    (substitute_x_function, ARGUMENT_LOG, Recurrence.cc:616-617).  *)
Definition log_values (a : R) (x : nat -> R) : nat -> R := fun i => ln (x i) / ln a.
(** Recurrence.cc:583-631, types 1 (lower) and 2 (upper), the exponent being positive.  Not modelled: the
    auxiliary symbols, and the simplifications, which keep the value. *)
Definition non_linear_bound (type : bound_type) (a : R) (b : nat) (gs : list addend) (n : nat) (x : nat -> R) : option R :=
  option_map (Rpower a) (approximate_functional_equation type a b gs n (log_values a x)).
(** The addends for g(n) = c: log(1) = 0 disappears. *)
Definition constant_addends (a c : R) : list addend := if Reqb c 1 then [] else [Mono (ln c / ln a) 0].
