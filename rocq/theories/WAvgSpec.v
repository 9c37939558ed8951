(** Specification for weighted-average recurrences. *)
From Coq Require Import ZArith List.
From Verif Require Import Fld SeqSpec.

Section Spec.
Context {K : Fld}.
Local Open Scope fld_scope.
(** x(n) = f(n) (x(l) + ... + x(n-1)) + g(n) for all n > l *)
Definition averages (f g : Z -> K) (l : Z) (x : Z -> K) : Prop :=
  forall n, (l < n)%Z -> x n = f n * zsum l (n - 1) x + g n.
(** x(n) = f(n) (x(l) + ... + x(n)) + g(n) for all n > l *)
Definition averages_incl (f g : Z -> K) (l : Z) (x : Z -> K) : Prop :=
  forall n, (l < n)%Z -> x n = f n * zsum l n x + g n.
(** y(n) = c(n) y(n-1) + i(n) for all n >= 1 *)
Definition first_order (c i y : Z -> K) : Prop := forall n, (1 <= n)%Z -> y n = c n * y (n - 1)%Z + i n.
(** A correct solver of first-order recurrences. *)
Definition solver_ok (solve : (Z -> K) -> (Z -> K) -> K -> Z -> K) : Prop :=
  forall c i y0, solve c i y0 0%Z = y0 /\ first_order c i (solve c i y0).
End Spec.
