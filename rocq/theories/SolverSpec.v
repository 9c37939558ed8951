(** What it means for a list of (root, multiplicity) to be the roots of the characteristic
    equation of  x(n) = a_1 x(n-1) + ... + a_k x(n-k) + p(n). *)
From Coq Require Import ZArith List.
From Verif Require Import Fld FPoly SeqSpec.
Import ListNotations.

Section Spec.
Context {K : Fld}.
Local Open Scope fld_scope.
(** y^k - a_1 y^(k-1) - ... - a_k *)
Definition char_value (a : list K) (y : K) : K :=
  y ^ length a - bsum (length a) (fun j => nth j a 0 * y ^ (length a - 1 - j)%nat).
(** Distinct roots with positive multiplicities, and the polynomial splits accordingly. *)
Definition roots_of (a : list K) (roots : list (K * nat)) : Prop :=
  NoDup (map fst roots) /\ Forall (fun r => (0 < snd r)%nat) roots /\
  forall y, char_value a y = fold_right (fun r acc => (y - fst r) ^ snd r * acc) 1 roots.
(** p(n) = sum of poly_i(n) b_i^n *)
Definition exp_poly (inh : list (K * list K)) (n : Z) : K :=
  fold_right (fun e acc => peval (snd e) (ofz n) * zpow (fst e) n + acc) 0 inh.
End Spec.
