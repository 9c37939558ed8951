(** [w 1], ..., [w d] are the d-th roots of unity: powers of a primitive one. *)
From Coq Require Import ZArith List.
From Verif Require Import Fld.
Section Spec.
Context {K : Fld}.
Local Open Scope fld_scope.
Definition roots_of_unity (w : nat -> K) (d : nat) : Prop :=
  (forall j, w j = w 1%nat ^ j) /\ w 1%nat ^ d = 1 /\ forall j, (0 < j < d)%nat -> w j <> 1.
(** Only the coefficients a_d, a_2d, ... may be nonzero (all decrements are multiples of d). *)
Definition decrements_multiple_of (d : nat) (a : list K) : Prop :=
  forall j, (j < length a)%nat -> (S j mod d <> 0)%nat -> nth j a 0 = 0.
End Spec.
