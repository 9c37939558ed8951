(** Vocabulary for C35: factorisation of a polynomial function over the complex numbers. *)
From Coq Require Import Reals.
From Coquelicot Require Import Complex.
Local Open Scope C_scope.
(** [x1], [x2] (, [x3], [x4]) are the roots, each with its multiplicity. *)
Definition roots_of_2 (b c x1 x2 : C) : Prop := forall z : C, z * z + b * z + c = (z - x1) * (z - x2).
Definition roots_of_3 (a1 a2 a3 x1 x2 x3 : C) : Prop :=
  forall z : C, z * z * z + a1 * (z * z) + a2 * z + a3 = (z - x1) * (z - x2) * (z - x3).
Definition roots_of_4 (a1 a2 a3 a4 x1 x2 x3 x4 : C) : Prop :=
  forall z : C, z * z * z * z + a1 * (z * z * z) + a2 * (z * z) + a3 * z + a4 = (z - x1) * (z - x2) * (z - x3) * (z - x4).
Definition is_real (z : C) : Prop := snd z = 0%R.
(** The polynomial z^4 + a1 z^3 + a2 z^2 + a3 z + a4 has no multiple root (it and its derivative
    have no common zero). *)
Definition simple_roots_4 (a1 a2 a3 a4 : C) : Prop :=
  forall z : C, z * z * z * z + a1 * (z * z * z) + a2 * (z * z) + a3 * z + a4 = RtoC 0 ->
    RtoC 4 * (z * z * z) + RtoC 3 * a1 * (z * z) + RtoC 2 * a2 * z + a3 <> RtoC 0.
