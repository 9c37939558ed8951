(** Vocabulary for C73. *)
From Coq Require Import ZArith QArith Qcanon List Reals.
From Coquelicot Require Import Complex.
From Verif Require Import Ast FindRootModel FindRootSpec.
Import ListNotations.
Local Open Scope list_scope.

(** The value at x of the polynomial with integer coefficients [p]. *)
Definition zval (p : list Z) (x : C) : C := pval (map zq p) x.
Definition product_at (l : list (list Z)) (x : C) : C := fold_right (fun f acc => zval f x * acc)%C (RtoC 1) l.
(** NTL's factor, for a square-free polynomial: p = c * (product of the factors), all of degree >= 1 and multiplicity 1. *)
Definition factorisation (p : list Z) (r : Z * list (list Z * nat)) : Prop :=
  fst r <> 0%Z /\ (forall x, zval p x = qC (zq (fst r)) * product_at (map fst (snd r)) x)%C
  /\ Forall (fun fm => snd fm = 1%nat /\ (1 < length (fst fm))%nat /\ last (fst fm) 0%Z <> 0%Z) (snd r).
Definition coefficients_below (B : Z) (fs : list (list Z * nat)) : Prop := Forall (fun fm => Forall (fun a => (Z.abs a < B)%Z) (fst fm)) fs.
