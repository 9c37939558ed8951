(** Vocabulary for C36-C39: polynomials with rational coefficients as functions on C. *)
From Coq Require Import ZArith QArith Qcanon List Reals.
From Coquelicot Require Import Complex.
From Verif Require Import Fld FPoly CplxF Ast FindRootModel.
Import ListNotations.
Local Open Scope list_scope.

(** The value of the polynomial with coefficients [p] (lowest degree first) at [z]. *)
Definition pval (p : list Qc) (z : C) : C := peval (K:=CF) (map qC p) z.
(** A nonzero polynomial given without leading zeros. *)
Definition proper (p : list Qc) : Prop := p <> [] /\ last p 0%Qc <> 0%Qc.
Definition integer_coefficients (p : list Qc) : Prop := Forall (fun c => exists z : Z, c = zq z) p.
(** Not divisible by the square of a polynomial x - z. *)
Definition square_free (p : list Qc) : Prop :=
  forall (z : C) (g : list C), ~ (forall x, pval p x = (x - z) * (x - z) * peval (K:=CF) g x)%C.
(** a x^n + k with n >= 2 and a, k not 0. *)
Definition pure_power (g : list Qc) : Prop :=
  exists (a k : Qc) (n : nat), a <> 0%Qc /\ k <> 0%Qc /\ (2 <= n)%nat /\ forall x : C, pval g x = (qC a * fpow (K:=CF) x n + qC k)%C.
(** No factor over the rationals is a pure power. *)
Definition no_pure_power_factor (p : list Qc) : Prop :=
  forall g h : list Qc, (forall x : C, pval p x = pval g x * pval h x)%C -> ~ pure_power g.
(** The product of the x - root. *)
Definition linear_factors (l : list root) (x : C) : C := fold_right (fun r acc => (x - rvalue r) * acc)%C (RtoC 1) l.
(** What is used of the factorisation of a polynomial over the integers (NTL's factor). *)
Definition factorizer_ok (poly_factor : list Qc -> list (list Qc)) : Prop :=
  forall q, proper q -> integer_coefficients q -> (1 < length (poly_factor q))%nat ->
    (forall f, In f (poly_factor q) -> proper f /\ integer_coefficients f) /\
    exists c : Qc, c <> 0%Qc /\ forall x : C, pval q x = (qC c * fold_right (fun f acc => pval f x * acc) (RtoC 1) (poly_factor q))%C.
(** The product of the (x - root)^multiplicity. *)
Definition root_product (l : list root) (x : C) : C :=
  fold_right (fun r acc => fpow (K:=CF) (x - rvalue r)%C (multiplicity r) * acc)%C (RtoC 1) l.
(** [bound] bounds the leading coefficient and the lowest nonzero one. *)
Definition end_coefficients_below (bound : Z) (p : list Qc) : Prop :=
  exists lc tc : Z, last p 0%Qc = zq lc /\ tc <> 0%Z /\ (Z.abs lc < bound)%Z /\ (Z.abs tc < bound)%Z /\
    (nth 0 p 0%Qc = zq tc \/ nth 0 p 0%Qc = 0%Qc /\ nth 1 p 0%Qc = zq tc).
(** k (x - a1) ... (x - an) with distinct rational a1, ..., an. *)
Definition splits_over_Q (p : list Qc) (l : list Qc) : Prop :=
  NoDup l /\ exists k : C, k <> RtoC 0 /\ forall x, pval p x = (k * fold_right (fun a acc => (x - qC a) * acc) (RtoC 1) l)%C.
(** The coefficients of a x^n + k. *)
Definition pure_power_poly (a k : Z) (n : nat) : list Qc := zq k :: repeat 0%Qc (n - 1) ++ [zq a].
