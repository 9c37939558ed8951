(** Vocabulary for hypergeometric terms. *)
From Coq Require Import ZArith QArith Qcanon Reals List String.
From Verif Require Import Ast ExprSpec.
Import ListNotations.
Local Open Scope R_scope.

(** A simplification keeps the value of an expression at a point; a numerator and a denominator give the value. *)
Definition keeps (I : interp) (f : expr -> expr) (rho : string -> R) (e : expr) : Prop := forall v, eval I rho e = Some v -> eval I rho (f e) = Some v.
Definition splits (I : interp) (nd : expr -> expr * expr) (rho : string -> R) (e : expr) : Prop :=
  forall v, eval I rho e = Some v -> exists x y, eval I rho (fst (nd e)) = Some x /\ eval I rho (snd (nd e)) = Some y /\ y <> 0 /\ x = v * y.
(** f(0) + ... + f(n - 1) *)
Fixpoint rsum (f : nat -> R) (n : nat) : R := match n with O => 0 | S n => rsum f n + f n end.
(** At this point the simplifications of the quotient of a and b keep its value. *)
Definition fine_quotient (I : interp) (G : ginac) (sbfe snum : expr -> expr) (nd : expr -> expr * expr) (rho : string -> R) (a b : expr) : Prop :=
  let q := gmul G (sbfe a) (gpow G (sbfe b) (Num (-(1))%Qc)) in keeps I sbfe rho a /\ keeps I sbfe rho b /\ keeps I snum rho q /\ splits I nd rho (snum q).
(** No sums and products appear where there are none. *)
Record plain_steps (G : ginac) (sbfe snum : expr -> expr) (nd : expr -> expr * expr) : Prop := {
  plain_add : forall a b, no_binders a -> no_binders b -> no_binders (gadd G a b);
  plain_mul : forall a b, no_binders a -> no_binders b -> no_binders (gmul G a b);
  plain_pow : forall a b, no_binders a -> no_binders b -> no_binders (gpow G a b);
  plain_fun : forall f l, Forall no_binders l -> no_binders (gfun G f l);
  plain_sbfe : forall e, no_binders e -> no_binders (sbfe e);
  plain_snum : forall e, no_binders e -> no_binders (snum e);
  plain_nd : forall e, no_binders e -> no_binders (fst (nd e)) /\ no_binders (snd (nd e)) }.
