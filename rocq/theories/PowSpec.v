(** Vocabulary for C65. *)
From Coq Require Import ZArith QArith Qcanon Reals List String.
From Verif Require Import Ast ExprSpec.
Import ListNotations.
Local Open Scope R_scope.

(** The factors of an exponent. *)
Fixpoint exponent_factors (b : expr) : list expr := match b with Mul l => flat_map exponent_factors l | _ => [b] end.
(** The innermost base of nested powers, and the factors of their exponents. *)
Fixpoint innermost (e : expr) : expr := match e with Pow a _ => innermost a | _ => e end.
Fixpoint exponents (e : expr) : list expr := match e with Pow a b => exponents a ++ exponent_factors b | _ => [] end.
Section Spec.
Context (I : interp) (rho : string -> R).
Definition integer_valued (e : expr) : Prop := exists z, eval I rho e = Some (IZR z).
(** Powers of [b] with these exponents may be combined: b is positive, or b is not 0 and the exponents are integers. *)
Definition combinable (b : expr) (xs : list expr) : Prop :=
  exists u, eval I rho b = Some u /\ (0 < u \/ (u <> 0 /\ Forall integer_valued xs)).
(** The power [e] may be simplified: what has to be combinable. *)
Definition simplifiable (e : expr) : Prop :=
  match innermost e with
  | Mul l => Forall (fun f => combinable (innermost f) (exponents f ++ exponents e)) l
  | b => combinable b (exponents e)
  end.
End Spec.
(** GiNaC's products of products of integers are products of integers. *)
Definition keeps_integers (I : interp) (G : ginac) : Prop := forall rho a b,
  Forall (integer_valued I rho) (exponent_factors a) -> Forall (integer_valued I rho) (exponent_factors b) -> Forall (integer_valued I rho) (exponent_factors (gmul G a b)).
