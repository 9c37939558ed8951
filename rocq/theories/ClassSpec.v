(** Specification for the classification. *)
From Coq Require Import ZArith QArith Qcanon Reals List String.
From Verif Require Import Ast ExprModel ExprSpec SeqInterp ElimSpec.
Import ListNotations.
Local Open Scope list_scope.

(** c_0 x(n), c_1 x(n-1), ..., starting with x(n-i). *)
Fixpoint shifted_terms (i : nat) (cs : list expr) : list expr :=
  match cs with
  | [] => []
  | c :: cs => Mul [c; Fun FX [Add [Sym "n"; Num (zq (- Z.of_nat i))]]] :: shifted_terms (S i) cs
  end.
(** a x(n/b) for the pairs (b, a). *)
Definition divided_terms (m : list (Qc * expr)) : list expr :=
  map (fun p => Mul [snd p; Fun FX [Mul [Sym "n"; Num (/ fst p)%Qc]]]) m.
(** The right-hand side with these coefficients, homogeneous and inhomogeneous terms. *)
Definition reassembled (coeffs : list expr) (hom : list (Qc * expr)) (inhom : expr) : expr :=
  Add (inhom :: shifted_terms 0 coeffs ++ divided_terms hom).
(** [t] is a multiple of x(n/d). *)
Definition is_n_over (a : expr) (d : Qc) : Prop :=
  d <> 0%Qc /\ (a = Mul [Sym "n"; Num (/ d)%Qc] \/ a = Mul [Num (/ d)%Qc; Sym "n"]).
Definition div_term (t : expr) (d : Qc) : Prop :=
  exists a, is_n_over a d /\ (t = Fun FX [a] \/ exists l, t = Mul l /\ In (Fun FX [a]) l).
(** No two of the terms are multiples of the same x(n/d). *)
Definition distinct_divisors (l : list expr) : Prop :=
  ForallOrdPairs (fun t u => forall d, ~ (div_term t d /\ div_term u d)) l.
(** The terms of a right-hand side. *)
Definition terms (e : expr) : list expr := match e with Add l => l | e => [e] end.
(** [t] is a multiple of x(n-j). *)
Definition dec_term (t : expr) (j : nat) : Prop :=
  exists a, is_n_plus a (- Z.of_nat j) /\ (t = Fun FX [a] \/ exists l, t = Mul l /\ In (Fun FX [a]) l).
