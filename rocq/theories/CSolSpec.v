(** Vocabulary for C78. *)
From Coq Require Import ZArith QArith Qcanon Reals List String Bool.
From Verif Require Import Fld FPoly Ast ExprModel ExprSpec SeqInterp ElimSpec DecompModel SolverModel.
Import ListNotations.
Local Open Scope list_scope.

(** The real numbers as part of the field in which the roots lie. *)
Record embedding (K : Fld) (inj : R -> K) : Prop := MkEmb {
  emb_0 : inj 0%R = f0; emb_1 : inj 1%R = f1;
  emb_add : forall u v, inj (u + v)%R = fadd (inj u) (inj v);
  emb_mul : forall u v, inj (u * v)%R = fmul (inj u) (inj v);
  emb_inj : forall u v, inj u = inj v -> u = v }.

Section Spec.
Context (I : interp) (rho : string -> R) {K : Fld} (inj : R -> K).
(** From the index [N] on, [e] has the value [u]. *)
Definition has_value (N : nat) (e : expr) (u : R) : Prop := forall x n, (N <= n)%nat -> at_n I rho x n e = Some u.
(** [a] are the values of the coefficients of x(n-1), ..., x(n-k). *)
Definition coefficient_values (N : nat) (coeffs : list expr) (a : list R) : Prop := Forall2 (has_value N) (tl coeffs) a.
(** [inh] are the values of the decomposition alpha_i^n (p_i + q_i) of a term free of x, from the index [N] on. *)
Definition value_of (n : nat) (e : expr) : option R := at_n I rho (fun _ => 0%R) n e.
Definition component_values (N : nat) (t : term) (c : comp (K:=K)) : Prop :=
  let '(alpha, p, q) := t in
  (exists b, (forall n, (N <= n)%nat -> value_of n alpha = Some b) /\ cbase c = inj b) /\
  (forall n, (N <= n)%nat -> exists v, value_of n p = Some v /\ inj v = peval (cpoly c) (ofn n)) /\
  (forall n, (N <= n)%nat -> exists v, value_of n q = Some v /\ inj v = cnopoly c (Z.of_nat n)).
Definition decomposition_values (N : nat) (l : list term) (inh : list (comp (K:=K))) : Prop := Forall2 (component_values N) l inh.
(** [e] has a value from the index [N] on, whatever x(.) is. *)
Definition defined_from (N : nat) (e : expr) : Prop := forall x n, (N <= n)%nat -> exists v, at_n I rho x n e = Some v.
(** [roots] are the roots of the polynomial [p], with their multiplicities; [d] only if all are simple. *)
Definition right_roots (p : list K) (roots : list (K * nat)) (d : bool) : Prop :=
  NoDup (map fst roots) /\ Forall (fun r => (0 < snd r)%nat) roots /\ (d = true -> Forall (fun r => snd r = 1%nat) roots) /\
  forall y, peval p y = fmul (last p f0) (fold_right (fun r acc => fmul (fpow (fsub y (fst r)) (snd r)) acc) f1 roots).
(** A summation routine for lambda^(-h) q(h) b^h from f+1 to n. *)
Definition summation_ok (lambda : K) (f : nat) (gos : comp (K:=K) -> option (Z -> K)) : Prop :=
  forall e z, gos e = Some z -> forall n, (Z.of_nat f <= n)%Z ->
    z n = SeqSpec.zsum (Z.of_nat f + 1) n (fun h => fmul (fmul (zpow lambda (- h)) (cnopoly e h)) (zpow (cbase e) h)).
(** [y] has the values [x0] at the k indices f, ..., f+k-1 and satisfies y(n) = rhs from f+k on. *)
Definition solution_with (rhs : expr) (f k : nat) (x0 y : nat -> R) : Prop :=
  (forall i, (f <= i < f + k)%nat -> y i = x0 i) /\ solves_from I rho (f + k) rhs y.
End Spec.
