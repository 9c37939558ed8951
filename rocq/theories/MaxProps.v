(** C59: recurrences defined by a maximum. *)
From Coq Require Import ZArith QArith Qcanon Reals List String Bool.
From Verif Require Import Ast ExprSpec SeqInterp RecModel MaxModel MaxSpec MaxProofs.
Import ListNotations.
Local Open Scope R_scope.

(** The answer starts with the constant argument of max and satisfies the equation at n exactly
    when its value there is at least that constant. *)
Theorem C59_max_guarded_partial : forall I A rho rhs e,
  (forall a b, ifun I FMax [a; b] = Some (Rmax a b)) -> aux_correct I A ->
  compute_exact_solution_max A rhs = Ok (inl e) ->
  exists c f, (rhs = Fun FMax [c; f] \/ rhs = Fun FMax [f; c]) /\ number_or_symbol c = true /\
  (has "n" c = false ->
   exists y, denotes I rho e y /\ eval I rho c = Some (y O) /\
    forall n, (1 <= n)%nat -> (holds_at I rho rhs y n <-> y O <= y n)).
Proof. exact max_solution. Qed.
Print Assumptions C59_max_guarded_partial.

(** max(a x(n-1) + b, c) with a >= 0: the answer solves the equation iff a c + b >= c. *)
Theorem C59_max_affine_partial : forall I A rho a b c e,
  (forall a b, ifun I FMax [a; b] = Some (Rmax a b)) -> aux_correct I A ->
  number_or_symbol c = true -> has "n" c = false -> 0 <= rv a ->
  compute_exact_solution_max A (Fun FMax [c; affine a b]) = Ok (inl e) \/ compute_exact_solution_max A (Fun FMax [affine a b; c]) = Ok (inl e) ->
  exists y v, denotes I rho e y /\ eval I rho c = Some v /\ y O = v /\
   (solves_from I rho 1 (Fun FMax [affine a b; c]) y <-> v <= rv a * v + rv b).
Proof. exact max_affine. Qed.
Print Assumptions C59_max_affine_partial.

Theorem C59_max_refuted :
  ~ (forall A rho rhs e y, aux_correct I0 A -> compute_exact_solution_max A rhs = Ok (inl e) ->
     denotes I0 rho e y -> solves_from I0 rho 1 rhs y).
Proof. exact max_refuted. Qed.
Print Assumptions C59_max_refuted.

Example C59_case : aux_correct I0 unit_aux /\
  compute_exact_solution_max unit_aux (Fun FMax [Sym "a"; affine 1 (zq 3)]) = Ok (inl (Add [Sym "a"; Mul [Num (zq 3); Sym "n"]])).
Proof. exact (conj (unit_aux_correct I0) unit_aux_runs2). Qed.
