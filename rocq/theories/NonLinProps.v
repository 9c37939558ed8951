(** C27: non-linear recurrences. *)
From Coq Require Import ZArith QArith Qcanon Reals List String Bool.
From Verif Require Import Ast ExprModel ExprSpec SeqInterp NonLinModel NonLinSpec NonLinProofs2 NonLinCases.
Import ListNotations.
Local Open Scope R_scope.

(** Linear solution of the logarithms, exponentiated: if [s] is the general solution of the
    associated linear recurrence, the expression reported is the general positive solution of the
    non-linear one. *)
Theorem C27_logarithms : forall I G, (forall x, ginac_ok (with_x I x) G) -> log_exp_interp I ->
  forall qlcm simp_in simp_log domain_ok, preserves_x I simp_in -> preserves_x I simp_log ->
  forall rho rhs base new_rhs b k s,
  rewrite_non_linear G qlcm simp_in simp_log domain_ok rhs = NL_log base new_rhs -> base_value I base b ->
  not_nested rhs -> defined_on_positive I rho k rhs ->
  (match rhs with Mul _ => positive_product I rho k (simp_in (substitute_x_function G base EXPONENT rhs)) | _ => True end) ->
  (1 <= k)%nat -> not_nested (gpow G base s) ->
  general_solution I rho k new_rhs s any_seq ->
  general_solution I rho k rhs (log_solution G simp_in simp_log base s) positive.
Proof. exact log_general. Qed.
Print Assumptions C27_logarithms.

(** x(n) = c x(n-1)^a: recognised faithfully ... *)
Theorem C27_simple_recognised : forall I G qlcm simp_in simp_log domain_ok rhs c a,
  rewrite_non_linear G qlcm simp_in simp_log domain_ok rhs = NL_simple c a ->
  forall x rho, eval (with_x I x) rho rhs = eval (with_x I x) rho (Mul [Num c; Pow (Fun FX [Add [Sym "n"; Num (-(1))%Qc]]) (Num a)]).
Proof. exact simple_faithful. Qed.
Print Assumptions C27_simple_recognised.

(** ... and solved, for positive data and any rational exponent a <> 1, ... *)
Theorem C27_simple_positive : forall I G, (forall x, ginac_ok (with_x I x) G) -> forall rho c a, 0 < rv c -> rv a <> 1 ->
  general_solution I rho 1 (Mul [Num c; Pow (Fun FX [Add [Sym "n"; Num (-(1))%Qc]]) (Num a)]) (simple_solution G c a) positive.
Proof. exact simple_general. Qed.
Print Assumptions C27_simple_positive.

(** ... and for arbitrary data if the exponent is an integer >= 2. *)
Theorem C27_simple_natural : forall I G, (forall x, ginac_ok (with_x I x) G) -> forall rho c (m : nat), (2 <= m)%nat ->
  general_solution I rho 1 (Mul [Num c; Pow (Fun FX [Add [Sym "n"; Num (-(1))%Qc]]) (Num (zq (Z.of_nat m)))])
    (simple_solution G c (zq (Z.of_nat m))) any_seq.
Proof. exact simple_general_nat. Qed.
Print Assumptions C27_simple_natural.

(** x(n) = x(n-2)^4, whose linear recurrence 4 x(n-2) has the closed form nl_sol. *)
Example C27_case : log_exp_interp I1 /\ preserves_x I1 (fun e => e) /\
  rewrite_non_linear G0 first_arg (fun e => e) (fun e => e) (fun _ => true) nl_rhs = NL_log (Num (zq 4)) nl_new /\
  base_value I1 (Num (zq 4)) 4 /\ not_nested nl_rhs /\ not_nested (gpow G0 (Num (zq 4)) nl_sol) /\
  defined_on_positive I1 (fun _ => 0) 2 nl_rhs /\ general_solution I1 (fun _ => 0) 2 nl_new nl_sol any_seq.
Proof.
  exact (conj I1_log_exp (conj (id_preserves I1) (conj nl_runs (conj nl_base (conj (proj1 nl_nested) (conj (proj2 nl_nested) (conj (nl_defined _) (nl_general _)))))))).
Qed.
(** x(n) = 5 x(n-1) x(n-2) is treated with base e. *)
Example C27_case_product :
  (exists r, rewrite_non_linear G0 first_arg (fun e => e) (fun e => e) (fun _ => true) nl2_rhs = NL_log napier r) /\
  positive_product I1 (fun _ => 0) 2 (substitute_x_function G0 napier EXPONENT nl2_rhs).
Proof. exact (conj nl2_runs (nl2_positive _)). Qed.
