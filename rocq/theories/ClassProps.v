(** C42 (and C41 for powers of x(n)): classification. *)
From Coq Require Import ZArith QArith Qcanon Reals List String Bool.
From Verif Require Import Ast ExprModel ExprSpec SeqInterp NonLinCases ElimSpec ClassModel ClassSpec ClassProofs3 ClassCases.
Import ListNotations.
Local Open Scope list_scope.
Local Open Scope R_scope.

(** Linear of finite order: coefficients and inhomogeneous term make up the right-hand side. *)
Theorem C42_finite_order : forall G lm ms I rho x n, (forall l, ifun I FX l = None) -> ginac_ok (with_x I x) G ->
  forall rhs s v, classify G lm ms rhs = inr s -> c_type s <> Some FUNCTIONAL -> at_n I rho x n rhs = Some v ->
  c_hom s = [] /\ at_n I rho x n (reassembled (c_coeffs s) [] (c_inhom s)) = Some v.
Proof. exact classify_value_linear. Qed.
Print Assumptions C42_finite_order.

(** The order is the largest decrement, the vector of coefficients has that size, and the number
    recorded is the greatest common divisor of the decrements. *)
Theorem C42_order_and_gcd : forall G lm ms rhs s, Forall unary_x (terms rhs) -> classify G lm ms rhs = inr s ->
  (forall t j, In t (terms rhs) -> dec_term t j -> (j <= c_order s)%nat) /\
  (((exists t j, In t (terms rhs) /\ dec_term t j) /\ (exists t, In t (terms rhs) /\ dec_term t (c_order s)) /\ List.length (c_coeffs s) = S (c_order s)) \/
   ((forall t j, In t (terms rhs) -> ~ dec_term t j) /\ c_coeffs s = [] /\ c_order s = 0%nat)) /\
  (forall d, (d | c_gcd s)%Z <-> forall t j, In t (terms rhs) -> dec_term t j -> (d | Z.of_nat j)%Z).
Proof. exact classify_order. Qed.
Print Assumptions C42_order_and_gcd.

(** Coefficients classified as constant do not depend on n. *)
Theorem C42_constant_coefficients : forall G lm ms I rho x n n', (forall l, ifun I FX l = None) -> ginac_ok (with_x I x) G ->
  forall rhs s w w', classify G lm ms rhs = inr s -> c_type s = Some CONST_COEFF ->
  at_n I rho x n rhs = Some w -> at_n I rho x n' rhs = Some w' ->
  Forall (fun c => exists u, at_n I rho x n c = Some u /\ at_n I rho x n' c = Some u) (c_coeffs s).
Proof. exact classify_const. Qed.
Print Assumptions C42_constant_coefficients.

(** Functional equations: the same if no x(n/d) occurs in two terms ... *)
Theorem C42_functional_partial : forall G lm ms I rho x n, (forall l, ifun I FX l = None) -> ginac_ok (with_x I x) G ->
  forall rhs s v, classify G lm ms rhs = inr s -> at_n I rho x n rhs = Some v -> distinct_divisors (terms rhs) ->
  at_n I rho x n (reassembled (c_coeffs s) (c_hom s) (c_inhom s)) = Some v.
Proof. exact classify_value. Qed.
Print Assumptions C42_functional_partial.

(** ... but of x(n/2) + n x(n/2) only the first term is kept. *)
Theorem C42_functional_refuted : ~ (forall I G lm ms, (forall x, ginac_ok (with_x I x) G) -> (forall l, ifun I FX l = None) ->
  forall rho x n rhs s v, classify G lm ms rhs = inr s -> at_n I rho x n rhs = Some v -> at_n I rho x n (reassembled (c_coeffs s) (c_hom s) (c_inhom s)) = Some v).
Proof. exact functional_refuted. Qed.
Print Assumptions C42_functional_refuted.

(** The inhomogeneous term may depend on x(n): 2 x(n)^2 is taken for a recurrence of order zero. *)
Theorem C42_inhomogeneous_term_refuted : ~ (forall I G lm ms, (forall x, ginac_ok (with_x I x) G) -> (forall l, ifun I FX l = None) ->
  forall rho x y n rhs s, classify G lm ms rhs = inr s -> (forall i, (i < n)%nat -> x i = y i) -> at_n I rho x n (c_inhom s) = at_n I rho y n (c_inhom s)).
Proof. exact inhom_refuted. Qed.
Print Assumptions C42_inhomogeneous_term_refuted.

(** x(n) = (1/4)^x(n) is declared unsolvable, but x(n) = 1/2 solves it. *)
Theorem C41_power_unsolvable_refuted : ~ (forall I G lm ms, (forall x, ginac_ok (with_x I x) G) -> (forall l, ifun I FX l = None) ->
  forall rho rhs x, classify G lm ms rhs = inl CL_UNSOLVABLE -> ~ solves_from I rho 0 rhs x).
Proof. exact power_unsolvable_refuted. Qed.
Print Assumptions C41_power_unsolvable_refuted.

(** x(n) = x(n)^2 + 1 is declared indeterminate, but has no solution. *)
Theorem C41_power_indeterminate_refuted : ~ (forall I G lm ms, (forall x, ginac_ok (with_x I x) G) -> (forall l, ifun I FX l = None) ->
  forall rho rhs, classify G lm ms rhs = inl CL_INDETERMINATE -> exists x k, solves_from I rho k rhs x).
Proof. exact power_indeterminate_refuted. Qed.
Print Assumptions C41_power_indeterminate_refuted.

(** 3 x(n-2) + n x(n-4) + x(n-2) + n *)
Example C42_case : (forall l, ifun I1 FX l = None) /\ (forall x, ginac_ok (with_x I1 x) G0) /\ Forall unary_x (terms cl_rhs) /\
  exists s, classify G0 lmax lmax cl_rhs = inr s /\ c_order s = 4%nat /\ c_gcd s = 2%Z /\ c_type s = Some VAR_COEFF /\
  nth 2 (c_coeffs s) (Sym "n") = Num (zq 4) /\ nth 4 (c_coeffs s) (Num 0%Qc) = Sym "n" /\ c_inhom s = Sym "n".
Proof. exact (conj I1_x (conj (fun x => G0_ok _) (conj cl_unary cl_runs))). Qed.
