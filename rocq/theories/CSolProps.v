(** C78: from the right-hand side of a linear recurrence with constant coefficients to its solution.
    [solution_with I rho rhs f k x0 y]: y has the values x0 at f, ..., f+k-1 and y(n) = rhs holds from f+k on (CSolSpec.v). *)
From Coq Require Import ZArith QArith Qcanon Reals List String Bool Lia Lra.
From Coquelicot Require Import Complex.
From Verif Require Import Fld FPoly CplxF SeqSpec Ast ExprModel ExprSpec SeqInterp VerifySpec VerifyCases NonLinCases ElimModel ElimSpec DecompModel ClassModel ClassSpec ClassProofs3 ClassCases LinSolve
  FindRootModel FindRootSpec FindRootProofs7 SolverModel CSolModel CSolSpec CSolProofs CSolProofs2 CSolCases.
Import ListNotations.
Local Open Scope list_scope.
Local Open Scope R_scope.

(** The solution returned is the sequence with the given initial values, which exists.
    [inj] embeds the real numbers in the field of the roots. *)
Theorem C78_solution : forall (I : interp) (rho : string -> R) (G : ginac), (forall l, ifun I FX l = None) -> (forall x, ginac_ok (with_x I x) G) ->
  forall (lm ms : Z) (rhs : expr) (s : cls), classify G lm ms rhs = inr s -> c_type s = Some CONST_COEFF ->
  hd (Num 0%Qc) (c_coeffs s) = Num 0%Qc -> Forall unary_x (terms rhs) -> x_free (c_inhom s) ->
  forall (K : Fld) (inj : R -> K), embedding K inj ->
  forall simplify expand : expr -> expr, (forall x e, refines (with_x I x) e (simplify e)) -> (forall x e, refines (with_x I x) e (expand e)) ->
  forall (f : nat) (us : list R) (inh : list comp) ls gos find_roots numbers lcm X x0,
  coefficient_values I rho (f + c_order s) (c_coeffs s) us -> defined_from I rho (f + c_order s) rhs ->
  let l := exp_poly_decomposition G simplify (expand (c_inhom s)) "n" in
  decomposition_values I rho inj (f + c_order s) l inh -> Forall (fun c => cbase c <> f0) inh ->
  last us 1 <> 0 -> lsolve_ok ls ->
  (let p := build_characteristic_equation lcm (f0 :: map inj us) in forall roots d, find_roots p = Some (roots, d) -> right_roots p roots d) -> lcm <> f0 ->
  summation_ok (hd f0 (map inj us)) f gos ->
  solve_linear_finite_order ls gos find_roots numbers lcm (map inj us) (not_all_polynomials l) inh f (fun z => inj (x0 (Z.to_nat z))) = Some X ->
  (exists y, solution_with I rho rhs f (c_order s) x0 y) /\
  forall y, solution_with I rho rhs f (c_order s) x0 y -> forall n, (f <= n)%nat -> X (Z.of_nat n) = inj (y n).
Proof. exact solution_right. Qed.
Print Assumptions C78_solution.

(** The values of the coefficients and of the parts of the inhomogeneous term that the theorem speaks of exist. *)
Theorem C78_values_exist : forall (I : interp) (rho : string -> R) (G : ginac), (forall l, ifun I FX l = None) -> (forall x, ginac_ok (with_x I x) G) ->
  forall (lm ms : Z) (rhs : expr) (s : cls), classify G lm ms rhs = inr s -> c_type s = Some CONST_COEFF ->
  forall N : nat,
  (defined_from I rho N rhs -> Forall x_free (c_coeffs s) -> exists us, coefficient_values I rho N (c_coeffs s) us) /\
  forall (K : Fld) (inj : R -> K), embedding K inj ->
  forall simplify expand : expr -> expr, (forall x e, refines (with_x I x) e (simplify e)) -> (forall x e, refines (with_x I x) e (expand e)) ->
  defined_from I rho N (c_inhom s) -> exists inh, decomposition_values I rho inj N (exp_poly_decomposition G simplify (expand (c_inhom s)) "n") inh.
Proof.
  exact (fun I rho G HX HG lm ms rhs s Hs Ht N => conj (coefficients_exist I rho G HX HG lm ms rhs s Hs Ht N)
    (fun K inj Emb si ex Hsi Hex => decomposition_exists I rho G HG s K inj Emb si ex Hsi Hex N)).
Qed.
Print Assumptions C78_values_exist.

(** The same with the root finder of the code: rational coefficients, square-free characteristic polynomial without pure power factor. *)
Theorem C78_with_root_finder_partial : forall (I : interp) (rho : string -> R) (G : ginac), (forall l, ifun I FX l = None) -> (forall x, ginac_ok (with_x I x) G) ->
  forall (lm ms : Z) (rhs : expr) (s : cls), classify G lm ms rhs = inr s -> c_type s = Some CONST_COEFF ->
  hd (Num 0%Qc) (c_coeffs s) = Num 0%Qc -> Forall unary_x (terms rhs) -> x_free (c_inhom s) ->
  forall simplify expand : expr -> expr, (forall x e, refines (with_x I x) e (simplify e)) -> (forall x e, refines (with_x I x) e (expand e)) ->
  forall (f : nat) (m : Z) (qs : list Qc) (inh : list (comp (K:=CF))) gos poly_factor fuel X x0,
  coefficient_values I rho (f + c_order s) (c_coeffs s) (map rv qs) -> defined_from I rho (f + c_order s) rhs ->
  let l := exp_poly_decomposition G simplify (expand (c_inhom s)) "n" in
  let p := build_characteristic_equation (K:=QcF) (zq m) (0%Qc :: qs) in
  decomposition_values (K:=CF) I rho RtoC (f + c_order s) l inh -> Forall (fun c => cbase c <> f0) inh ->
  last qs 1%Qc <> 0%Qc -> m <> 0%Z -> integer_coefficients p -> square_free p -> no_pure_power_factor p -> factorizer_ok poly_factor ->
  summation_ok (K:=CF) (hd (RtoC 0) (map qC qs)) f gos ->
  solve_linear_finite_order (K:=CF) gauss gos (fun _ => number_roots poly_factor fuel (SAdd p)) true (qC (zq m)) (map qC qs) (not_all_polynomials l) inh f (fun z => RtoC (x0 (Z.to_nat z))) = Some X ->
  (exists y, solution_with I rho rhs f (c_order s) x0 y) /\
  forall y, solution_with I rho rhs f (c_order s) x0 y -> forall n, (f <= n)%nat -> X (Z.of_nat n) = RtoC (y n).
Proof. exact solution_found. Qed.
Print Assumptions C78_with_root_finder_partial.

(** x(n) = x(n-1) + x(n-2) + n: every hypothesis of the last theorem holds, and the solver returns. *)
Example C78_case : forall x0 : nat -> R, exists s X, classify G0 lmax lmax fib_rhs = inr s /\ c_order s = 2%nat /\
  solve_linear_finite_order (K:=CF) gauss no_gosper (fun _ => number_roots (fun _ => []) 1 (SAdd golden)) true (qC (zq 1)) (map qC [1%Qc; 1%Qc]) false fib_inh 0
    (fun z => RtoC (x0 (Z.to_nat z))) = Some X /\
  (exists y, solution_with I1 rho0 fib_rhs 0 2 x0 y) /\
  forall y, solution_with I1 rho0 fib_rhs 0 2 x0 y -> forall n, X (Z.of_nat n) = RtoC (y n).
Proof.
  intros x0. destruct fib_runs as (s & Hs & Ht & Ho & Hc & Hi). destruct (fib_solved x0) as (X & EX). exists s, X. split; [exact Hs|]. split; [exact Ho|]. split; [exact EX|].
  pose proof (C78_with_root_finder_partial I1 rho0 G0 I1_x (fun x => Ast.G0_ok _) lmax lmax fib_rhs s Hs Ht) as T. rewrite Ho, Hc, Hi in T. cbv zeta in T.
  specialize (T eq_refl fib_unary eq_refl idE idE (fun x e rho v H => H) (fun x e rho v H => H) 0%nat 1%Z [1%Qc; 1%Qc] fib_inh no_gosper (fun _ => []) 1%nat X x0).
  rewrite fib_decomposition, fib_polynomial in T.
  destruct (T (fib_coefficients _) fib_defined (fib_inh_ok _) fib_bases) as [A B]; auto.
  - discriminate.
  - discriminate.
  - exact golden_int.
  - exact golden_square_free.
  - exact golden_no_pure_power.
  - exact no_factors.
  - apply no_gosper_ok.
  - split; [exact A|]. intros y Hy n. apply B; [exact Hy|lia].
Qed.

(** x(n) = -2 x(n-1) - 3 x(n-2) - 4 x(n-3) - 2 x(n-4), with the characteristic polynomial (y+1)^2 (y^2+2) (and no common divisor of the decrements, so the order is not
    reduced): the roots found for the factor y^2+2 are not its roots, and the solution returned is wrong at n = 4. *)
Theorem C78_exchanged_refuted : exists (rhs : expr) (s : cls), classify G0 lmax lmax rhs = inr s /\ c_type s = Some CONST_COEFF /\ c_order s = 4%nat /\ c_gcd s = 1%Z /\
  exists qs : list Qc, coefficient_values I1 rho0 4 (c_coeffs s) (map rv qs) /\
  let p := build_characteristic_equation (K:=QcF) (zq 1) (0%Qc :: qs) in
  let l := exp_poly_decomposition G0 idE (idE (c_inhom s)) "n" in
  exists square_free_factors, (forall y, pval p y = fold_right (fun fe acc => (fpow (K:=CF) (pval (fst fe) y) (snd fe) * acc)%C) (RtoC 1) square_free_factors) /\
  exists inh, decomposition_values (K:=CF) I1 rho0 RtoC 4 l inh /\
  forall x0 : nat -> R, x0 0%nat + 2 * x0 1%nat + x0 2%nat <> 0 -> exists X,
  solve_linear_finite_order (K:=CF) gauss no_gosper (fun _ => number_roots (fun _ => []) 1 (SMul square_free_factors)) true (qC (zq 1)) (map qC qs) (not_all_polynomials l) inh 0 (fun z => RtoC (x0 (Z.to_nat z))) = Some X /\
  forall y, solution_with I1 rho0 rhs 0 4 x0 y -> X 4%Z <> RtoC (y 4%nat).
Proof.
  destruct alt_runs as (s & Hs & Ht & Ho & Hg & Hc & Hi). exists alt_rhs, s. split; [exact Hs|]. split; [exact Ht|]. split; [exact Ho|]. split; [exact Hg|]. exists alt_coeffs.
  split; [rewrite Hc; repeat constructor; intros x n _; reflexivity|]. cbv zeta. rewrite Hi, alt_decomposition. exists alt_form. split; [exact alt_form_ok|]. exists alt_inh. split; [apply alt_inh_ok|].
  intros x0 N. destruct (alt_solved x0) as (X & EX & V). exists X. split; [exact EX|]. intros y [Y1 Y2] C. rewrite V in C. apply RtoC_inj in C.
  specialize (Y2 4%nat (le_n _)). unfold holds_at in Y2. pose proof (alt_value y 4 (le_n _)) as A. unfold at_n in A. rewrite A in Y2. cbn [Nat.sub] in Y2.
  assert (E : -2 * y 3%nat + (-3 * y 2%nat + (-4 * y 1%nat + (-2 * y 0%nat + 0))) = y 4%nat) by congruence. rewrite !Y1 in E by lia. lra.
Qed.
Print Assumptions C78_exchanged_refuted.
