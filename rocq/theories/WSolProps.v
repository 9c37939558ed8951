(** C83: the solutions of weighted-average recurrences, from the classified recurrence to the answer. *)
From Coq Require Import ZArith QArith Qcanon Reals List String Bool Lia Lra.
From Verif Require Import Ast ExprModel ExprSpec ExprProofs1 ExprProofs2 ExprCases SeqInterp ElimModel ElimSpec ElimProofs NonLinModel ClassModel ClassCases VerifySpec VerifyCases WClassModel WClassSpec WClassProofs WClassProofs2 WClassProps DomModel DomProps DrvModel CSolSpec CSolCases CollectProofs WSolModel WSolSpec WSolProofs WSolProofs2 WSolCases.
Import ListNotations.
Local Open Scope R_scope.
Local Open Scope list_scope.

(** Sums from lo to n-1.  If the recurrence is accepted, its right-hand side is F(n) s + H(n) with F(n) <> 0 for n > lo, where s is
    the sum, and [sol] is the solution of the associated first order recurrence in terms of x(0), then the answer is the solution,
    for every value of x(lo), at every index beyond lo.
    Missing: associated recurrences whose first valid index is not 0 and the weight -1 with a positive lower limit, see below;
    summands other than x(k); [n_free]: no sums or products over the symbol n in the expressions built. *)
Theorem C83_below_partial : forall I rho G, (forall x, ginac_ok (with_x I x) G) ->
  forall simplify_input simplify_all expand domain,
  (forall x e, refines (with_x I x) e (simplify_input e)) -> (forall x e, refines (with_x I x) e (simplify_all e)) ->
  forall rhs addend k lo w' h' w h rfo rew F H, let s := SumE k (Num (zq (Z.of_nat lo))) (n_plus (-1)) (Fun FX [Sym k]) in
  input_ok G simplify_input k lo (n_plus (-1)) rhs addend ->
  classify_weighted G simplify_input simplify_all expand domain rhs addend k (Num (zq (Z.of_nat lo))) (n_plus (-1)) (Fun FX [Sym k]) = Weighted w' h' w h rfo rew ->
  parts_from I rho s (simplify_input rhs) lo F H -> defined_from I rho (S lo) rhs ->
  forall sol, (forall n, (lo < n)%nat -> F n <> 0) -> is_num (-(1))%Qc w' = false -> n_free G simplify_all sol w' h' w h lo -> general_solution I rho rfo 0 sol ->
  x_only_as (Fun FX [Num 0%Qc]) (initial_term G w h lo) (shifted G (-1 - Z.of_nat lo) sol) ->
  forall x0, (exists y, solution_with I rho rhs lo 1 x0 y) /\
  forall y, solution_with I rho rhs lo 1 x0 y -> forall n, (lo < n)%nat -> at_n I rho y n (weighted_answer G expand sol w' h' w h rew lo) = Some (y n).
Proof. intros I rho G HG si sa ex dom Hsi Hsa rhs addend k lo w' h' w h rfo rew F H s Hin E P D sol. exact (answer_below I rho G HG si sa ex dom Hsi Hsa rhs addend k lo w' h' w h rfo rew F H Hin E P D ex sol). Qed.

(** Sums from lo to n, with a weight other than 1: likewise for c(n) s + r(n) with c(n) other than 0 and 1. *)
Theorem C83_at_partial : forall I rho G, (forall x, ginac_ok (with_x I x) G) ->
  forall simplify_input simplify_all expand domain,
  (forall x e, refines (with_x I x) e (simplify_input e)) -> (forall x e, refines (with_x I x) e (simplify_all e)) ->
  forall rhs addend k lo w' h' w h rfo rew c r, let s := SumE k (Num (zq (Z.of_nat lo))) (Sym "n") (Fun FX [Sym k]) in
  input_ok G simplify_input k lo (Sym "n") rhs addend ->
  classify_weighted G simplify_input simplify_all expand domain rhs addend k (Num (zq (Z.of_nat lo))) (Sym "n") (Fun FX [Sym k]) = Weighted w' h' w h rfo rew ->
  is_num 1%Qc (used_weight G s simplify_input rhs addend) = false ->
  parts_from I rho s (simplify_input rhs) lo c r -> defined_from I rho (S lo) rhs -> (forall n, (lo < n)%nat -> c n <> 1) ->
  forall sol, (forall n, (lo < n)%nat -> c n <> 0) -> is_num (-(1))%Qc w' = false -> n_free G simplify_all sol w' h' w h lo -> general_solution I rho rfo 0 sol ->
  x_only_as (Fun FX [Num 0%Qc]) (initial_term G w h lo) (shifted G (-1 - Z.of_nat lo) sol) ->
  forall x0, (exists y, solution_with I rho rhs lo 1 x0 y) /\
  forall y, solution_with I rho rhs lo 1 x0 y -> forall n, (lo < n)%nat -> at_n I rho y n (weighted_answer G expand sol w' h' w h rew lo) = Some (y n).
Proof. intros I rho G HG si sa ex dom Hsi Hsa rhs addend k lo w' h' w h rfo rew c r s Hin E NU P D N1 sol. exact (answer_at I rho G HG si sa ex dom Hsi Hsa rhs addend k lo w' h' w h rfo rew c r Hin E NU P D N1 ex sol). Qed.

(** Weight -1, sum from 0 to n-1: the answer is right at every index from 2 on.  Missing: the index 1 and positive lower limits, see below. *)
Theorem C83_minus_one_partial : forall I rho G, (forall x, ginac_ok (with_x I x) G) ->
  forall simplify_input simplify_all expand domain, (forall x e, refines (with_x I x) e (simplify_input e)) -> (forall x e, refines (with_x I x) e (expand e)) ->
  forall rhs addend k w' h' w h rfo rew F H, let s := SumE k (Num (zq 0)) (n_plus (-1)) (Fun FX [Sym k]) in
  input_ok G simplify_input k 0 (n_plus (-1)) rhs addend ->
  classify_weighted G simplify_input simplify_all expand domain rhs addend k (Num (zq 0)) (n_plus (-1)) (Fun FX [Sym k]) = Weighted w' h' w h rfo rew ->
  parts_from I rho s (simplify_input rhs) 0 F H -> defined_from I rho 1 rhs ->
  forall sol, is_num (-(1))%Qc w' = true -> not_bound "n" h -> forall x0 y, solution_with I rho rhs 0 1 x0 y ->
  forall n, (1 < n)%nat -> at_n I rho y n (weighted_answer G expand sol w' h' w h rew 0) = Some (y n).
Proof. intros I rho G HG si sa ex dom Hsi Hex rhs addend k w' h' w h rfo rew F H s Hin E P D sol Nm NB. exact (answer_minus_one I rho G HG si sa ex dom Hsi rhs addend k 0 w' h' w h rfo rew F H Hin E P D ex sol Hex eq_refl Nm NB). Qed.

(** x(n) = 2 sum(k, 1, n-1, x(k)) + n *)
Example C83_case : forall I rho, let '(w', h', w, h, rfo, rew) := get av_out in
  av_out = Weighted w' h' w h rfo rew /\ general_solution I rho rfo 0 av_sol /\
  forall x0, exists y, solution_with I rho av_rhs 1 1 x0 y /\ forall n, (1 < n)%nat -> at_n I rho y n (weighted_answer G0 idE av_sol w' h' w h rew 1) = Some (y n).
Proof. exact av_case. Qed.
(** x(n) = 2 sum(k, 1, n, x(k)) + n *)
Example C83_at_case : forall I rho, let '(w', h', w, h, rfo, rew) := get at_out in
  at_out = Weighted w' h' w h rfo rew /\ general_solution I rho rfo 0 at_sol /\
  forall x0, exists y, solution_with I rho at_rhs 1 1 x0 y /\ forall n, (1 < n)%nat -> at_n I rho y n (weighted_answer G0 idE at_sol w' h' w h rew 1) = Some (y n).
Proof. exact at_case. Qed.
(** x(n) = - sum(k, 0, n-1, x(k)) + n^2: the answer is n^2 - (n-1)^2, which is right from 2 on but not at 1, unless x(0) = 0. *)
Theorem C83_index_one_refuted : forall I rho, let '(w', h', w, h, rfo, rew) := get m0_out in
  m0_out = Weighted w' h' w h rfo rew /\ is_num (-(1))%Qc w' = true /\ not_bound "n" h /\
  (forall sol x0 y, solution_with I rho m0_rhs 0 1 x0 y -> (forall n, (1 < n)%nat -> at_n I rho y n (weighted_answer G0 idE sol w' h' w h rew 0) = Some (y n)) /\
    at_n I rho y 1 (weighted_answer G0 idE sol w' h' w h rew 0) = Some 1 /\ y 1%nat = 1 - x0 0%nat) /\
  forall x0, exists y, solution_with I rho m0_rhs 0 1 x0 y.
Proof. exact m0_case. Qed.
(** x(n) = - sum(k, 2, n-1, x(k)) + n^2: the answer is (n+2)^2 - (n+1)^2, since the inhomogeneous term has been shifted by the lower
    limit; that is 11 for n = 4, where every solution is 7. *)
Theorem C83_weight_minus_one_refuted : forall I rho, let '(w', h', w, h, rfo, rew) := get mo_out in
  mo_out = Weighted w' h' w h rfo rew /\ (forall x0, exists y, solution_with I rho mo_rhs 2 1 x0 y) /\
  forall sol x0 y, solution_with I rho mo_rhs 2 1 x0 y -> y 4%nat = 7 /\ at_n I rho y 4 (weighted_answer G0 idE sol w' h' w h rew 2) = Some 11.
Proof. exact mo_case. Qed.
(** x(n) = - n sum(k, 0, n-1, x(k)): the associated recurrence x(n) = ((n+1)(1-n)/n) x(n-1) is solved from x(1) on, as its first
    valid index is 1, and x(0), which is all that is replaced in its solution, does not occur there.  At 2 the answer has the
    value of x(1), that is -x(0), where the solution is 0. *)
Theorem C83_first_index_refuted : forall I rho,
  classify_weighted Gz idE va_simp idE any_domain va_rhs va_rhs "k" (Num (zq (Z.of_nat 0))) (n_plus (-1)) (Fun FX [Sym "k"]) = Weighted va_w (Num 0%Qc) va_w (Num 0%Qc) va_rfo false /\
  (exists c, ClassModel.classify Gz lmax lmax va_rfo = inr c /\ first_valid_index Gz va_numer va_denom idE va_roots 5 c = Some 1%Z) /\
  general_solution I rho va_rfo 1 va_sol /\ (forall x0, exists y, solution_with I rho va_rhs 0 1 x0 y) /\
  forall x0 y, solution_with I rho va_rhs 0 1 x0 y -> y 2%nat = 0 /\ at_n I rho y 2 (weighted_answer Gz idE va_sol va_w (Num 0%Qc) va_w (Num 0%Qc) false 0) = Some (- x0 0%nat).
Proof. exact va_case. Qed.

Print Assumptions C83_below_partial.
Print Assumptions C83_at_partial.
Print Assumptions C83_minus_one_partial.
Print Assumptions C83_index_one_refuted.
Print Assumptions C83_weight_minus_one_refuted.
Print Assumptions C83_first_index_refuted.
