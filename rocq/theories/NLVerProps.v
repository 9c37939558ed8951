(** C77: what the verification of a non-linear recurrence says about the solution. *)
From Coq Require Import ZArith QArith Qcanon Reals List String Bool Lia Lra.
From Verif Require Import Ast ExprModel ExprSpec ExprCases SeqInterp ElimModel ElimSpec DecompModel NonLinModel NonLinSpec NonLinProofs NonLinProofs2 NonLinCases VerifyModel VerifySpec VerifyProofs VerifyProofs2 VerifyProofs3 VerifyCases NLVerModel NLVerSpec NLVerProofs NLVerCases.
Import ListNotations.
Local Open Scope R_scope.
Local Open Scope list_scope.

(** PROVABLY_CORRECT, numeric conditions: the sequence of the values of the solution has the given
    initial values and satisfies the recurrence.  [q] is the associated linear recurrence, which has no conditions. *)
Theorem C77_provably_numeric : forall I rho G, (forall x, ginac_ok (with_x I x) G) -> x_kept G ->
  forall simplify_all simplify_sum rewrite, sound_simplification I simplify_all -> sound_simplification I simplify_sum -> sound_simplification I rewrite ->
  forall p y F, (1 <= p_order p)%nat -> p_ics p <> [] ->
  x_outside (p_rhs p) = true -> x_free (p_solution p) -> not_bound "n" (p_solution p) ->
  conditions_from (p_fvi p) (p_order p) (p_ics p) F -> has_values I rho F (p_solution p) y ->
  forall G' sa' ss' rw' expand decomp_simplify degree q weighted, (1 <= p_order q)%nat -> p_ics q = [] ->
  (forall r, p_reduced q = Some r -> p_const q = true /\ r true <> Provably_correct) ->
  verify_exact_solution Non_linear true (fun b => verify_directly G simplify_all simplify_sum rewrite b p) weighted
    (fun b => verify_finite_order G' sa' ss' rw' expand decomp_simplify degree b q) false = Some Provably_correct ->
  (forall i e, (F <= i < F + p_order p)%nat -> In (i, e) (p_ics p) -> (forall e', In (i, e') (p_ics p) -> e' = e) -> forall m, at_n I rho y m e = Some (y i)) /\
  (forall n w, (F + p_order p <= n)%nat -> at_n I rho y n (p_rhs p) = Some w -> y n = w).
Proof.
  intros I rho G HG HK sa ss rw Hsa Hss Hrw p y F Ho Hi O Fr NB HF V G' sa' ss' rw' ex dsi dg q w Hq Iq Rq E.
  exact (direct_numeric I rho G HG HK sa ss rw Hsa Hss Hrw false p y Ho Hi O Fr NB F HF V (provably_direct _ _ _ _ _ _ _ _ _ _ _ _ _ _ Hq Iq Rq E)).
Qed.
Print Assumptions C77_provably_numeric.
(** x(n) = x(n-1)^2, x(0) = 2: 2^(2^n) is accepted. *)
Example C77_provably_numeric_case : forall I rho weighted,
  sound_simplification I sq_simp /\ (1 <= p_order sq_problem)%nat /\ p_ics sq_problem <> [] /\ conditions_from 0 1 (p_ics sq_problem) 0 /\
  has_values I rho 0 sq_sol (fun n => 2 ^ (2 ^ n)) /\ (forall n, (1 <= n)%nat -> at_n I rho (fun n => 2 ^ (2 ^ n)) n sq_rhs = Some ((2 ^ (2 ^ (n - 1))) ^ 2)) /\
  verify_exact_solution Non_linear true (fun b => verify_directly G0 sq_simp idE idE b sq_problem) weighted
    (fun b => verify_finite_order G0 simp idE idE simp idE (fun _ => 1%nat) b gr_lin) false = Some Provably_correct.
Proof.
  intros I rho w. split; [apply sq_simp_sound|]. split; [cbn; lia|]. split; [discriminate|]. split.
  { split; [lia|]. split; [|left; reflexivity]. intros i e [E|[]]. injection E as <- _. lia. }
  split; [intros n _; apply tower_val; apply two_val|]. split; [intros n Hn; now apply sq_rhs_val|].
  cbn [verify_exact_solution negb]. now rewrite sq_accepted.
Qed.

(** PROVABLY_CORRECT, symbolic conditions x(f), ..., x(f+k-1): for every choice [c] of them. *)
Theorem C77_provably_symbolic : forall I rho G, (forall x, ginac_ok (with_x I x) G) -> x_kept G -> n_not_bound G -> (forall l, ifun I FX l = None) ->
  forall simplify_all simplify_sum rewrite, sound_simplification I simplify_all -> sound_simplification I simplify_sum -> sound_simplification I rewrite ->
  keeps_outside simplify_all -> keeps_outside simplify_sum ->
  forall p c y, (1 <= p_order p)%nat -> p_ics p = [] -> p_inhom p = Num 0%Qc ->
  x_outside (p_rhs p) = true -> x_outside (p_solution p) = true -> not_bound "n" (p_solution p) -> only_conditions (p_fvi p) (p_order p) (p_solution p) ->
  (forall n, (p_fvi p <= n)%nat -> at_n I rho c n (p_solution p) = Some (y n)) ->
  forall G' sa' ss' rw' expand decomp_simplify degree q weighted, (1 <= p_order q)%nat -> p_ics q = [] ->
  (forall r, p_reduced q = Some r -> p_const q = true /\ r true <> Provably_correct) ->
  verify_exact_solution Non_linear true (fun b => verify_directly G simplify_all simplify_sum rewrite b p) weighted
    (fun b => verify_finite_order G' sa' ss' rw' expand decomp_simplify degree b q) false = Some Provably_correct ->
  (forall i, (p_fvi p <= i < p_fvi p + p_order p)%nat -> y i = c i) /\
  (forall n w, (p_fvi p + p_order p <= n)%nat -> at_n I rho y n (p_rhs p) = Some w -> y n = w).
Proof.
  intros I rho G HG HK NBG HX sa ss rw Hsa Hss Hrw Osa Oss p c y Ho Hi Hh O Os NB OC V G' sa' ss' rw' ex dsi dg q w Hq Iq Rq E.
  exact (direct_symbolic I rho G HG HK NBG sa ss rw Hsa Hss Hrw Osa Oss false p c y Ho Hi Hh HX O Os NB OC V (provably_direct _ _ _ _ _ _ _ _ _ _ _ _ _ _ Hq Iq Rq E)).
Qed.
Print Assumptions C77_provably_symbolic.
(** x(n) = x(n-1)^2: x(0)^(2^n) is accepted. *)
Example C77_provably_symbolic_case : forall rho weighted,
  sound_simplification I1 sq_simp /\ keeps_outside sq_simp /\ x_outside sq_sym = true /\ only_conditions 0 1 sq_sym /\
  (forall c n, at_n I1 rho c n sq_sym = Some (c 0%nat ^ (2 ^ n))) /\
  verify_exact_solution Non_linear true (fun b => verify_directly G0 sq_simp idE idE b sy2_problem) weighted
    (fun b => verify_finite_order G0 simp idE idE simp idE (fun _ => 1%nat) b gr_lin) false = Some Provably_correct.
Proof.
  intros rho w. split; [apply sq_simp_sound|]. split; [apply zap_out|]. split; [reflexivity|]. split.
  { cbn [sq_sym tower only_conditions two n_]. split; [|auto]. exists 0%nat. split; [lia|reflexivity]. }
  split; [intros c n; apply tower_val; apply x0_val|]. cbn [verify_exact_solution negb]. now rewrite sy2_accepted.
Qed.

(** PARTIAL_PROVABLY_CORRECT: the linear recurrence satisfied by the logarithms was verified, and
    the reported solution is the general solution with positive initial values.  Missing: decrements with a
    common divisor, a first valid index other than 0. *)
Theorem C77_partially_correct_partial : forall I rho G, (forall x, ginac_ok (with_x I x) G) -> x_kept G -> n_not_bound G ->
  forall simplify_all simplify_sum rewrite expand decomp_simplify degree,
  sound_simplification I simplify_all -> sound_simplification I simplify_sum -> sound_simplification I rewrite -> sound_simplification I expand ->
  forall qlcm simp_in simp_log domain_ok rhs base b p q weighted,
  log_exp_interp I -> preserves_x I simp_in -> preserves_x I simp_log ->
  rewrite_non_linear G qlcm simp_in simp_log domain_ok rhs = NL_log base (p_rhs q) -> base_value I base b ->
  not_nested rhs -> defined_on_positive I rho (p_order q) rhs ->
  (match rhs with Mul _ => positive_product I rho (p_order q) (simp_in (substitute_x_function G base EXPONENT rhs)) | _ => True end) ->
  not_nested (gpow G base (p_solution q)) ->
  (1 <= p_order q)%nat -> p_fvi q = 0%nat -> p_ics q = [] -> p_gcd q = 1%nat -> p_reduced q = None ->
  linear_rhs I rho (p_order q) (p_order q) (p_rhs q) (p_inhom q) ->
  x_outside (p_rhs q) = true -> x_outside (p_inhom q) = true -> not_bound "n" (p_solution q) ->
  ic_summands (p_solution q) -> ic_sum 0 (p_order q) (fst (split_solution G true (p_solution q))) ->
  (p_const q = true ->
     let '(with_ic, part) := split_solution G true (p_solution q) in
     (forall coeffs e, fill_coefficients G 1 0 (p_order q) with_ic = Some coeffs -> In e coeffs ->
        few_exponentials I rho (seq_of I rho e) (p_order q) (new_residual G rewrite expand (p_order q) e (gsub G (p_rhs q) (p_inhom q)))) /\
     few_exponentials I rho (seq_of I rho part) (List.length (exp_poly_decomposition G decomp_simplify (expand (p_inhom q)) "n") + p_order q)
       (new_residual G rewrite expand (p_order q) part (p_rhs q))) ->
  (forall c n, exists v, at_n I rho c n (p_solution q) = Some v) ->
  verify_exact_solution Non_linear true (fun b => verify_directly G simplify_all simplify_sum rewrite b p) weighted
    (fun b => verify_finite_order G simplify_all simplify_sum rewrite expand decomp_simplify degree b q) false = Some Partially_correct ->
  general_solution I rho (p_order q) rhs (log_solution G simp_in simp_log base (p_solution q)) positive.
Proof. exact partially_sound. Qed.
Print Assumptions C77_partially_correct_partial.
(** x(n) = 2^n x(n-1)^2, whose logarithms to the base 2 satisfy x(n) = 2 x(n-1) + n. *)
Example C77_partially_case : forall rho weighted,
  sound_simplification I1 gr_simp /\ preserves_x I1 gr_log /\
  rewrite_non_linear G0 qmax (fun e => e) gr_log (fun _ => true) gr_rhs = NL_log two (p_rhs gr_lin) /\
  not_nested gr_rhs /\ defined_on_positive I1 rho 1 gr_rhs /\ positive_product I1 rho 1 (substitute_x_function G0 two EXPONENT gr_rhs) /\
  not_nested (gpow G0 two gr_sol) /\ linear_rhs I1 rho 1 1 gr_new n_ /\
  ic_summands gr_sol /\ ic_sum 0 1 (fst (split_solution G0 true gr_sol)) /\
  (let '(with_ic, part) := split_solution G0 true gr_sol in
     (forall coeffs e, fill_coefficients G0 1 0 1 with_ic = Some coeffs -> In e coeffs ->
        few_exponentials I1 rho (seq_of I1 rho e) 1 (new_residual G0 idE gr_simp 1 e (gsub G0 gr_new n_))) /\
     few_exponentials I1 rho (seq_of I1 rho part) (List.length (exp_poly_decomposition G0 idE (gr_simp n_) "n") + 1) (new_residual G0 idE gr_simp 1 part gr_new)) /\
  (forall c n, exists v, at_n I1 rho c n gr_sol = Some v) /\
  verify_exact_solution Non_linear true (fun b => verify_directly G0 gr_simp idE idE b gr_problem) weighted
    (fun b => verify_finite_order G0 gr_simp idE idE gr_simp idE (fun _ => 1%nat) b gr_lin) false = Some Partially_correct.
Proof.
  intros rho w. split; [apply gr_simp_sound|]. split; [exact gr_log_preserves|]. split; [exact gr_rewrites|]. split; [cbn; tauto|].
  split; [apply gr_defined|]. split; [apply gr_positive|]. split; [cbn; tauto|]. split; [apply gr_linear|]. split; [apply gr_ic|]. rewrite gr_split. split; [apply gr_ic|].
  split; [apply gr_few|]. split; [apply gr_total|]. apply gr_answer.
Qed.

(** x(n) = c x(n-1)^a (no associated recurrence, order 0) is declared provably correct without a
    check; the solution reported is the right one for every positive x(0). *)
Theorem C77_unchecked : forall I G, (forall x, ginac_ok (with_x I x) G) -> forall simplify_all simplify_sum rewrite p weighted associated qlcm simp_in simp_log domain_ok rho rhs c a,
  p_order p = 0%nat -> rewrite_non_linear G qlcm simp_in simp_log domain_ok rhs = NL_simple c a -> c <> 0%Qc -> a <> 1%Qc ->
  verify_exact_solution Non_linear true (fun b => verify_directly G simplify_all simplify_sum rewrite b p) weighted associated false = Some Provably_correct /\
  general_solution I rho 1 rhs (simple_solution G c a) positive_start.
Proof.
  intros I G HG sa ss rw p w asc ql si sl dom rho rhs c a Ho R Hc Ha. split; [cbn [verify_exact_solution negb]; unfold verify_directly; now rewrite Ho|exact (simple_accepted I G HG ql si sl dom rho rhs c a R Hc Ha)].
Qed.
Print Assumptions C77_unchecked.
Example C77_unchecked_case : rewrite_non_linear G0 first_arg (fun e => e) (fun e => e) (fun _ => true) sq_rhs = NL_simple 1 (zq 2) /\ zq 2 <> 1%Qc.
Proof. split; [|intros E; apply (f_equal rv) in E; rewrite rv_zq, rv_1 in E; lra]. unfold sq_rhs, two. cbn [rewrite_non_linear constant_decrement n_plus]. change (String.eqb "n" "n") with true. cbn iota. now replace (Qc_eqb _ 1) with true by (vm_compute; reflexivity). Qed.

(** The verification of a right solution may break down: with simplifications that are sound but do not
    reduce the difference to 0, a function for linear recurrences is called on the non-linear one. *)
Theorem C77_breaks_refuted : forall I rho weighted associated,
  sound_simplification I simp /\ sound_simplification I idE /\ has_values I rho 0 sq_sol (fun n => 2 ^ (2 ^ n)) /\
  solves_from I rho 1 sq_rhs (fun n => 2 ^ (2 ^ n)) /\
  verify_exact_solution Non_linear true (fun b => verify_directly G0 simp idE idE b sq_problem) weighted associated false = Some Broken.
Proof.
  intros I rho w asc. split; [apply simp_sound|]. split; [apply idE_sound|]. split; [intros n _; apply tower_val; apply two_val|]. split.
  - intros n Hn. unfold holds_at. etransitivity; [exact (sq_rhs_val I rho (fun n => 2 ^ (2 ^ n)) n Hn)|]. cbn beta. apply (f_equal Some). rewrite <- pow_mult. f_equal. destruct n; [lia|]. replace (S n - 1)%nat with n by lia. cbn [Nat.pow]. lia.
  - cbn [verify_exact_solution negb]. now rewrite sq_broken.
Qed.
Print Assumptions C77_breaks_refuted.

(** Weighted averages: PROVABLY_CORRECT only from the direct verification or from the associated recurrence;
    functional equations are never accepted, nor is anything without an exact solution. *)
Theorem C77_others : forall finite weighted associated partial,
  verify_exact_solution Functional_equation true finite weighted associated partial = Some Inconclusive /\
  (forall t, verify_exact_solution t false finite weighted associated partial = None) /\
  (verify_exact_solution Weighted_average true finite weighted associated partial = Some Provably_correct ->
     weighted = Provably_correct \/ (partial = false /\ weighted = Inconclusive /\ associated true = Provably_correct)).
Proof.
  intros finite weighted associated partial. split; [reflexivity|]. split; [reflexivity|]. cbn [verify_exact_solution negb].
  destruct weighted; auto; try discriminate. destruct partial; [discriminate|]. intros E. right. repeat split; congruence.
Qed.
Print Assumptions C77_others.
