(** C31 and C32: the verification of exact solutions of recurrences of finite order. *)
From Coq Require Import ZArith QArith Qcanon Reals List String Bool Lia Lra.
From Coquelicot Require Import Complex.
From Verif Require Import Fld CplxF Ast ExprModel ExprSpec ExprCases SeqInterp ElimModel ElimSpec DecompModel VerifyModel VerifySpec VerifyProofs VerifyProofs2 VerifyProofs3 VerifyCases.
Import ListNotations.
Local Open Scope list_scope.
Local Open Scope R_scope.

(** * C32 *)
(** As many zeroes at 0, 1, 2, ... as there are exponentials: the sum of exponentials is zero
    everywhere, in any field (in particular for complex bases), and it is even so if bases coincide. *)
Theorem C32_exponential_sums : forall (K : Fld) (l : list (K * K)),
  (forall i, (i < List.length l)%nat -> exp_sum_at l i = f0) -> forall n, exp_sum_at l n = f0.
Proof. intros K l H. exact (exp_sum_vanish (List.length l) l eq_refl H). Qed.
(** The tests done by the verification are conclusive for differences c n^k d^n + ... with at most
    as many bases as tests.  A summand "n" is put with the wrong power of n, so that it needs a base
    of its own.  Missing: the number of tests is taken from the recurrence and is not compared to the
    bases in the difference; real values only. *)
Theorem C32_tests_partial : forall I rho G, (forall x, ginac_ok (with_x I x) G) -> n_not_bound G ->
  forall simplify_all, sound_simplification I simplify_all ->
  forall y ds num_tests (max_degree : nat) diff cs, (1 <= num_tests)%nat -> (List.length ds <= num_tests)%nat ->
  exp_polynomial I rho y ds diff -> not_bound "n" diff -> (bare_n diff -> (2 <= count_occ Req_EM_T ds 1%R)%nat) ->
  buckets G max_degree diff = Some cs -> forallb (passes_tests G simplify_all num_tests) cs = true ->
  forall n, at_n I rho y n diff = Some 0.
Proof.
  intros I rho G HG HN sa Hs y ds nt md diff cs H1 H2 H3 H4 H5 H6 H7.
  exact (tests_sound I rho G HG sa Hs y ds HN nt md diff cs H1 H2 H3 H4 H5 H6 H7).
Qed.
(** n + 1 - 2^n has the two bases 1 and 2, passes two tests, and is not zero: the summand n is
    added to the constant term. *)
Theorem C32_bare_n_refuted : forall I rho y, exp_polynomial I rho y [1; 2] bn_diff /\
  (exists cs, buckets G0 0 bn_diff = Some cs /\ forallb (passes_tests G0 simp 2) cs = true) /\
  at_n I rho y 2 bn_diff = Some (-1).
Proof. intros I rho y. exact (conj (bn_form I rho y) (conj bn_passes (bn_nonzero I rho y))). Qed.
(** 3 i^n - 3 i^n over the complex numbers. *)
Example C32_exponential_used : forall n, exp_sum_at (K := CF) [(RtoC 3, Ci); (fopp (f := CF) (RtoC 3), Ci)] n = f0.
Proof. apply C32_exponential_sums. intros i _. apply (exp_sum_cancel (K := CF)). Qed.
(** 0 n^2 + 3 - 3: one base, two powers of n. *)
Definition ex_diff : expr := Add [Mul [Num 0%Qc; Pow (Sym "n") (Num (zq 2))]; Num (zq 3); Num (zq (-3))].
Example C32_tests_used : forall I rho y, (forall n, at_n I rho y n ex_diff = Some 0) /\ ~ bare_n ex_diff.
Proof.
  intros I rho y. split.
  - assert (B : exists cs, buckets G0 2 ex_diff = Some cs /\ forallb (passes_tests G0 simp 1) cs = true) by (eexists; split; vm_compute; reflexivity).
    destruct B as (cs & B1 & B2).
    refine (C32_tests_partial I rho G0 (fun x => G0_ok _) G0_n_not_bound simp (simp_sound I) y [1] 1 2 ex_diff cs _ _ _ _ _ B1 B2); cbn [List.length]; try lia.
    + constructor; [|constructor; [|constructor; [|constructor]]].
      * apply (ES_product I rho y [1] (Pow (Sym "n") (Num (zq 2))) 2 [Num 0%Qc] [] 1); [right; reflexivity|constructor; [exact Logic.I|constructor]|left; auto|].
        exists 0. intros n. unfold at_n. cbn [app eval fold_right olift2]. rewrite rv_0. f_equal. ring.
      * apply ES_geometric with (d := 1); [left; auto| |exact Logic.I|intros l C; discriminate C]. exists 3. intros n. unfold at_n. cbn [eval]. rewrite rv_zq, pow1. f_equal. ring.
      * apply ES_geometric with (d := 1); [left; auto| |exact Logic.I|intros l C; discriminate C]. exists (-3). intros n. unfold at_n. cbn [eval]. rewrite rv_zq, pow1. f_equal. ring.
    + repeat split.
    + intros [C|[C|[C|[]]]]; discriminate C.
  - intros [C|[C|[C|[]]]]; discriminate C.
Qed.
Print Assumptions C32_exponential_sums.
Print Assumptions C32_tests_partial.
Print Assumptions C32_bare_n_refuted.

(** * C31 *)
(** Numeric initial conditions: if the solution [p_solution] (with the values [y]) is accepted, it
    has the initial values, and satisfies the recurrence wherever the right-hand side is defined.
    Missing: with constant coefficients, the difference between the two sides must have no more
    bases than there are tests ([few_exponentials], see C32); the order reduction's answer is not
    covered. *)
Theorem C31_numeric_partial : forall I rho G, (forall x, ginac_ok (with_x I x) G) -> x_kept G -> n_not_bound G ->
  forall simplify_all simplify_sum rewrite expand decomp_simplify degree,
  sound_simplification I simplify_all -> sound_simplification I simplify_sum -> sound_simplification I rewrite -> sound_simplification I expand ->
  forall partial p y, (1 <= p_order p)%nat -> p_ics p <> [] -> p_reduced p = None ->
  x_outside (p_rhs p) = true -> x_free (p_solution p) -> not_bound "n" (p_solution p) ->
  (p_const p = true -> few_exponentials I rho y (List.length (exp_poly_decomposition G decomp_simplify (expand (p_inhom p)) "n") + p_order p)
                         (new_residual G rewrite expand (p_order p) (p_solution p) (p_rhs p))) ->
  forall F, conditions_from (p_fvi p) (p_order p) (p_ics p) F -> has_values I rho F (p_solution p) y ->
  accepted (verify_finite_order G simplify_all simplify_sum rewrite expand decomp_simplify degree partial p) ->
  (forall i e, (F <= i < F + p_order p)%nat -> In (i, e) (p_ics p) -> (forall e', In (i, e') (p_ics p) -> e' = e) -> forall m, at_n I rho y m e = Some (y i)) /\
  (forall n w, (F + p_order p <= n)%nat -> at_n I rho y n (p_rhs p) = Some w -> y n = w).
Proof. exact numeric_sound_from. Qed.
Theorem C31_conditions_exist : forall p, (1 <= p_order p)%nat -> exists F, conditions_from (p_fvi p) (p_order p) (p_ics p) F /\
  forall F', conditions_from (p_fvi p) (p_order p) (p_ics p) F' -> F' = F.
Proof. exact conditions_unique. Qed.
(** Symbolic initial conditions x(f), ..., x(f+k-1): for every choice [c] of them, the accepted
    solution agrees with them and satisfies the recurrence.  Missing: as above; and the decrements
    have no common divisor. *)
Theorem C31_symbolic_partial : forall I rho G, (forall x, ginac_ok (with_x I x) G) -> x_kept G -> n_not_bound G ->
  forall simplify_all simplify_sum rewrite expand decomp_simplify degree,
  sound_simplification I simplify_all -> sound_simplification I simplify_sum -> sound_simplification I rewrite -> sound_simplification I expand ->
  forall partial p c y, (1 <= p_order p)%nat -> p_ics p = [] -> p_gcd p = 1%nat -> p_reduced p = None ->
  linear_rhs I rho (p_fvi p + p_order p) (p_order p) (p_rhs p) (p_inhom p) ->
  x_outside (p_rhs p) = true -> x_outside (p_inhom p) = true -> not_bound "n" (p_solution p) ->
  ic_summands (p_solution p) -> ic_sum (p_fvi p) (p_order p) (fst (split_solution G true (p_solution p))) ->
  (p_const p = true ->
     let '(with_ic, part) := split_solution G true (p_solution p) in
     (forall coeffs e, fill_coefficients G (p_gcd p) (p_fvi p) (p_order p) with_ic = Some coeffs -> In e coeffs ->
        few_exponentials I rho (seq_of I rho e) (p_order p) (new_residual G rewrite expand (p_order p) e (gsub G (p_rhs p) (p_inhom p)))) /\
     few_exponentials I rho (seq_of I rho part) (List.length (exp_poly_decomposition G decomp_simplify (expand (p_inhom p)) "n") + p_order p)
       (new_residual G rewrite expand (p_order p) part (p_rhs p))) ->
  (forall n, (p_fvi p <= n)%nat -> at_n I rho c n (p_solution p) = Some (y n)) ->
  accepted (verify_finite_order G simplify_all simplify_sum rewrite expand decomp_simplify degree partial p) ->
  (forall i, (i < p_order p)%nat -> y (p_fvi p + i)%nat = c (p_fvi p + i)%nat) /\
  (forall n, (p_fvi p + p_order p <= n)%nat -> at_n I rho y n (p_rhs p) = Some (y n)).
Proof. exact symbolic_sound. Qed.
(** (n^2+3n)/2 is declared provably correct for x(n) = x(n-1) + 2^n, x(0) = 0, but x(2) = 6 is 5 in it. *)
Theorem C31_wrong_solution_refuted : forall I rho,
  verify_finite_order G0 simp idE idE bn_expand idE (fun _ => 0%nat) false bn_problem = Provably_correct /\
  (sound_simplification I simp /\ sound_simplification I idE /\ sound_simplification I bn_expand) /\
  has_values I rho 0 (p_solution bn_problem) bn_y /\ at_n I rho bn_y 2 (p_rhs bn_problem) = Some 6 /\ bn_y 2 <> 6.
Proof.
  intros I rho. exact (conj bn_accepted (conj (conj (simp_sound I) (conj (idE_sound I) (bn_expand_sound I))) (conj (bn_values I rho) (bn_wrong I rho)))).
Qed.
(** x(5) is declared provably correct as a solution of x(n) = x(n-1) in terms of x(0): the argument of a
    single x(.) is not looked at. *)
Theorem C31_single_condition_refuted : forall I rho,
  verify_finite_order G0 simp idE idE idE idE (fun _ => 0%nat) false x5_problem = Provably_correct /\
  (forall c n, at_n I rho c n (p_solution x5_problem) = Some (c 5%nat)) /\
  p_rhs x5_problem = x_n_plus (-1) /\ p_fvi x5_problem = 0%nat.
Proof. intros I rho. exact (conj x5_accepted (conj (x5_values I rho) (conj eq_refl eq_refl))). Qed.
(** Without recurrence (order 0) any solution is declared provably correct. *)
Theorem C31_order_zero : forall G simplify_all simplify_sum rewrite expand decomp_simplify degree partial p, p_order p = 0%nat ->
  verify_finite_order G simplify_all simplify_sum rewrite expand decomp_simplify degree partial p = Provably_correct.
Proof. intros G sa ss rw ex ds dg partial p H. unfold verify_finite_order. now rewrite H. Qed.
(** A solution found by order reduction is not examined with symbolic initial conditions: the answer for the
    reduced recurrence is returned, whatever the solution. *)
Theorem C31_reduced : forall G simplify_all simplify_sum rewrite expand decomp_simplify degree partial rhs inhom order gcd fvi roots sol reduced, (1 <= order)%nat ->
  verify_finite_order G simplify_all simplify_sum rewrite expand decomp_simplify degree partial (MkProblem rhs inhom order gcd fvi true roots [] sol (Some reduced)) = reduced true.
Proof. intros G sa ss rw ex ds dg partial rhs inhom order gcd fvi roots sol r H. unfold verify_finite_order. cbn [p_order symbolic p_ics p_const p_reduced andb]. destruct order; [lia|reflexivity]. Qed.
(** x(n) = x(n-1) + 1, x(0) = 3, solution n + 3. *)
Example C31_numeric_used : forall I rho n, (1 <= n)%nat -> at_n I rho (fun n => INR n + 3) n ok_rhs = Some (INR n + 3).
Proof.
  intros I rho n Hn.
  assert (V : at_n I rho (fun n => INR n + 3) n ok_rhs = Some (INR (n - 1) + 3 + 1)).
  { unfold at_n, ok_rhs. rewrite Ast.eval_Add2. pose proof (ElimProofs.x_plus_val I rho (fun n => INR n + 3) n (-1) (n - 1) ltac:(lia)) as X.
    unfold at_n in X. rewrite X. cbn [eval olift2]. now rewrite rv_1. }
  rewrite V. f_equal. symmetry.
  refine (proj2 (C31_numeric_partial I rho G0 (fun x => G0_ok _) G0_x_kept G0_n_not_bound simp idE idE ok_expand idE (fun _ => 0%nat)
            (simp_sound I) (idE_sound I) (idE_sound I) (simp_sound I) false ok_problem (fun n => INR n + 3) _ _ eq_refl eq_refl eq_refl _ _ 0%nat _ _ _) n _ _ V).
  - cbn. lia.
  - discriminate.
  - repeat split.
  - intros _. apply ok_few.
  - split; [cbn; lia|split; [|left; reflexivity]]. intros i e [E|[]]. injection E as <- _. cbn. lia.
  - apply ok_values.
  - left. apply ok_accepted.
  - cbn. lia.
Qed.
(** x(0) + n. *)
Example C31_symbolic_used : forall I rho c n, (1 <= n)%nat -> at_n I rho (fun n => c 0%nat + INR n) n ok_rhs = Some (c 0%nat + INR n).
Proof.
  intros I rho c n Hn.
  refine (proj2 (C31_symbolic_partial I rho G0 (fun x => G0_ok _) G0_x_kept G0_n_not_bound simp idE idE ok_expand idE (fun _ => 0%nat)
            (simp_sound I) (idE_sound I) (idE_sound I) (simp_sound I) false sy_problem c (fun n => c 0%nat + INR n) _ eq_refl eq_refl eq_refl (sy_linear I rho) eq_refl eq_refl _ (proj1 sy_ic) (proj2 sy_ic) _ _ _) n _).
  - cbn. lia.
  - repeat split.
  - intros _. apply (sy_few I rho (seq_of I rho)).
  - intros m _. apply sy_values.
  - left. apply sy_accepted.
  - cbn. lia.
Qed.
Print Assumptions C31_numeric_partial.
Print Assumptions C31_conditions_exist.
Print Assumptions C31_symbolic_partial.
Print Assumptions C31_wrong_solution_refuted.
Print Assumptions C31_single_condition_refuted.
Print Assumptions C31_order_zero.
Print Assumptions C31_reduced.
