(** C34: the verification of bounds. *)
From Coq Require Import ZArith QArith Qcanon Reals List String Bool Lia Lra.
From Verif Require Import Ast ExprModel ExprSpec ExprCases SeqInterp ElimModel ElimSpec VerifyModel VerifySpec VerifyProofs3 VerifyCases BoundVModel BoundVSpec BoundVProofs.
Import ListNotations.
Local Open Scope list_scope.
Local Open Scope R_scope.

(** Whatever the functional equation, every expression in n without x(.) is "provably" an upper bound and a
    lower bound; so is every expression in which x(.) is applied to initial indices only, as it
    is in all bounds that are computed: the terms to be verified are those for which
    has_only_symbolic_initial_conditions fails, and it holds for terms without x(.). *)
Theorem C34_everything_accepted_refuted : forall G simplify_sum simplify_input simplify_log kind arg rhs bound condition,
  has_only_symbolic_initial_conditions (simplify_sum bound) = true \/ x_free (simplify_sum bound) ->
  verify_bounds G simplify_sum simplify_input simplify_log kind None arg rhs (Some bound) condition = Some Provably_correct.
Proof.
  intros G ss si sl kind arg rhs bound condition H. unfold verify_bounds. f_equal. apply always_correct. destruct H; auto. now apply free_only.
Qed.
(** x(n) = x(n/2) + 1, x(1) = 0: 0 is declared an upper bound, and x(2) = 1; 5 is declared a lower bound. *)
Definition wrong_rhs : expr := Add [Fun FX [Mul [Num hq; Sym "n"]]; Num 1%Qc].
Theorem C34_wrong_bound_refuted : forall G,
  verify_bounds G idE idE idE Upper None (Mul [Num hq; Sym "n"]) wrong_rhs (Some (Num 0%Qc)) 1 = Some Provably_correct /\
  verify_bounds G idE idE idE Lower None (Mul [Num hq; Sym "n"]) wrong_rhs (Some (Num (zq 5))) 1 = Some Provably_correct /\
  exists x, functional_equation 1 2 (fun _ => 1) x /\ 0 < x 2%nat < 5.
Proof.
  intros G. split; [|split]; [apply C34_everything_accepted_refuted; left; reflexivity|apply C34_everything_accepted_refuted; left; reflexivity|].
  exists (fun n => INR (Nat.log2 n)). split; [|cbn; lra]. intros n Hn.
  rewrite <- Nat.div2_div. destruct (Nat.Even_or_Odd n) as [[m ->]|[m ->]].
  - rewrite Nat.div2_double, Nat.log2_double by lia. rewrite S_INR. ring.
  - replace (Nat.div2 (2 * m + 1)) with m by (rewrite Nat.add_1_r, Nat.div2_succ_double; reflexivity).
    rewrite Nat.log2_succ_double by lia. rewrite S_INR. ring.
Qed.
(** If there is an exact solution, it is verified instead of the bound; without solution and bound an exception is thrown. *)
Theorem C34_exact_first : forall G simplify_sum simplify_input simplify_log kind arg rhs condition,
  (forall v bound, verify_bounds G simplify_sum simplify_input simplify_log kind (Some v) arg rhs bound condition = Some v) /\
  verify_bounds G simplify_sum simplify_input simplify_log kind None arg rhs None condition = None.
Proof. intros. split; reflexivity. Qed.
(** The test ok_inequalities: the sum c n^k + d is non-negative from the condition on. *)
Theorem C34_inequalities : forall G I, ginac_ok I G -> forall rho l condition n v, ok_inequalities G l condition = true -> n_survives G l ->
  (condition <= n)%nat -> eval I (upd rho "n" (INR n)) (Add l) = Some v -> 0 <= v.
Proof. intros G I HG rho. exact (ok_inequalities_sound G I HG rho). Qed.
(** The inductive step, if it is reached with the terms [e]: replacing x(n/b) by e(n/b), the right-hand side is
    at most (at least) e(n), for every n from the condition on.  Missing: n/b instead of its integer part,
    and the initial conditions. *)
Theorem C34_step_partial : forall G I, ginac_ok I G -> forall rho simplify_input simplify_log,
  (forall e, refines I e (simplify_input e)) -> (forall e, refines I e (simplify_log e)) ->
  forall kind arg rhs e condition n v w, verify_induction G simplify_input simplify_log kind arg rhs e condition = Provably_correct ->
  (forall l, (gsub G e (approximation G simplify_input simplify_log arg e rhs) = Add l \/
              gsub G (approximation G simplify_input simplify_log arg e rhs) e = Add l) -> n_survives G l) ->
  (condition <= n)%nat -> eval I (upd rho "n" (INR n)) e = Some v ->
  eval I (upd rho "n" (INR n)) (substitute G (Fun FX [arg]) (substitute G (Sym "n") arg e) rhs) = Some w ->
  match kind with Upper => w <= v | Lower => v <= w end.
Proof. intros G I HG rho si sl Hsi Hsl. exact (induction_sound G I HG rho si sl Hsi Hsl). Qed.
(** The base case: if e(condition) is a number, it is not negative (not positive). *)
Theorem C34_base_partial : forall G I, ginac_ok I G -> forall rho simplify_input simplify_log,
  forall kind arg rhs e condition v, verify_induction G simplify_input simplify_log kind arg rhs e condition = Provably_correct -> not_bound "n" e ->
  (exists q, substitute G (Sym "n") (Num (nq condition)) e = Num q) -> eval I (upd rho "n" (INR condition)) e = Some v ->
  match kind with Upper => 0 <= v | Lower => v <= 0 end.
Proof. intros G I HG rho si sl. exact (base_sound G I HG rho si sl). Qed.
(** 2 n - 3 from 2 on. *)
Example C34_inequalities_used : forall (I : interp) (rho : string -> R) n, (2 <= n)%nat -> 0 <= 2 * INR n - 3.
Proof.
  intros I rho n Hn. refine (C34_inequalities G0 I (G0_ok I) rho [Mul [Num (zq 2); Sym "n"]; Num (zq (-3))] 2 n _ _ _ Hn _).
  - vm_compute. reflexivity.
  - intros fs q E _. assert (E2 : fst (split G0 [Mul [Num (zq 2); Sym "n"]; Num (zq (-3))]) = Mul [Num (zq 2); Sym "n"]) by (apply expr_eqb_eq; vm_compute; reflexivity).
    rewrite E2 in E. assert (fs = [Num (zq 2); Sym "n"]) as -> by congruence. exists (Sym "n"). split; [right; left; auto|left; auto].
  - cbn [eval fold_right olift2 obind]. change (upd rho "n" (INR n) "n"%string) with (INR n). rewrite !rv_zq. f_equal. ring.
Qed.
(** 3 for x(n) = x(n/2) - 1. *)
Definition half_n : expr := Mul [Num hq; Sym "n"].
Definition dec_rhs : expr := Add [Fun FX [half_n]; Num (zq (-1))].
Example C34_step_used : forall (I : interp) (rho : string -> R), 3 + (-1) <= 3.
Proof.
  intros I rho.
  refine (C34_step_partial G0 I (G0_ok I) rho idE idE (fun e rho v H => H) (fun e rho v H => H) Upper half_n dec_rhs (Num (zq 3)) 1 1 3 (3 + (-1)) _ _ _ _ _).
  - vm_compute. reflexivity.
  - intros l [E|E].
    + assert (E2 : gsub G0 (Num (zq 3)) (approximation G0 idE idE half_n (Num (zq 3)) dec_rhs) = Num 1%Qc) by (apply expr_eqb_eq; vm_compute; reflexivity). congruence.
    + assert (E2 : gsub G0 (approximation G0 idE idE half_n (Num (zq 3)) dec_rhs) (Num (zq 3)) = Num (zq (-1))) by (apply expr_eqb_eq; vm_compute; reflexivity). congruence.
  - lia.
  - cbn [eval]. now rewrite rv_zq.
  - replace (substitute G0 (Fun FX [half_n]) (substitute G0 (Sym "n") half_n (Num (zq 3))) dec_rhs) with (Num (zq 2)) by (symmetry; apply expr_eqb_eq; vm_compute; reflexivity).
    cbn [eval]. rewrite rv_zq. f_equal. lra.
Qed.
Example C34_base_used : forall (I : interp) (rho : string -> R), 0 <= 3.
Proof.
  intros I rho. refine (C34_base_partial G0 I (G0_ok I) rho idE idE Upper half_n dec_rhs (Num (zq 3)) 1 3 _ Logic.I _ _).
  - vm_compute. reflexivity.
  - eexists. reflexivity.
  - cbn [eval]. now rewrite rv_zq.
Qed.
Print Assumptions C34_everything_accepted_refuted.
Print Assumptions C34_wrong_bound_refuted.
Print Assumptions C34_exact_first.
Print Assumptions C34_inequalities.
Print Assumptions C34_step_partial.
Print Assumptions C34_base_partial.
