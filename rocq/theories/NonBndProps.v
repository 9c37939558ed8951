(** C72: bounds for non-linear functional equations x(n) = g(n) x(n/b)^a. *)
From Coq Require Import Reals List Arith Bool Lia Lra.
From Verif Require Import FuncEqModel FuncEqSpec FuncEqProofs FuncEqProofs2 FuncEqProofs3 NonBndModel NonBndSpec NonBndProofs.
Import ListNotations.
Local Open Scope R_scope.

(** c constant: both bounds are found, and right for every solution with initial values >= 1 if a > 1. *)
Theorem C72_constant : forall a b c x n, 1 < a -> (2 <= b)%nat -> 0 < c -> (1 <= n)%nat ->
  power_equation a b (fun _ => c) x -> initial_values b (fun v => 1 <= v) x ->
  exists l u, non_linear_bound LOWER_BOUND a b (constant_addends a c) n x = Some l
  /\ non_linear_bound UPPER_BOUND a b (constant_addends a c) n x = Some u /\ l <= x n <= u.
Proof.
  intros a b c x n Ha Hb Hc Hn E I. destruct (constant_found a b c n x LOWER_BOUND ltac:(lra) ltac:(lra) Hc) as (l & L). destruct (constant_found a b c n x UPPER_BOUND ltac:(lra) ltac:(lra) Hc) as (u & U).
  exists l, u. split; [exact L|]. split; [exact U|].
  assert (V : forall m, (b <= m)%nat -> inhomogeneous (constant_addends a c) m = ln c / ln a). { intros m Hm. apply constant_value; [lra|lra|exact Hc|lia]. }
  split.
  - exact (large_exponent a b (fun _ => c) _ x n Hb Hn (fun _ _ => Hc) V E LOWER_BOUND l Ha I (constant_fine a b n LOWER_BOUND c) L).
  - exact (large_exponent a b (fun _ => c) _ x n Hb Hn (fun _ _ => Hc) V E UPPER_BOUND u Ha I (constant_fine a b n UPPER_BOUND c) U).
Qed.
(** g not constant: the upper bound is right where that of the linear equation for log(x(n))/log(a) is proved (C28). *)
Theorem C72_upper_partial : forall a b g gs x n u, 1 < a -> (2 <= b)%nat -> (1 <= n)%nat -> positive_function b g ->
  (forall m, (b <= m)%nat -> inhomogeneous gs m = ln (g m) / ln a) ->
  Forall (fun h => increasing h /\ ~ (exists c, h = Mono c 1 /\ c = -1) /\ (coef h < 0 -> lower_right_for a b n h)) gs ->
  power_equation a b g x -> initial_values b (fun v => 1 <= v) x ->
  non_linear_bound UPPER_BOUND a b gs n x = Some u -> x n <= u.
Proof. intros a b g gs x n u Ha Hb Hn Hg V F E I. exact (large_exponent a b g gs x n Hb Hn Hg V E UPPER_BOUND u Ha I F). Qed.
Theorem C72_lower_partial : forall a b g gs x n u, 1 < a -> (2 <= b)%nat -> (1 <= n)%nat -> positive_function b g ->
  (forall m, (b <= m)%nat -> inhomogeneous gs m = ln (g m) / ln a) ->
  Forall (fun h => increasing h /\ ~ (exists c, h = Mono c 1 /\ c = -1) /\ (0 < coef h -> lower_right_for a b n h)) gs ->
  power_equation a b g x -> initial_values b (fun v => 1 <= v) x ->
  non_linear_bound LOWER_BOUND a b gs n x = Some u -> u <= x n.
Proof. intros a b g gs x n u Ha Hb Hn Hg V F E I. exact (large_exponent a b g gs x n Hb Hn Hg V E LOWER_BOUND u Ha I F). Qed.
(** 0 < a < 1: the powers of a decrease, and the two bounds are exchanged: what is reported as the upper bound is a lower bound (initial values in (0, 1]). *)
Theorem C72_exchanged_refuted : forall a b c x n l u, 0 < a < 1 -> (2 <= b)%nat -> 0 < c -> (1 <= n)%nat ->
  power_equation a b (fun _ => c) x -> initial_values b (fun v => 0 < v <= 1) x ->
  non_linear_bound LOWER_BOUND a b (constant_addends a c) n x = Some l -> non_linear_bound UPPER_BOUND a b (constant_addends a c) n x = Some u ->
  u <= x n <= l.
Proof.
  intros a b c x n l u Ha Hb Hc Hn E I L U. assert (V : forall m, (b <= m)%nat -> inhomogeneous (constant_addends a c) m = ln c / ln a). { intros m Hm. apply constant_value; [lra|lra|exact Hc|lia]. }
  split.
  - exact (small_exponent a b (fun _ => c) _ x n Hb Hn (fun _ _ => Hc) V E UPPER_BOUND u Ha I (constant_fine a b n UPPER_BOUND c) U).
  - exact (small_exponent a b (fun _ => c) _ x n Hb Hn (fun _ _ => Hc) V E LOWER_BOUND l Ha I (constant_fine a b n LOWER_BOUND c) L).
Qed.
Lemma addends_1 a : constant_addends a 1 = [].
Proof. unfold constant_addends. assert (H : Reqb 1 1 = true) by (apply Reqb_true; lra). rewrite H. reflexivity. Qed.
Lemma bound_1 type a n x : non_linear_bound type a 2 [] n x = Some (Rpower a (Rpower a (match type with UPPER_BOUND => if Rltb a 1 then ln (INR n) / ln 2 - 1 else ln (INR n) / ln 2 | LOWER_BOUND => if Rltb 1 a then ln (INR n) / ln 2 - 1 else ln (INR n) / ln 2 end) * (ln (x 1%nat) / ln a))).
Proof. unfold non_linear_bound, approximate_functional_equation, term_about_initial_condition, log_values. cbn [non_homogeneous_part option_map Nat.eqb]. rewrite Rplus_0_l. replace (INR 2) with 2 by (cbn; ring). destruct type; reflexivity. Qed.
(** x(n) = x(n/2)^(1/2), x(1) = 1/16: x(2) = 1/4, the upper bound at 2 is 1/16. *)
Theorem C72_small_exponent_refuted : exists x u, power_equation (1 / 2) 2 (fun _ => 1) x /\ initial_values 2 (fun v => v = 1 / 16) x
  /\ non_linear_bound UPPER_BOUND (1 / 2) 2 (constant_addends (1 / 2) 1) 2 x = Some u /\ u < x 2%nat.
Proof.
  exists (pe_solution (1 / 2) 2 (fun _ => 1) (fun _ => 1 / 16)). eexists. split; [apply pe_solution_ok; lia|]. split. { intros i Hi. apply pe_solution_init. easy. }
  split. { rewrite addends_1, bound_1. reflexivity. }
  rewrite (pe_solution_init _ _ _ _ 1) by lia. assert (X : pe_solution (1 / 2) 2 (fun _ => 1) (fun _ => 1 / 16) 2 = 1 * Rpower (1 / 16) (1 / 2)).
  { rewrite (pe_solution_ok (1 / 2) 2 (fun _ => 1) (fun _ => 1 / 16) (le_n 2) 2%nat (le_n 2)). change (2 / 2)%nat with 1%nat. rewrite (pe_solution_init _ _ _ _ 1) by lia. reflexivity. }
  rewrite X. assert (T : Rltb (1 / 2) 1 = true) by (apply Rltb_true; lra). rewrite T. replace (INR 2) with 2 by (cbn; ring). pose proof (ln_pos 2 ltac:(lra)). replace (ln 2 / ln 2 - 1) with 0 by (field; lra). pose proof (Rp_zero (1 / 2)) as Z. rewrite Z, !Rmult_1_l.
  rewrite base_log by lra. replace (1 / 16) with ((1 / 4) * (1 / 4)) at 2 by field.
  assert (S : Rpower (1 / 4 * (1 / 4)) (1 / 2) = 1 / 4). { rewrite <- Rpower_mult_distr by lra. rewrite <- Rpower_plus. replace (1 / 2 + 1 / 2) with 1 by field. apply Rpower_1. lra. }
  rewrite S. lra.
Qed.
(** x(n) = x(n/2)^2, x(1) = 1/2, an initial value that is accepted: x(3) = 1/4, the upper bound at 3 is 1/8. *)
Theorem C72_small_initial_refuted : exists x u, power_equation 2 2 (fun _ => 1) x /\ initial_values 2 (fun v => v = 1 / 2) x
  /\ non_linear_bound UPPER_BOUND 2 2 (constant_addends 2 1) 3 x = Some u /\ u < x 3%nat.
Proof.
  exists (pe_solution 2 2 (fun _ => 1) (fun _ => 1 / 2)). eexists. split; [apply pe_solution_ok; lia|]. split. { intros i Hi. apply pe_solution_init. easy. }
  split. { rewrite addends_1, bound_1. reflexivity. }
  rewrite (pe_solution_init _ _ _ _ 1) by lia. assert (X : pe_solution 2 2 (fun _ => 1) (fun _ => 1 / 2) 3 = 1 * Rpower (1 / 2) 2).
  { rewrite (pe_solution_ok 2 2 (fun _ => 1) (fun _ => 1 / 2) (le_n 2) 3%nat ltac:(lia)). change (3 / 2)%nat with 1%nat. rewrite (pe_solution_init _ _ _ _ 1) by lia. reflexivity. }
  rewrite X. assert (T : Rltb 2 1 = false) by (apply Rltb_false; lra). rewrite T. replace (INR 3) with 3 by (cbn; ring). pose proof (ln_pos 2 ltac:(lra)).
  assert (B : Rpower 2 (ln 3 / ln 2) = 3) by (apply base_log; lra). rewrite B. replace (1 / 2) with (/ 2) by field. rewrite ln_Rinv by lra. replace (3 * (- ln 2 / ln 2)) with (Ropp 3) by (field; lra).
  rewrite Rpower_Ropp. assert (P3 : Rpower 2 3 = 8). { replace 3 with (INR 3) by (cbn; ring). rewrite Rpower_pow by lra. ring. } rewrite P3. rewrite Rp_2 by lra. lra.
Qed.

(** x(n) = 3 x(n/2)^2, x(1) = 5, at n = 100. *)
Example C72_constant_used : let x := pe_solution 2 2 (fun _ => 3) (fun _ => 5) in exists l u, non_linear_bound LOWER_BOUND 2 2 (constant_addends 2 3) 100 x = Some l
  /\ non_linear_bound UPPER_BOUND 2 2 (constant_addends 2 3) 100 x = Some u /\ l <= x 100%nat <= u.
Proof. intros x. apply C72_constant; try lra; try lia. apply pe_solution_ok; lia. intros i Hi. unfold x. rewrite pe_solution_init by easy. lra. Qed.
(** x(n) = 2^n x(n/2)^2, x(1) = 5: log2(2^n) = n. *)
Example C72_upper_used : let x := pe_solution 2 2 (fun m => 2 ^ m) (fun _ => 5) in exists u, non_linear_bound UPPER_BOUND 2 2 [Mono 1 1] 100 x = Some u /\ x 100%nat <= u.
Proof.
  intros x. assert (A : exists u, non_linear_bound UPPER_BOUND 2 2 [Mono 1 1] 100 x = Some u).
  { destruct (upper_found 2 2 100 (log_values 2 x) [Mono 1 1]) as (w & W). { repeat constructor. cbn. lra. } unfold non_linear_bound. rewrite W. eexists. reflexivity. }
  destruct A as (u & U). exists u. split; [exact U|]. refine (C72_upper_partial 2 2 (fun m => 2 ^ m) [Mono 1 1] x 100 u ltac:(lra) (le_n 2) ltac:(lia) _ _ _ _ _ U).
  - intros m _. apply pow_lt. lra.
  - intros m Hm. cbn [inhomogeneous fold_right addend_at]. rewrite Rpower_1 by (apply (lt_INR 0); lia). rewrite ln_pow by lra. pose proof (ln_pos 2 ltac:(lra)). field. lra.
  - constructor; [|constructor]. split; [cbn; lra|]. split. { intros (c & H & H1). injection H as H. lra. } cbn. lra.
  - apply pe_solution_ok. lia.
  - intros i Hi. unfold x. rewrite pe_solution_init by easy. lra.
Qed.
Example C72_exchanged_used : let x := pe_solution (1 / 2) 2 (fun _ => 3) (fun _ => 1 / 5) in power_equation (1 / 2) 2 (fun _ => 3) x /\ initial_values 2 (fun v => 0 < v <= 1) x
  /\ exists l u, non_linear_bound LOWER_BOUND (1 / 2) 2 (constant_addends (1 / 2) 3) 100 x = Some l /\ non_linear_bound UPPER_BOUND (1 / 2) 2 (constant_addends (1 / 2) 3) 100 x = Some u.
Proof.
  intros x. split; [apply pe_solution_ok; lia|]. split. { intros i Hi. unfold x. rewrite pe_solution_init by easy. lra. }
  destruct (constant_found (1 / 2) 2 3 100 x LOWER_BOUND) as (l & L); try lra. destruct (constant_found (1 / 2) 2 3 100 x UPPER_BOUND) as (u & U); try lra. exists l, u. easy.
Qed.
Print Assumptions C72_constant.
Print Assumptions C72_upper_partial.
Print Assumptions C72_lower_partial.
Print Assumptions C72_exchanged_refuted.
Print Assumptions C72_small_exponent_refuted.
Print Assumptions C72_small_initial_refuted.
