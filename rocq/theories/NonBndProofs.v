From Coq Require Import Reals List Arith Bool Lia Lra Psatz.
From Verif Require Import FuncEqModel FuncEqSpec FuncEqProofs FuncEqProofs2 FuncEqProofs3 NonBndModel NonBndSpec.
Import ListNotations.
Local Open Scope R_scope.

Lemma pe_aux_fuel a b g x0 : (2 <= b)%nat -> forall f1 f2 n, (n <= f1)%nat -> (n <= f2)%nat -> (1 <= n)%nat -> pe_aux f1 a b g x0 n = pe_aux f2 a b g x0 n.
Proof.
  intros Hb. induction f1 as [|f1 IH]; intros f2 n H1 H2 Hn; [lia|]. destruct f2 as [|f2]; [lia|]. simpl. destruct (Nat.ltb_spec n b) as [L|L]; [easy|].
  assert ((1 <= n / b)%nat) by (apply Nat.div_le_lower_bound; lia). assert ((n / b < n)%nat) by (apply Nat.div_lt; lia).
  rewrite (IH f2 (n / b)%nat) by lia. easy.
Qed.
Lemma pe_solution_ok a b g x0 : (2 <= b)%nat -> power_equation a b g (pe_solution a b g x0).
Proof.
  intros Hb n Hn. unfold pe_solution at 1. destruct n as [|n]; [lia|]. simpl pe_aux. destruct (Nat.ltb_spec (S n) b) as [L|L]; [lia|].
  assert ((1 <= S n / b)%nat) by (apply Nat.div_le_lower_bound; lia). assert ((S n / b < S n)%nat) by (apply Nat.div_lt; lia).
  unfold pe_solution. rewrite (pe_aux_fuel a b g x0 Hb n (S n / b)%nat) by lia. easy.
Qed.
Lemma pe_solution_init a b g x0 i : (1 <= i < b)%nat -> pe_solution a b g x0 i = x0 i.
Proof. intros Hi. unfold pe_solution. destruct i as [|i]; [lia|]. simpl. destruct (Nat.ltb_spec (S i) b) as [L|L]; [easy|lia]. Qed.

Lemma solution_positive a b g x : (2 <= b)%nat -> positive_function b g -> power_equation a b g x -> initial_values b (fun v => 0 < v) x -> forall n, (1 <= n)%nat -> 0 < x n.
Proof.
  intros Hb Hg E I n. induction n as [n IH] using lt_wf_ind. intros Hn. destruct (Nat.lt_ge_cases n b) as [L|L]; [apply I; lia|].
  rewrite (E n L). apply Rmult_lt_0_compat; [apply Hg; easy|]. apply Rp_pos.
Qed.
Lemma ln_neq0 a : 0 < a -> a <> 1 -> ln a <> 0.
Proof. intros Ha H E. apply H. apply ln_inv; [easy|lra|]. rewrite ln_1. easy. Qed.
Lemma linear_equation a b g x n : (2 <= b)%nat -> 0 < a -> a <> 1 -> positive_function b g -> power_equation a b g x -> initial_values b (fun v => 0 < v) x -> (b <= n)%nat ->
  log_values a x n = a * log_values a x (n / b)%nat + ln (g n) / ln a.
Proof.
  intros Hb Ha H1 Hg E I Hn. pose proof (ln_neq0 a Ha H1). unfold log_values. rewrite (E n Hn). rewrite ln_mult; [|apply Hg; easy|apply Rp_pos]. unfold Rpower. rewrite ln_exp. field. easy.
Qed.
Lemma base_log a v : 0 < a -> a <> 1 -> 0 < v -> Rpower a (ln v / ln a) = v.
Proof. intros Ha H1 Hv. pose proof (ln_neq0 a Ha H1). unfold Rpower. replace (ln v / ln a * ln a) with (ln v) by (field; easy). apply exp_ln. easy. Qed.
Lemma ln_sign_large v : 1 <= v -> 0 <= ln v.
Proof. intros H. destruct (Req_dec v 1) as [->|]; [rewrite ln_1; lra|]. rewrite <- ln_1. left. apply ln_increasing; lra. Qed.
Lemma ln_sign_small v : 0 < v <= 1 -> ln v <= 0.
Proof. intros H. destruct (Req_dec v 1) as [->|]; [rewrite ln_1; lra|]. rewrite <- ln_1. left. apply ln_increasing; lra. Qed.
Lemma ln_pos a : 1 < a -> 0 < ln a.
Proof. intros H. rewrite <- ln_1. apply ln_increasing; lra. Qed.
Lemma ln_neg a : 0 < a < 1 -> ln a < 0.
Proof. intros H. rewrite <- ln_1. apply ln_increasing; lra. Qed.
Lemma conquered a b g gs x : (2 <= b)%nat -> 0 < a -> a <> 1 -> positive_function b g -> (forall m, (b <= m)%nat -> inhomogeneous gs m = ln (g m) / ln a) ->
  power_equation a b g x -> initial_values b (fun v => 0 < v /\ 0 <= ln v / ln a) x -> divide_and_conquer a b (inhomogeneous gs) (log_values a x).
Proof.
  intros Hb Ha H1 Hg HG E I. split.
  - intros n Hn. rewrite HG by easy. apply (linear_equation a b g); try easy. intros i Hi. apply I. easy.
  - intros i Hi. apply I. easy.
Qed.
Lemma Rp_dec a u v : 0 < a < 1 -> u <= v -> Rpower a v <= Rpower a u.
Proof. intros Ha H. unfold Rpower. pose proof (ln_neg a Ha). destruct (Req_dec u v) as [->|]; [lra|]. left. apply exp_increasing. nra. Qed.

Section Main.
Context (a : R) (b : nat) (g : nat -> R) (gs : list addend) (x : nat -> R) (n : nat).
Context (Hb : (2 <= b)%nat) (Hn : (1 <= n)%nat) (Hg : positive_function b g) (HG : forall m, (b <= m)%nat -> inhomogeneous gs m = ln (g m) / ln a).
Context (E : power_equation a b g x).
Lemma large_exponent type u : 1 < a -> initial_values b (fun v => 1 <= v) x ->
  Forall (fun g => increasing g /\ ~ (exists c, g = Mono c 1 /\ c = -1) /\ (match type with UPPER_BOUND => coef g < 0 | LOWER_BOUND => 0 < coef g end -> lower_right_for a b n g)) gs ->
  non_linear_bound type a b gs n x = Some u -> match type with LOWER_BOUND => u <= x n | UPPER_BOUND => x n <= u end.
Proof.
  intros Ha I F. unfold non_linear_bound. destruct (approximate_functional_equation type a b gs n (log_values a x)) as [w|] eqn:W; [|discriminate]. intros [= <-].
  assert (I0 : initial_values b (fun v => 0 < v) x). { intros i Hi. specialize (I i Hi). cbn beta in I. lra. }
  pose proof (solution_positive a b g x Hb Hg E I0 n Hn) as Px. pose proof (ln_pos a Ha).
  assert (DC : divide_and_conquer a b (inhomogeneous gs) (log_values a x)).
  { apply (conquered a b g); try easy; try lra. intros i Hi. specialize (I i Hi). cbn beta in I. split; [lra|]. apply Rmult_le_pos; [apply ln_sign_large; easy|]. left. apply Rinv_0_lt_compat. easy. }
  rewrite <- (base_log a (x n)) by (try easy; lra). change (ln (x n) / ln a) with (log_values a x n).
  destruct type; apply Rp_mono_exp; try lra.
  - exact (lower_main a b gs (log_values a x) n w ltac:(lra) Hb Hn F DC W).
  - exact (upper_main a b gs (log_values a x) n w ltac:(lra) Hb Hn F DC W).
Qed.
Lemma small_exponent type u : 0 < a < 1 -> initial_values b (fun v => 0 < v <= 1) x ->
  Forall (fun g => increasing g /\ ~ (exists c, g = Mono c 1 /\ c = -1) /\ (match type with UPPER_BOUND => coef g < 0 | LOWER_BOUND => 0 < coef g end -> lower_right_for a b n g)) gs ->
  non_linear_bound type a b gs n x = Some u -> match type with LOWER_BOUND => x n <= u | UPPER_BOUND => u <= x n end.
Proof.
  intros Ha I F. unfold non_linear_bound. destruct (approximate_functional_equation type a b gs n (log_values a x)) as [w|] eqn:W; [|discriminate]. intros [= <-].
  assert (I0 : initial_values b (fun v => 0 < v) x). { intros i Hi. specialize (I i Hi). cbn beta in I. lra. }
  pose proof (solution_positive a b g x Hb Hg E I0 n Hn) as Px. pose proof (ln_neg a Ha) as L.
  assert (DC : divide_and_conquer a b (inhomogeneous gs) (log_values a x)).
  { apply (conquered a b g); try easy; try lra. intros i Hi. specialize (I i Hi). cbn beta in I. split; [lra|]. pose proof (ln_sign_small (x i) I). pose proof (Rinv_lt_0_compat _ L). unfold Rdiv. nra. }
  rewrite <- (base_log a (x n)) by (try easy; lra). change (ln (x n) / ln a) with (log_values a x n).
  destruct type; apply Rp_dec; try lra.
  - exact (lower_main a b gs (log_values a x) n w ltac:(lra) Hb Hn F DC W).
  - exact (upper_main a b gs (log_values a x) n w ltac:(lra) Hb Hn F DC W).
Qed.
End Main.

Lemma constant_fine a b n type c : Forall (fun g => increasing g /\ ~ (exists c, g = Mono c 1 /\ c = -1) /\ (match type with UPPER_BOUND => coef g < 0 | LOWER_BOUND => 0 < coef g end -> lower_right_for a b n g)) (constant_addends a c).
Proof.
  unfold constant_addends. destruct (Reqb c 1); constructor; [|constructor]. split; [cbn; lra|]. split. { intros (d & H & _). injection H as _ H. lra. } intros _. left. reflexivity.
Qed.
Lemma constant_value a c m : 0 < a -> a <> 1 -> 0 < c -> (1 <= m)%nat -> inhomogeneous (constant_addends a c) m = ln c / ln a.
Proof.
  intros Ha H1 Hc Hm. unfold constant_addends, Reqb. destruct (Req_EM_T c 1) as [->|].
  - cbn. rewrite ln_1. field. apply ln_neq0; easy.
  - cbn [inhomogeneous fold_right addend_at]. pose proof (Rp_zero (INR m)) as Z. rewrite Z. ring.
Qed.
Lemma constant_found a b c n x type : 0 < a -> a <> 1 -> 0 < c -> exists u, non_linear_bound type a b (constant_addends a c) n x = Some u.
Proof.
  intros Ha H1 Hc. unfold non_linear_bound, constant_addends. pose proof (ln_neq0 a Ha H1) as L. destruct (Reqb c 1) eqn:R; [eexists; reflexivity|]. unfold Reqb in R. destruct (Req_EM_T c 1) as [|N]; [discriminate|].
  pose proof (ln_neq0 c Hc N) as LC. assert (K : ln c / ln a <> 0). { intros Z. apply LC. replace (ln c) with (ln c / ln a * ln a) by (field; easy). rewrite Z. ring. }
  assert (K0 : Reqb 0 1 = false) by (apply Reqb_false; lra). assert (K1 : Reqb 0 0 = true) by (apply Reqb_true; lra). assert (K2 : Reqb a 1 = false) by (apply Reqb_false; easy).
  unfold approximate_functional_equation. cbn [non_homogeneous_part sharper]. rewrite K0, andb_false_r.
  assert (P : forall t, exists v, power_of_n a (INR b) (INR n) t 0 = Some v). { intros t. unfold power_of_n. destruct t. rewrite K1, K2. eexists; reflexivity. destruct (Rltb a (Rpower (INR b) 0)); [eexists; reflexivity|]. destruct (Reqb a (Rpower (INR b) 0)); eexists; reflexivity. }
  unfold scaled, Rltb. destruct (Rlt_dec 0 (ln c / ln a)).
  - destruct (P type) as (v & ->). eexists; reflexivity.
  - destruct (Rlt_dec (ln c / ln a) 0); [|lra]. destruct (P (swap_type type)) as (v & ->). eexists; reflexivity.
Qed.
