(** Counterexamples to the lower bounds. *)
From Coq Require Import Reals List Arith Bool Lia Lra Psatz ZArith.
From Verif Require Import FuncEqModel FuncEqSpec FuncEqProofs FuncEqProofs2.
Import ListNotations.
Local Open Scope R_scope.

Lemma Rp_nat a (n : nat) : 0 < a -> Rpower a (INR n) = a ^ n.
Proof. intros. now apply Rpower_pow. Qed.
Lemma Rp_2 a : 0 < a -> Rpower a 2 = a * a. Proof. apply Rp_two. Qed.
Ltac rb := repeat match goal with
  | |- context [Rltb ?a ?b] => let H := fresh in first
     [ assert (H : Rltb a b = true) by (apply Rltb_true; lra) | assert (H : Rltb a b = false) by (apply Rltb_false; lra) ]; rewrite H; clear H
  | |- context [Reqb ?a ?b] => let H := fresh in first
     [ assert (H : Reqb a b = true) by (apply Reqb_true; lra) | assert (H : Reqb a b = false) by (apply Reqb_false; lra) ]; rewrite H; clear H
  end.

(** x(n) = x(n/2) + n^2: the bound at 7 is 60, x(7) = 58. *)
Lemma ce_small : let x := dc_solution 1 2 (inhomogeneous [Mono 1 2]) (fun _ => 0) in
  exists u, approximate_functional_equation LOWER_BOUND 1 2 [Mono 1 2] 7 x = Some u /\ x 7%nat < u.
Proof.
  intros x. unfold approximate_functional_equation. cbn [non_homogeneous_part sharper]. unfold scaled. rb. cbn [andb]. unfold power_of_n. cbn [option_map]. rb.
  replace (INR 2) with 2 by (simpl; ring). replace (INR 7) with 7 by (simpl; ring). replace (2 - 1) with 1 by ring. rewrite ?Rp_2, ?Rpower_1 by lra. rb. cbn [option_map].
  eexists; split; [reflexivity|]. unfold pow_frac_log. rewrite ln_1. replace (0 / ln 2) with 0 by (unfold Rdiv; ring). rewrite Rp_zero.
  unfold term_about_initial_condition, x. cbn [Nat.eqb]. rewrite !(dc_solution_init _ _ _ _ 1) by lia.
  assert (E : dc_solution 1 2 (inhomogeneous [Mono 1 2]) (fun _ => 0) 7 = 58).
  { unfold dc_solution. cbv [dc_aux Nat.ltb Nat.leb Nat.div Nat.divmod fst inhomogeneous fold_right addend_at]. replace (INR 7) with 7 by (simpl; ring). replace (INR 3) with 3 by (simpl; ring). rewrite !Rp_2 by lra. ring. }
  rewrite E. lra.
Qed.
(** x(n) = 4 x(n/2) + n^2, n = 1: the bound is 1, x(1) = 0. *)
Lemma ce_one : let x := dc_solution 4 2 (inhomogeneous [Mono 1 2]) (fun _ => 0) in
  exists u, approximate_functional_equation LOWER_BOUND 4 2 [Mono 1 2] 1 x = Some u /\ x 1%nat < u.
Proof.
  intros x. unfold approximate_functional_equation. cbn [non_homogeneous_part sharper]. unfold scaled. rb. cbn [andb]. unfold power_of_n. cbn [option_map]. rb.
  replace (INR 2) with 2 by (simpl; ring). replace (2 - 1) with 1 by ring. rewrite ?Rp_2, ?Rpower_1 by lra. rb. cbn [option_map].
  eexists; split; [reflexivity|]. unfold frac_log. change (INR 1) with 1. rewrite ln_1, !Rp_one.
  unfold term_about_initial_condition, x. cbn [Nat.eqb]. rewrite !(dc_solution_init _ _ _ _ 1) by lia. lra.
Qed.
(** x(n) = x(n/2) - n: the lower bound is positive. *)
Lemma ce_minus_n : let x := dc_solution 1 2 (inhomogeneous [Mono (-1) 1]) (fun _ => 0) in
  exists u, approximate_functional_equation LOWER_BOUND 1 2 [Mono (-1) 1] 2 x = Some u /\ x 2%nat < u.
Proof.
  intros x. unfold approximate_functional_equation. cbn [non_homogeneous_part sharper]. rb. cbn [andb]. unfold power_of_n. cbn [swap_type].
  replace (INR 2) with 2 by (simpl; ring). rewrite !Rpower_1 by lra. rb.
  eexists; split; [reflexivity|].
  unfold term_about_initial_condition, x. cbn [Nat.eqb]. rewrite !(dc_solution_init _ _ _ _ 1) by lia.
  assert (E : dc_solution 1 2 (inhomogeneous [Mono (-1) 1]) (fun _ => 0) 2 = - 2).
  { unfold dc_solution. cbv [dc_aux Nat.ltb Nat.leb Nat.div Nat.divmod fst inhomogeneous fold_right addend_at]. replace (INR 2) with 2 by (simpl; ring). rewrite !Rpower_1 by lra. ring. }
  rewrite E. lra.
Qed.
(** x(n) = 2 x(n/4) + sqrt(n), n = 4^8 - 1. *)
Lemma Rp_half a : 0 < a -> Rpower a (1 / 2) = sqrt a.
Proof. intros. replace (1 / 2) with (/ 2) by field. now apply Rpower_sqrt. Qed.
Lemma sqrt_up a c : 0 <= a -> 0 <= c -> a <= c * c -> sqrt a <= c.
Proof. intros. rewrite <- (sqrt_square c) by easy. now apply sqrt_le_1_alt. Qed.
Lemma sqrt_down a c : 0 <= c -> c * c <= a -> c <= sqrt a.
Proof. intros. rewrite <- (sqrt_square c) by easy. now apply sqrt_le_1_alt. Qed.
Lemma t_big : 1023 / 128 <= ln 65535 / ln 4.
Proof.
  assert (H4 : 0 < ln 4) by (rewrite <- ln_1; apply ln_increasing; lra).
  apply Rmult_le_reg_r with (128 * ln 4); [lra|]. replace (ln 65535 / ln 4 * (128 * ln 4)) with (128 * ln 65535) by (field; lra).
  replace (1023 / 128 * (128 * ln 4)) with (1023 * ln 4) by field.
  assert (E : forall (k : nat) (z : R), 0 < z -> INR k * ln z = ln (z ^ k)) by (intros; symmetry; now apply ln_pow).
  replace 1023 with (INR 1023) by (rewrite INR_IZR_INZ; reflexivity). replace 128 with (INR 128) by (rewrite INR_IZR_INZ; reflexivity). rewrite !E by lra.
  apply ln_mono; [apply pow_lt; lra|].
  rewrite !pow_IZR. apply IZR_le. vm_compute. discriminate.
Qed.

Definition nn : nat := 4 ^ 8 - 1.
Lemma nn_val : INR nn = 65535.
Proof. unfold nn. rewrite minus_INR, pow_INR by (apply (Nat.pow_le_mono_r 4 0 8); lia). simpl. ring. Qed.
Lemma div_nn j r : (4 ^ j * (r + 1) = 4 ^ 8)%nat -> (nn / 4 ^ j = r)%nat.
Proof. intros E. unfold nn. symmetry. apply (Nat.div_unique _ _ _ (4 ^ j - 1)); [assert (4 ^ j <> 0)%nat by (apply Nat.pow_nonzero; lia); lia|]. assert (4 ^ j <> 0)%nat by (apply Nat.pow_nonzero; lia). nia. Qed.
Lemma ilog_nn : ilog 4 nn = 7%nat.
Proof.
  assert (H : (4 ^ 7 <= nn < 4 ^ 8)%nat). { unfold nn. change (4 ^ 8)%nat with (4 * 4 ^ 7)%nat. assert (4 ^ 7 <> 0)%nat by (apply Nat.pow_nonzero; lia). generalize dependent (4 ^ 7)%nat. lia. }
  apply (ilog_uniq 4 nn); [lia|apply ilog_spec; [lia|]|exact H]. assert (4 ^ 7 <> 0)%nat by (apply Nat.pow_nonzero; lia). lia.
Qed.
Lemma INR_div_nn j k : (j + k = 8)%nat -> INR (nn / 4 ^ j) = 4 ^ k - 1.
Proof.
  intros E. assert (H1 : (1 <= 4 ^ k)%nat) by (assert (4 ^ k <> 0)%nat by (apply Nat.pow_nonzero; lia); lia).
  rewrite (div_nn j (4 ^ k - 1)). 2:{ rewrite Nat.sub_add by easy. now rewrite <- Nat.pow_add_r, E. }
  rewrite minus_INR, pow_INR by easy. simpl INR. replace (1 + 1 + 1 + 1) with 4 by ring. reflexivity.
Qed.
Lemma ce_half : let x := dc_solution 2 4 (inhomogeneous [Mono 1 (1 / 2)]) (fun _ => 0) in
  exists u, approximate_functional_equation LOWER_BOUND 2 4 [Mono 1 (1 / 2)] nn x = Some u /\ x nn < u.
Proof.
  intros x. unfold approximate_functional_equation. rewrite nn_val. cbn [non_homogeneous_part sharper]. unfold scaled. rb. cbn [andb]. unfold power_of_n.
  replace (INR 4) with 4 by (simpl; ring). rewrite !Rp_half by lra. replace (sqrt 4) with 2 by (replace 4 with (2 * 2) by ring; rewrite sqrt_square; lra). rewrite sqrt_1.
  rb. cbn [option_map]. eexists; split; [reflexivity|]. 
  assert (Hn : (1 <= nn)%nat). { apply INR_le. rewrite nn_val. simpl. lra. }
  assert (Hx : divide_and_conquer 2 4 (inhomogeneous [Mono 1 (1 / 2)]) x) by (apply dc_solution_ok; [lia|intros; lra]).
  destruct Hx as [Hx Hx0].
  assert (E : x nn <= 1782).
  { rewrite (explicit 2 4 _ x ltac:(lia) Hx 7 nn Hn ilog_nn).
    assert (E3 : (nn / 4 ^ 7 = 3)%nat). { apply INR_eq. rewrite (INR_div_nn 7 1) by easy. simpl. ring. }
    rewrite E3. unfold x at 1. rewrite dc_solution_init by lia. cbn [rsum inhomogeneous fold_right addend_at].
    rewrite (INR_div_nn 0 8), (INR_div_nn 1 7), (INR_div_nn 2 6), (INR_div_nn 3 5), (INR_div_nn 4 4), (INR_div_nn 5 3), (INR_div_nn 6 2) by reflexivity.
    rewrite !Rp_half by (simpl; lra).
    assert (H0 : sqrt (4 ^ 8 - 1) <= 256) by (apply sqrt_up; simpl; lra).
    assert (H1 : sqrt (4 ^ 7 - 1) <= 128) by (apply sqrt_up; simpl; lra).
    assert (H2 : sqrt (4 ^ 6 - 1) <= 63.995) by (apply sqrt_up; simpl; lra).
    assert (H3 : sqrt (4 ^ 5 - 1) <= 31.985) by (apply sqrt_up; simpl; lra).
    assert (H4 : sqrt (4 ^ 4 - 1) <= 15.969) by (apply sqrt_up; simpl; lra).
    assert (H5 : sqrt (4 ^ 3 - 1) <= 7.938) by (apply sqrt_up; simpl; lra).
    assert (H6 : sqrt (4 ^ 2 - 1) <= 3.873) by (apply sqrt_up; simpl; lra).
    simpl pow. simpl pow in H0, H1, H2, H3, H4, H5, H6. lra. }
  apply Rle_lt_trans with (1 := E). 
  assert (Hi : 0 <= term_about_initial_condition LOWER_BOUND 2 4 nn x).
  { unfold term_about_initial_condition. apply Rmult_le_pos; [left; apply Rp_pos|]. apply Hx0. pose proof (m_last 4 nn ltac:(lia) Hn). exact H. }
  unfold frac_log. pose proof t_big. assert (255.9 <= sqrt 65535) by (apply sqrt_down; lra). nra.
Qed.
(** x(n) = x(n/2) - n, n = 1: the upper bound is x(1) - 1. *)
Lemma ce_minus_n_upper : let x := dc_solution 1 2 (inhomogeneous [Mono (-1) 1]) (fun _ => 5) in
  exists u, approximate_functional_equation UPPER_BOUND 1 2 [Mono (-1) 1] 1 x = Some u /\ u < x 1%nat.
Proof.
  intros x. unfold approximate_functional_equation. cbn [non_homogeneous_part sharper]. rb. cbn [andb]. unfold power_of_n. cbn [swap_type].
  replace (INR 2) with 2 by (simpl; ring). change (INR 1) with 1. replace (1 - 1) with 0 by ring. rewrite ?Rpower_1, ?Rp_zero by lra. rb.
  eexists; split; [reflexivity|]. unfold frac_log. rewrite ln_1. replace (0 / ln 2) with 0 by (unfold Rdiv; ring). rewrite Rp_2 by lra.
  unfold term_about_initial_condition, x. cbn [Nat.eqb]. rewrite !(dc_solution_init _ _ _ _ 1) by lia. rb.
  change (INR 1) with 1. rewrite Rp_one. lra.
Qed.
(** x(n) = x(n/2), x(1) = 5: both bounds are 5. *)
Lemma ce_exact : let x := fun _ : nat => 5 in let store := store_bound Reqb (fun b : bool => if b then 1 else 0) in
  divide_and_conquer 1 2 (inhomogeneous []) x
  /\ forall n, (1 <= n)%nat -> exists l u, approximate_functional_equation LOWER_BOUND 1 2 [] n x = Some l /\ approximate_functional_equation UPPER_BOUND 1 2 [] n x = Some u
     /\ l = x n /\ u = x n
     /\ exact_solution (store UPPER_BOUND u (store LOWER_BOUND l {| lower_bound := None; upper_bound := None; exact_solution := None |})) = Some 1
     /\ exact_solution (store LOWER_BOUND l (store UPPER_BOUND u {| lower_bound := None; upper_bound := None; exact_solution := None |})) = Some 1.
Proof.
  split. { split. intros n _. simpl. ring. intros; lra. }
  intros n Hn. unfold approximate_functional_equation, non_homogeneous_part, term_about_initial_condition. rb. rewrite !Rp_one. do 2 eexists. repeat split; try reflexivity; try ring.
  all: unfold store_bound; cbn; replace (Reqb (0 + 1 * 5) (0 + 1 * 5)) with true by (symmetry; now apply Reqb_true); reflexivity.
Qed.
