(** C28, C29, C60: bounds for x(n) = a x(n/b) + g(n). *)
From Coq Require Import Reals List Arith Lia Lra.
From Verif Require Import FuncEqModel FuncEqSpec FuncEqProofs FuncEqProofs2 FuncEqProofs3.
Import ListNotations.
Local Open Scope R_scope.

(** The upper bound is an upper bound for every solution with non-negative initial values, at every
    n >= 1, for all sums of addends a n^k, a n^k log(n), a c^n with a > 0, k >= 0, c > 1. *)
Theorem C28_upper : forall a b gs x n u, 0 < a -> (2 <= b)%nat -> (1 <= n)%nat ->
  Forall (fun g => increasing g /\ 0 < coef g) gs -> divide_and_conquer a b (inhomogeneous gs) x ->
  approximate_functional_equation UPPER_BOUND a b gs n x = Some u -> x n <= u.
Proof.
  intros a b gs x n u Ha Hb Hn Hg. apply upper_main; try easy. eapply Forall_impl; [|exact Hg]. intros g (H1 & H2). split; [easy|]. split.
  intros (c & -> & ->). simpl in H2. lra. intros; lra.
Qed.
(** It is found, when there are no exponentials. *)
Theorem C28_upper_found : forall a b n x gs, Forall (fun g => 0 < coef g /\ match g with Expn _ _ => False | _ => True end) gs ->
  exists u, approximate_functional_equation UPPER_BOUND a b gs n x = Some u.
Proof. exact upper_found. Qed.
Example C28_upper_used : let gs := [Mono 3 2; Logn 1 (1 / 2)] in exists u,
  approximate_functional_equation UPPER_BOUND 2 3 gs 100 (dc_solution 2 3 (inhomogeneous gs) (fun _ => 7)) = Some u
  /\ dc_solution 2 3 (inhomogeneous gs) (fun _ => 7) 100 <= u.
Proof.
  intros gs. destruct (C28_upper_found 2 3 100 (dc_solution 2 3 (inhomogeneous gs) (fun _ => 7)) gs) as [u Hu]. { repeat constructor; simpl; lra. }
  exists u. split; [exact Hu|]. refine (C28_upper 2 3 gs _ 100 u _ _ _ _ _ Hu); try lra; try lia. { repeat constructor; simpl; lra. } apply dc_solution_ok; [lia|intros; lra].
Qed.
Example C28_exponential_used : exists u, let gs := [Expn 1 2] in let x := dc_solution 1 2 (inhomogeneous gs) (fun _ => 7) in
  approximate_functional_equation UPPER_BOUND 1 2 gs 100 x = Some u /\ x 100%nat <= u.
Proof.
  eexists. intros gs x. split.
  - unfold approximate_functional_equation, gs. cbn [non_homogeneous_part sharper]. unfold scaled. rb. unfold exp_function. 
    replace (INR 2) with 2 by (simpl; ring). replace (2 * 2) with 4 by ring. assert (H : Rltb (1 * Rpower 2 2) (Rpower 2 4) = true).
    { apply Rltb_true. rewrite Rmult_1_l. apply Rpower_lt; lra. } rewrite H. cbn [option_map]. reflexivity.
  - refine (C28_upper 1 2 gs x 100 _ _ _ _ _ _ _); try lra; try lia. { repeat constructor; simpl; lra. } { apply dc_solution_ok; [lia|intros; lra]. }
    unfold approximate_functional_equation, gs. cbn [non_homogeneous_part sharper]. unfold scaled. rb. unfold exp_function. 
    replace (INR 2) with 2 by (simpl; ring). replace (2 * 2) with 4 by ring. assert (H : Rltb (1 * Rpower 2 2) (Rpower 2 4) = true).
    { apply Rltb_true. rewrite Rmult_1_l. apply Rpower_lt; lra. } rewrite H. cbn [option_map]. reflexivity.
Qed.
(** Negative addends use the lower bounds with the sign changed; they are right where those are.
    Missing: the other cases of the lower bounds, and -n. *)
Theorem C28_negative_addends_partial : forall a b gs x n u, 0 < a -> (2 <= b)%nat -> (1 <= n)%nat ->
  Forall (fun g => increasing g /\ ~ (exists c, g = Mono c 1 /\ c = -1) /\ (coef g < 0 -> lower_right_for a b n g)) gs ->
  divide_and_conquer a b (inhomogeneous gs) x -> approximate_functional_equation UPPER_BOUND a b gs n x = Some u -> x n <= u.
Proof. exact upper_main. Qed.
(** x(n) = x(n/2) - n, n = 1: the upper bound is below x(1). *)
Theorem C28_minus_n_refuted : exists x u, divide_and_conquer 1 2 (inhomogeneous [Mono (-1) 1]) x
  /\ approximate_functional_equation UPPER_BOUND 1 2 [Mono (-1) 1] 1 x = Some u /\ u < x 1%nat.
Proof. destruct ce_minus_n_upper as (u & H1 & H2). do 2 eexists. split; [|split; [exact H1|exact H2]]. apply dc_solution_ok; [lia|intros; lra]. Qed.

(** The lower bound is right when: k = 0; 0 < k < 1 under a condition on a; k >= 1 and a = b^(k-1), or
    b^(k-1) < a <= b^k and n >= b; c^n and n >= b.  Missing: a < b^(k-1), and n < b. *)
Theorem C29_lower_partial : forall a b gs x n u, 0 < a -> (2 <= b)%nat -> (1 <= n)%nat ->
  Forall (fun g => increasing g /\ ~ (exists c, g = Mono c 1 /\ c = -1) /\ (0 < coef g -> lower_right_for a b n g)) gs ->
  divide_and_conquer a b (inhomogeneous gs) x -> approximate_functional_equation LOWER_BOUND a b gs n x = Some u -> u <= x n.
Proof. exact lower_main. Qed.
(** For constant g it is right for all n. *)
Theorem C29_lower_constant : forall a b c x n u, 0 < a -> (2 <= b)%nat -> (1 <= n)%nat -> 
  divide_and_conquer a b (inhomogeneous [Mono c 0]) x -> approximate_functional_equation LOWER_BOUND a b [Mono c 0] n x = Some u -> u <= x n.
Proof.
  intros a b c x n u Ha Hb Hn. apply lower_main; try easy. apply Forall_cons; [|apply Forall_nil]; split; [simpl; lra|split]; simpl. intros (d & E & _). injection E as _ E. lra. intros _. left. reflexivity.
Qed.
(** ... and for g = c n when 1 <= a <= b (b <= n). *)
Theorem C29_lower_linear : forall a b c x n u, (2 <= b)%nat -> (b <= n)%nat -> 1 <= a <= INR b -> c <> -1 ->
  divide_and_conquer a b (inhomogeneous [Mono c 1]) x -> approximate_functional_equation LOWER_BOUND a b [Mono c 1] n x = Some u -> u <= x n.
Proof.
  intros a b c x n u Hb Hn Ha Hc. apply lower_main; try lra; try lia. apply Forall_cons; [|apply Forall_nil]; split; [simpl; lra|split]; simpl. intros (d & E & ->). injection E as E. easy.
  intros _. right; right. split; [lra|]. assert (0 < INR b) by lra. rewrite Rpower_1 by easy. replace (1 - 1) with 0 by ring. rewrite Rp_zero. destruct (Req_dec a 1); [left; easy|right]. split; [easy|lra].
Qed.
Example C29_lower_used : exists u, let x := dc_solution 2 2 (inhomogeneous [Mono 1 1]) (fun _ => 7) in
  approximate_functional_equation LOWER_BOUND 2 2 [Mono 1 1] 100 x = Some u /\ u <= x 100%nat.
Proof.
  set (x := dc_solution 2 2 (inhomogeneous [Mono 1 1]) (fun _ => 7)).
  assert (H : exists u, approximate_functional_equation LOWER_BOUND 2 2 [Mono 1 1] 100 x = Some u).
  { unfold approximate_functional_equation. cbn [non_homogeneous_part sharper]. unfold scaled. rb. cbn [andb]. unfold power_of_n. replace (INR 2) with 2 by (simpl; ring).
    replace (1 - 1) with 0 by ring. rewrite !Rp_zero, !Rpower_1 by lra. rb. cbn [option_map]. eauto. }
  destruct H as [u Hu]. exists u. split; [exact Hu|]. refine (C29_lower_linear 2 2 1 x 100 u _ _ _ _ _ Hu); try lra; try lia. { simpl; lra. } apply dc_solution_ok; [lia|intros; lra].
Qed.
(** x(n) = x(n/2) + n^2 (a < b^(k-1)): 60 is given as a lower bound of x(7) = 58. *)
Theorem C29_small_coefficient_refuted : exists x u, divide_and_conquer 1 2 (inhomogeneous [Mono 1 2]) x
  /\ approximate_functional_equation LOWER_BOUND 1 2 [Mono 1 2] 7 x = Some u /\ x 7%nat < u.
Proof. destruct ce_small as (u & H1 & H2). do 2 eexists. split; [|split; [exact H1|exact H2]]. apply dc_solution_ok; [lia|intros; lra]. Qed.
(** x(n) = 4 x(n/2) + n^2, n = 1: 1 is given as a lower bound of x(1) = 0. *)
Theorem C29_initial_refuted : exists x u, divide_and_conquer 4 2 (inhomogeneous [Mono 1 2]) x
  /\ approximate_functional_equation LOWER_BOUND 4 2 [Mono 1 2] 1 x = Some u /\ x 1%nat < u.
Proof. destruct ce_one as (u & H1 & H2). do 2 eexists. split; [|split; [exact H1|exact H2]]. apply dc_solution_ok; [lia|intros; lra]. Qed.
(** x(n) = x(n/2) - n: a positive number is given as a lower bound of x(2) = -2. *)
Theorem C29_minus_n_refuted : exists x u, divide_and_conquer 1 2 (inhomogeneous [Mono (-1) 1]) x
  /\ approximate_functional_equation LOWER_BOUND 1 2 [Mono (-1) 1] 2 x = Some u /\ x 2%nat < u.
Proof. destruct ce_minus_n as (u & H1 & H2). do 2 eexists. split; [|split; [exact H1|exact H2]]. apply dc_solution_ok; [lia|intros; lra]. Qed.
(** x(n) = 2 x(n/4) + n^(1/2), a = b^k, k < 1, n = 4^8 - 1. *)
Theorem C29_square_root_refuted : exists x u, divide_and_conquer 2 4 (inhomogeneous [Mono 1 (1 / 2)]) x
  /\ approximate_functional_equation LOWER_BOUND 2 4 [Mono 1 (1 / 2)] (4 ^ 8 - 1) x = Some u /\ x (4 ^ 8 - 1)%nat < u.
Proof. destruct ce_half as (u & H1 & H2). do 2 eexists. split; [|split; [exact H1|exact H2]]. apply dc_solution_ok; [lia|intros; lra]. Qed.

(** x(n) = x(n/2), x(1) = 5: both bounds are the solution, 5, and the exact solution recorded is 1,
    in whichever order the bounds are asked for. *)
Theorem C60_half_argument_refuted : let x := fun _ : nat => 5 in let store := store_bound Reqb (fun b : bool => if b then 1 else 0) in
  divide_and_conquer 1 2 (inhomogeneous []) x
  /\ forall n, (1 <= n)%nat -> exists l u, approximate_functional_equation LOWER_BOUND 1 2 [] n x = Some l /\ approximate_functional_equation UPPER_BOUND 1 2 [] n x = Some u
     /\ l = x n /\ u = x n
     /\ exact_solution (store UPPER_BOUND u (store LOWER_BOUND l {| lower_bound := None; upper_bound := None; exact_solution := None |})) = Some 1
     /\ exact_solution (store LOWER_BOUND l (store UPPER_BOUND u {| lower_bound := None; upper_bound := None; exact_solution := None |})) = Some 1.
Proof. exact ce_exact. Qed.
(** No exact solution is recorded when the bounds are different expressions. *)
Theorem C60_different_bounds : forall (E : Type) (eqb : E -> E -> bool) of_bool l u c, eqb u l = false -> exact_solution c = None -> lower_bound c = None -> upper_bound c = None ->
  exact_solution (store_bound eqb of_bool UPPER_BOUND u (store_bound eqb of_bool LOWER_BOUND l c)) = None
  /\ lower_bound (store_bound eqb of_bool UPPER_BOUND u (store_bound eqb of_bool LOWER_BOUND l c)) = Some l
  /\ upper_bound (store_bound eqb of_bool UPPER_BOUND u (store_bound eqb of_bool LOWER_BOUND l c)) = Some u.
Proof. intros E eqb of_bool l u c H1 H2 H3 H4. unfold store_bound. cbn. rewrite H1, H2, H4. auto. Qed.
Example C60_different_bounds_used : exact_solution (store_bound Nat.eqb (fun b : bool => if b then 1%nat else 0%nat) UPPER_BOUND 5%nat
  (store_bound Nat.eqb (fun b : bool => if b then 1%nat else 0%nat) LOWER_BOUND 3%nat {| lower_bound := None; upper_bound := None; exact_solution := None |})) = None.
Proof. reflexivity. Qed.

Print Assumptions C28_upper.
Print Assumptions C28_upper_found.
Print Assumptions C28_negative_addends_partial.
Print Assumptions C28_minus_n_refuted.
Print Assumptions C29_lower_partial.
Print Assumptions C29_lower_constant.
Print Assumptions C29_lower_linear.
Print Assumptions C29_small_coefficient_refuted.
Print Assumptions C29_initial_refuted.
Print Assumptions C29_minus_n_refuted.
Print Assumptions C29_square_root_refuted.
Print Assumptions C60_half_argument_refuted.
Print Assumptions C60_different_bounds.
