(** C30: the test for non-negative, non-decreasing functions. *)
From Coq Require Import ZArith QArith Qcanon Reals List String Bool Lia Lra.
From Verif Require Import Ast ExprModel MonoModel MonoSpec MonoProofs.
Import ListNotations.
Local Open Scope list_scope.
Local Open Scope R_scope.

(** What is accepted is non-negative and non-decreasing from the condition on if the base is at least 1 and the
    numbers, constants and logarithms in it are non-negative.  Missing: base < 1, negative numbers,
    decreasing logarithms, bases of powers smaller than 1, all of which are accepted (see below). *)
Theorem C30_direct_partial : forall I rho fd df base e (poly : bool) c, domain_ok fd -> 1 <= rv base -> (if poly then is_non_decreasing_poly "n" e = true else True) ->
  is_non_negative_non_decreasing fd df base e poly "n" (-1) = Some c -> benign I rho c e -> (0 <= c)%Z /\ nnd_exp I rho base c e.
Proof. exact test_direct. Qed.
(** Polynomials accepted because of the difference e(n+1) - e(n); e(c) must be non-negative. *)
Theorem C30_difference_partial : forall I rho fd df base e c, domain_ok fd -> difference_ok I rho df -> 1 <= rv base -> is_non_decreasing_poly "n" e = false ->
  is_non_negative_non_decreasing fd df base e true "n" (-1) = Some c -> benign I rho c (df e) ->
  (forall n, (c <= n)%Z -> value_at I rho n e <> None) -> (forall v, value_at I rho c e = Some v -> 0 <= v) ->
  (0 <= c)%Z /\ nnd_exp I rho base c e.
Proof. exact test_difference. Qed.
(** 2^n (3 n^2 + 5 n) *)
Definition ex1 : expr := Add [Mul [Num (zq 3); Pow (Sym "n") (Num (zq 2))]; Mul [Num (zq 5); Sym "n"]].
Example C30_direct_used : forall I rho (df : expr -> expr), nnd_exp I rho (zq 2) 0 ex1.
Proof.
  intros I rho df. refine (proj2 (C30_direct_partial I rho (fun _ _ i => Some i) df (zq 2) ex1 true 0 _ _ _ _ _)).
  - intros e x i j [= ->]. lia.
  - rewrite rv_zq. lra.
  - reflexivity.
  - vm_compute. reflexivity.
  - cbn. rewrite !rv_zq. repeat split; try lra; intros; try discriminate.
Qed.
(** n - 5 *)
Definition ex2 : expr := Add [Sym "n"; Num (zq (-5))].
Example C30_difference_used : forall I rho df, difference_ok I rho df -> df ex2 = Num 1%Qc -> nnd_exp I rho (zq 3) 5 ex2.
Proof.
  intros I rho df Hdf E. refine (proj2 (C30_difference_partial I rho (fun e _ i => if expr_eqb e ex2 then Some (Z.max i 5) else Some i) df (zq 3) ex2 5 _ Hdf _ _ _ _ _ _)).
  - intros e x i j. destruct (expr_eqb e ex2); intros [= <-]; lia.
  - rewrite rv_zq. lra.
  - vm_compute. reflexivity.
  - unfold is_non_negative_non_decreasing, second_time. rewrite E. vm_compute. reflexivity.
  - rewrite E. cbn. rewrite rv_1. lra.
  - intros n _. unfold value_at, ex2. cbn. discriminate.
  - intros v. unfold value_at, ex2, upd. cbn. rewrite rv_zq. intros Hv. assert (5 + (-5 + 0) = v) by congruence. lra.
Qed.

(** (1/2)^n is accepted from 0 on. *)
Theorem C30_small_base_refuted : forall I rho fd df, fd (Num 1%Qc) "n"%string (-1)%Z = Some (-1)%Z ->
  is_non_negative_non_decreasing fd df (Q2Qc (1 # 2)) (Num 1%Qc) true "n" (-1) = Some 0%Z /\ ~ nnd_exp I rho (Q2Qc (1 # 2)) 0 (Num 1%Qc).
Proof.
  intros I rho fd df H. split. { unfold is_non_negative_non_decreasing, is_non_negative. rewrite H. vm_compute. reflexivity. }
  intros N. specialize (N 0%Z _ _ ltac:(lia) eq_refl eq_refl). rewrite rv_1 in N. cbn in N.
  assert (E : rv (Q2Qc (1 # 2)) = / 2) by (unfold rv, Q2R; cbn; lra). rewrite E in N. change (Pos.to_nat 1) with 1%nat in N. simpl in N. lra.
Qed.
(** - n is accepted. *)
Theorem C30_negative_refuted : forall I rho fd df, let e := Mul [Num (- (1))%Qc; Sym "n"] in fd e "n"%string (-1)%Z = Some 0%Z ->
  is_non_negative_non_decreasing fd df 1%Qc e true "n" (-1) = Some 0%Z /\ ~ nnd_exp I rho 1%Qc 0 e.
Proof.
  intros I rho fd df e H. split. { unfold is_non_negative_non_decreasing, is_non_negative. rewrite H. vm_compute. reflexivity. }
  intros N. specialize (N 1%Z _ _ ltac:(lia) eq_refl eq_refl). unfold upd in N. cbn in N. rewrite rv_opp, rv_1 in N. change (Pos.to_nat 1) with 1%nat in N. change (Pos.to_nat 2) with 2%nat in N. simpl in N. lra.
Qed.
(** n^2 - 2 is accepted from 0 on (its difference is 2 n + 1; sqrt(2) is not a number for find_domain_in_N). *)
Theorem C30_difference_refuted : forall I rho fd df, let e := Add [Pow (Sym "n") (Num (zq 2)); Num (zq (-2))] in let d := Add [Mul [Num (zq 2); Sym "n"]; Num 1%Qc] in
  fd e "n"%string (-1)%Z = Some (-1)%Z -> df e = d -> fd d "n"%string 0%Z = Some 0%Z ->
  is_non_negative_non_decreasing fd df 1%Qc e true "n" (-1) = Some 0%Z /\ ~ nnd_exp I rho 1%Qc 0 e.
Proof.
  intros I rho fd df e d H1 H2 H3. split.
  { unfold is_non_negative_non_decreasing, is_non_negative, second_time. rewrite H1. replace (is_non_decreasing_poly "n" e) with false by (vm_compute; reflexivity).
    unfold is_non_negative. rewrite H2. replace (if (-1 =? -1)%Z then 0%Z else (-1)%Z) with 0%Z by reflexivity. rewrite H3. vm_compute. reflexivity. }
  intros N. assert (E : forall n, value_at I rho n e = Some (IZR n * IZR n - 2)).
  { intros n. unfold value_at, e, upd. cbn [eval fold_right String.eqb Ascii.eqb Bool.eqb]. rewrite !rv_zq. replace (IZR 2) with (INR 2) by (simpl; lra). cbn [obind].
    rewrite ExprProofs2.rpow_nat. cbn. f_equal. lra. }
  specialize (N 0%Z _ _ ltac:(lia) (E 0%Z) (E (0 + 1)%Z)). cbn in N. change (Pos.to_nat 1) with 1%nat in N. simpl in N. lra.
Qed.
(** - log(n) is accepted, from 1 on. *)
Theorem C30_logarithm_refuted : forall I rho fd df, (forall v, 0 < v -> ifun I FLog [v] = Some (ln v)) -> let e := Mul [Num (- (1))%Qc; Fun FLog [Sym "n"]] in fd e "n"%string (-1)%Z = Some 1%Z ->
  is_non_negative_non_decreasing fd df 1%Qc e false "n" (-1) = Some 1%Z /\ ~ nnd_exp I rho 1%Qc 1 e.
Proof.
  intros I rho fd df HI e H. split. { unfold is_non_negative_non_decreasing, is_non_negative. rewrite H. vm_compute. reflexivity. }
  intros N. assert (E : forall n, (0 < n)%Z -> value_at I rho n e = Some (- ln (IZR n))).
  { intros n Hn. unfold value_at, e, upd. cbn. rewrite HI by (apply IZR_lt in Hn; lra). cbn. f_equal. rewrite rv_opp, rv_1. lra. }
  specialize (N 2%Z _ _ ltac:(lia) (E 2%Z ltac:(lia)) (E (2 + 1)%Z ltac:(lia))). rewrite rv_1 in N. cbn in N. change (Pos.to_nat 2) with 2%nat in N. change (Pos.to_nat 3) with 3%nat in N. simpl in N. pose proof (ln_lt_2). lra.
Qed.
(** 1/2 raised to n^2 is accepted. *)
Theorem C30_power_refuted : forall I rho fd df, let e := Pow (Num (Q2Qc (1 # 2))) (Pow (Sym "n") (Num (zq 2))) in fd e "n"%string (-1)%Z = Some (-1)%Z ->
  is_non_negative_non_decreasing fd df 1%Qc e false "n" (-1) = Some 0%Z /\ ~ nnd_exp I rho 1%Qc 0 e.
Proof.
  intros I rho fd df e H. split. { unfold is_non_negative_non_decreasing, is_non_negative. rewrite H. vm_compute. reflexivity. }
  intros N. assert (E12 : rv (Q2Qc (1 # 2)) = / 2) by (unfold rv, Q2R; cbn; lra).
  assert (E : forall n : nat, value_at I rho (Z.of_nat n) e = Some ((/ 2) ^ (n * n))).
  { intros n. unfold value_at, e, upd. cbn [eval obind String.eqb Ascii.eqb Bool.eqb]. rewrite rv_zq, E12. replace (IZR 2) with (INR 2) by (simpl; lra).
    rewrite ExprProofs2.rpow_nat. cbn [obind]. rewrite <- INR_IZR_INZ. replace (INR n ^ 2) with (INR (n * n)) by (rewrite mult_INR; simpl; ring). now rewrite ExprProofs2.rpow_nat. }
  specialize (N 0%Z _ _ ltac:(lia) (E O) (E 1%nat)). cbn in N. rewrite rv_1 in N. change (Pos.to_nat 1) with 1%nat in N. simpl in N. lra.
Qed.
Example C30_refuted_instances : let fd := (fun e (_ : string) (i : Z) => Some i) in
  is_non_negative_non_decreasing fd (fun e => e) (Q2Qc (1 # 2)) (Num 1%Qc) true "n" (-1) = Some 0%Z.
Proof. vm_compute. reflexivity. Qed.

Print Assumptions C30_direct_partial.
Print Assumptions C30_difference_partial.
Print Assumptions C30_small_base_refuted.
Print Assumptions C30_negative_refuted.
Print Assumptions C30_difference_refuted.
Print Assumptions C30_logarithm_refuted.
Print Assumptions C30_power_refuted.
