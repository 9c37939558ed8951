(** C52, C53, C54: numbers (src/simplify.cc:524-717, 1331-1356, src/poly_factor.cc:40-50). *)
From Coq Require Import ZArith QArith Qcanon Reals List Lia Lra.
From Coquelicot Require Import Complex.
From Verif Require Import Fld CplxF Ast ExprCases IntUtilModel NumFormModel NumFormSpec NumFormProofs NumFormProofs2.
Import ListNotations.
Local Open Scope R_scope.

(** * C52: conversion of big integers to long *)
(** In the language the conversion is never defined: the byte is shifted as an int by up to 48. *)
Theorem C52_conversion_undefined_refuted : forall z : Z, ZZ_to_long shl_strict z = Undef.
Proof. exact zz_strict. Qed.
Print Assumptions C52_conversion_undefined_refuted.
(** With the shift of x86 the conversion is exact exactly for the numbers of 32 bits (but
    INT_MIN), not for all the numbers that the assertion admits. *)
Theorem C52_conversion_exact_partial : forall z : Z, (- 2 ^ 63 <= z < 2 ^ 63)%Z ->
  (ZZ_to_long shl32 z = Ret z <-> (- 2 ^ 31 < z < 2 ^ 31)%Z).
Proof. intros z H. apply zz_value. lia. Qed.
Print Assumptions C52_conversion_exact_partial.
Example C52_small : ZZ_to_long shl32 (-123456789) = Ret (-123456789)%Z. Proof. vm_compute. reflexivity. Qed.
Example C52_large : ZZ_to_long shl32 (2 ^ 31) = Ret (- 2 ^ 31)%Z. Proof. vm_compute. reflexivity. Qed.

(** * C53: roots of rational numbers *)
(** The root of a positive number, for every index of either sign: the value, and what is
    promised about the shape (positive rational times the root of a positive integer). *)
Theorem C53_positive : forall (k : Z) (r : Qc), k <> 0%Z -> 0 < rv r ->
  exists s, reduce_to_standard_form k r = Ret s /\ std_value s = RtoC (Rpower (rv r) (/ IZR k)).
Proof. exact reduce_positive. Qed.
Print Assumptions C53_positive.
Theorem C53_zero : forall k : Z, (0 < k)%Z -> exists s, reduce_to_standard_form k 0 = Ret s /\ std_value s = RtoC 0.
Proof. exact reduce_zero. Qed.
Print Assumptions C53_zero.
(** The assertions fail exactly for index 0 and for the inverse of 0. *)
Theorem C53_defined : forall (k : Z) (r : Qc), reduce_to_standard_form k r = Undef <-> k = 0%Z \/ ((k < 0)%Z /\ rv r = 0).
Proof. exact reduce_undefined. Qed.
Print Assumptions C53_defined.
(** Negative numbers: the result is a k-th root when k is odd or k = 2 mod 4 ... *)
Theorem C53_negative : forall (k : Z) (r : Qc), rv r < 0 -> (1 < Z.abs k)%Z -> Z.odd k = true \/ (k mod 4 = 2)%Z ->
  exists s, reduce_to_standard_form k r = Ret s /\ cpow (std_value s) k = RtoC (rv r).
Proof. exact reduce_negative. Qed.
Print Assumptions C53_negative.

Lemma rpower_inv1 x : Rpower x (/ IZR 1) = Rpower x 1.
Proof. f_equal. change (IZR 1) with 1. field. Qed.
Lemma neg1 : reduce_to_standard_form 1 (Q2Qc (-2 # 1)) = Ret (MkStd 2 (-2) 1 1 1).
Proof. vm_compute. reflexivity. Qed.
Lemma neg4 : reduce_to_standard_form 4 (Q2Qc (-1 # 1)) = Ret (MkStd 1 1 1 1 1).
Proof. vm_compute. reflexivity. Qed.
Lemma i2 : fpow (K := CF) Ci 2 = RtoC (-1).
Proof. cbn [fpow]. change (@fmul CF) with Cmult. change (@f1 CF) with (RtoC 1). unfold Cmult, Ci, RtoC. cbn [fst snd]. f_equal; lra. Qed.

(** ... but not otherwise: with index 1 the sign is applied twice, and (-1)^(1/4) becomes i. *)
Lemma C53_index_one : exists s, reduce_to_standard_form 1 (Q2Qc (-2 # 1)) = Ret s /\ std_value s = RtoC 2.
Proof.
  eexists. split; [exact neg1|]. unfold std_value. cbn [sgn snum sden irr idx]. rewrite i2, rpower_inv1, Rpower_1 by lra.
  rewrite <- RtoC_mult. apply f_equal. lra.
Qed.
Theorem C53_index_one_refuted : ~ (forall (k : Z) (r : Qc), rv r < 0 -> Z.odd k = true ->
  exists s, reduce_to_standard_form k r = Ret s /\ cpow (std_value s) k = RtoC (rv r)).
Proof.
  intros H. destruct (H 1%Z (Q2Qc (-2 # 1))) as (s & E1 & E2); [rewrite rv_Q; lra|reflexivity|].
  destruct C53_index_one as (s' & E1' & E2'). rewrite E1' in E1. injection E1 as <-. rewrite E2' in E2. rewrite rv_Q in E2.
  change (cpow (RtoC 2) 1) with (Cmult (RtoC 2) (RtoC 1)) in E2. rewrite <- RtoC_mult in E2. apply RtoC_inj in E2. lra.
Qed.
Print Assumptions C53_index_one_refuted.
Theorem C53_index_four_refuted : ~ (forall (k : Z) (r : Qc), rv r < 0 -> (1 < Z.abs k)%Z ->
  exists s, reduce_to_standard_form k r = Ret s /\ cpow (std_value s) k = RtoC (rv r)).
Proof.
  intros H. destruct (H 4%Z (Q2Qc (-1 # 1))) as (s & E1 & E2); [rewrite rv_Q; lra|reflexivity|].
  rewrite neg4 in E1. injection E1 as <-. unfold std_value in E2. cbn [sgn snum sden irr idx] in E2.
  rewrite rpower_inv1, Rpower_1 in E2 by lra. replace (1 / 1 * 1) with 1 in E2 by lra.
  change (cpow (Cmult (fpow (K := CF) Ci 1) (RtoC 1)) 4) with (fpow (K := CF) (Cmult (Cmult Ci (RtoC 1)) (RtoC 1)) 4) in E2.
  rewrite !Cmult_1_r in E2. change 4%nat with (0 + 4 * 1)%nat in E2. rewrite i_pow_4 in E2. cbn [fpow] in E2. rewrite rv_Q in E2. change (@f1 CF) with (RtoC 1) in E2. apply RtoC_inj in E2. lra.
Qed.
Print Assumptions C53_index_four_refuted.

(** Products of two roots of positive numbers. *)
Theorem C53_product : forall b1 e1 b2 e2 : Qc, 0 < rv b1 -> 0 < rv b2 -> rv e1 <> 0 -> rv e2 <> 0 ->
  exists s, red_prod b1 e1 b2 e2 = Ret s /\ std_value s = RtoC (Rpower (rv b1) (rv e1) * Rpower (rv b2) (rv e2)).
Proof. exact red_prod_positive. Qed.
Print Assumptions C53_product.
(** Products of square roots of negative numbers get the wrong sign: sqrt(-2) sqrt(-3) is
    reported as sqrt(6) (with either choice of the square roots of -2 and -3 in the upper half
    plane the product is - sqrt(6)). *)
Definition half : Qc := Q2Qc (1 # 2).
Lemma prod23 : red_prod (Q2Qc (-2 # 1)) half (Q2Qc (-3 # 1)) half = Ret (MkStd 0 1 1 6 2).
Proof. vm_compute. reflexivity. Qed.
Theorem C53_product_negative_refuted : exists (s1 s2 s : stdform),
  reduce_to_standard_form 2 (Q2Qc (-2 # 1)) = Ret s1 /\ reduce_to_standard_form 2 (Q2Qc (-3 # 1)) = Ret s2 /\
  red_prod (Q2Qc (-2 # 1)) half (Q2Qc (-3 # 1)) half = Ret s /\
  std_value s <> Cmult (std_value s1) (std_value s2).
Proof.
  exists (MkStd 1 1 1 2 2), (MkStd 1 1 1 3 2), (MkStd 0 1 1 6 2). split. { vm_compute. reflexivity. } split. { vm_compute. reflexivity. } split. { exact prod23. }
  unfold std_value. cbn [sgn snum sden irr idx]. change (fpow (K := CF) Ci 1) with (Cmult Ci (RtoC 1)). change (fpow (K := CF) Ci 0) with (RtoC 1).
  assert (P : forall x, 0 < Rpower x (/ 2)) by (intros x; apply exp_pos). pose proof (P 6) as P6. pose proof (P 2) as P2. pose proof (P 3) as P3.
  intros E. apply (f_equal fst) in E. cbn in E. assert (0 < Rpower 2 (/ 2) * Rpower 3 (/ 2)) by nra. nra.
Qed.
Print Assumptions C53_product_negative_refuted.

Example C53_case : reduce_to_standard_form 6 (Q2Qc (64 * 5 # 27)) = Ret (MkStd 0 2 3 135 6).
Proof. vm_compute. reflexivity. Qed.
Example C53_case_reduced : reduce_to_standard_form (-4) (Q2Qc (4 # 9)) = Ret (MkStd 0 1 2 6 2).
Proof. vm_compute. reflexivity. Qed.
Example C53_case_product : red_prod (Q2Qc (2 # 1)) (Q2Qc (2 # 3)) (Q2Qc (3 # 1)) (Q2Qc (-1 # 2)) = Ret (MkStd 0 1 3 432 6).
Proof. vm_compute. reflexivity. Qed.

(** * C54: perfect powers *)
(** For positive numbers the search terminates, and the answer is exact for exponents other
    than 0. *)
Theorem C54_perfect_power : forall c a : Qc, 0 < rv a -> 0 < rv c ->
  exists f0, forall f, (f0 <= f)%nat -> exists r, is_perfect_power f c a = Some r /\
  match r with
  | Some b => b <> 0%Z /\ rv c = Rpower (rv a) (IZR b)
  | None => forall b, b <> 0%Z -> rv c <> Rpower (rv a) (IZR b)
  end.
Proof. exact perfect_power_ok. Qed.
Print Assumptions C54_perfect_power.
(** 1 = a^0 is not recognised. *)
Theorem C54_exponent_zero_refuted :
  ~ (forall c a f, 0 < rv a -> 0 < rv c -> is_perfect_power f c a = Some None -> forall b, rv c <> Rpower (rv a) (IZR b)).
Proof. exact perfect_power_zero_refuted. Qed.
Print Assumptions C54_exponent_zero_refuted.
Example C54_case : is_perfect_power 10 (Q2Qc (1 # 32)) (Q2Qc (2 # 1)) = Some (Some (-5)%Z).
Proof. vm_compute. reflexivity. Qed.
Example C54_case_no : is_perfect_power 10 (Q2Qc (6 # 1)) (Q2Qc (2 # 1)) = Some None.
Proof. vm_compute. reflexivity. Qed.
