From Coq Require Import ZArith QArith Qcanon Reals List String Bool Lia Lra.
From Verif Require Import Ast ProdSpec.
Import ListNotations.
Local Open Scope R_scope.
Local Open Scope list_scope.

(** * Finite products *)
Lemma zprod_ext f g lo n : (forall i, (lo <= i < lo + Z.of_nat n)%Z -> f i = g i) -> zprod f lo n = zprod g lo n.
Proof. induction n as [|n IH]; intros H; cbn [zprod]; auto. rewrite IH, H by (intros; try apply H; lia). reflexivity. Qed.
Lemma zsum_ext f g lo n : (forall i, (lo <= i < lo + Z.of_nat n)%Z -> f i = g i) -> zsum f lo n = zsum g lo n.
Proof. induction n as [|n IH]; intros H; cbn [zsum]; auto. rewrite IH, H by (intros; try apply H; lia). reflexivity. Qed.
Lemma zprod_mul f g lo n : zprod (fun i => f i * g i) lo n = zprod f lo n * zprod g lo n.
Proof. induction n as [|n IH]; cbn [zprod]; [ring|]. rewrite IH. ring. Qed.
Lemma zprod_const c lo n : zprod (fun _ => c) lo n = c ^ n.
Proof. induction n as [|n IH]; cbn [zprod pow]; auto. rewrite IH. ring. Qed.
Lemma zprod_nz f lo n : (forall i, (lo <= i)%Z -> f i <> 0) -> zprod f lo n <> 0.
Proof. intros H. induction n as [|n IH]; cbn [zprod]; [lra|]. apply Rmult_integral_contrapositive_currified; auto. apply H. lia. Qed.
Lemma zprod_inv f lo n : (forall i, (lo <= i)%Z -> f i <> 0) -> zprod (fun i => / f i) lo n = / zprod f lo n.
Proof.
  intros H. induction n as [|n IH]; cbn [zprod]; [lra|]. rewrite IH. rewrite Rinv_mult. reflexivity.
Qed.
Lemma zprod_app f lo n m : zprod f lo (n + m) = zprod f lo n * zprod f (lo + Z.of_nat n) m.
Proof.
  induction m as [|m IH]; cbn [zprod]; [rewrite Nat.add_0_r; ring|]. rewrite Nat.add_succ_r. cbn [zprod]. rewrite IH, Rmult_assoc. do 3 f_equal. lia.
Qed.
Lemma zsum_app f lo n m : zsum f lo (n + m) = zsum f lo n + zsum f (lo + Z.of_nat n) m.
Proof.
  induction m as [|m IH]; cbn [zsum]; [rewrite Nat.add_0_r; ring|]. rewrite Nat.add_succ_r. cbn [zsum]. rewrite IH, Rplus_assoc. do 3 f_equal. lia.
Qed.
Lemma zsum_plus f g lo n : zsum (fun i => f i + g i) lo n = zsum f lo n + zsum g lo n.
Proof. induction n as [|n IH]; cbn [zsum]; [ring|]. rewrite IH. ring. Qed.
Lemma oprod_zprod F f lo n : (forall i, (lo <= i < lo + Z.of_nat n)%Z -> F i = Some (f i)) -> oprod n (fun j => F (lo + Z.of_nat j)%Z) = Some (zprod f lo n).
Proof. induction n as [|n IH]; intros H; cbn [oprod zprod]; auto. rewrite IH, H by (intros; try apply H; lia). reflexivity. Qed.

(** * Powers *)
Lemma powerRZ_mult x y z : x <> 0 -> y <> 0 -> powerRZ (x * y) z = powerRZ x z * powerRZ y z.
Proof. intros. destruct z; cbn; [ring|apply Rpow_mult_distr|]. rewrite Rpow_mult_distr. apply Rinv_mult. Qed.
Lemma rpow_mult x y q u v : x <> 0 -> y <> 0 -> rpow x q = Some u -> rpow y q = Some v -> rpow (x * y) q = Some (u * v).
Proof.
  intros Hx Hy. unfold rpow. pose proof (Rmult_integral_contrapositive_currified x y Hx Hy) as Hxy. destruct (as_int q) as [z|].
  - destruct (Req_EM_T x 0); [contradiction|]. destruct (Req_EM_T y 0); [contradiction|]. destruct (Req_EM_T (x * y) 0); [contradiction|]. intros [= <-] [= <-]. f_equal. now apply powerRZ_mult.
  - destruct (Rlt_dec 0 x); [|destruct (Req_EM_T x 0); [contradiction|discriminate]]. destruct (Rlt_dec 0 y); [|destruct (Req_EM_T y 0); [contradiction|discriminate]].
    intros [= <-] [= <-]. destruct (Rlt_dec 0 (x * y)) as [|N]; [|elim N; now apply Rmult_lt_0_compat]. f_equal. unfold Rpower. rewrite ln_mult by auto. rewrite Rmult_plus_distr_l. apply exp_plus.
Qed.
Lemma rpow_one q : rpow 1 q = Some 1.
Proof.
  unfold rpow. destruct (as_int q) as [z|].
  - destruct (Req_EM_T 1 0); [lra|]. f_equal. destruct z; cbn; auto; rewrite pow1; lra.
  - destruct (Rlt_dec 0 1); [|lra]. f_equal. unfold Rpower. rewrite ln_1, Rmult_0_r. apply exp_0.
Qed.
Lemma rpow_nz x q v : q <> 0 -> rpow x q = Some v -> v <> 0 -> x <> 0.
Proof.
  intros Hq H Hv ->. unfold rpow in H. destruct (as_int q) as [z|] eqn:E.
  - apply as_int_spec in E. destruct (Req_EM_T 0 0); [|lra]. destruct (Z.ltb_spec z 0); [discriminate|]. injection H as <-. destruct z; [subst q; lra| |lia]. apply Hv. cbn. apply pow_i. lia.
  - destruct (Rlt_dec 0 0); [lra|]. destruct (Req_EM_T 0 0); [|lra]. destruct (Rlt_dec 0 q); [|discriminate]. injection H as <-. lra.
Qed.
Lemma zprod_rpow a g q lo n : (forall i, (lo <= i)%Z -> a i <> 0 /\ rpow (a i) q = Some (g i)) -> rpow (zprod a lo n) q = Some (zprod g lo n).
Proof.
  intros H. induction n as [|n IH]; cbn [zprod]; [apply rpow_one|]. apply rpow_mult; auto; [apply zprod_nz; intros; now apply H|apply H; lia|apply H; lia].
Qed.
Lemma rpow_zsum a b g lo n : a <> 0 -> (forall i, (lo <= i < lo + Z.of_nat n)%Z -> rpow a (b i) = Some (g i)) -> rpow a (zsum b lo n) = Some (zprod g lo n).
Proof.
  intros Ha H. induction n as [|n IH]; cbn [zsum zprod].
  - unfold rpow. rewrite as_int_IZR. destruct (Req_EM_T a 0); [contradiction|]. reflexivity.
  - specialize (IH ltac:(intros; apply H; lia)). specialize (H (lo + Z.of_nat n)%Z ltac:(lia)). revert IH H. generalize (zsum b lo n) (b (lo + Z.of_nat n)%Z) (zprod g lo n) (g (lo + Z.of_nat n)%Z). clear - Ha.
    intros p q u v. unfold rpow. destruct (Req_EM_T a 0); [contradiction|].
    destruct (as_int p) as [zp|] eqn:Ep, (as_int q) as [zq|] eqn:Eq.
    + apply as_int_spec in Ep, Eq. subst. rewrite <- plus_IZR, as_int_IZR. intros [= <-] [= <-]. f_equal. now apply powerRZ_add.
    + destruct (Rlt_dec 0 a); [|discriminate]. intros [= <-] [= <-]. apply as_int_spec in Ep. subst p. destruct (as_int (IZR zp + q)) as [z|] eqn:E.
      * apply as_int_spec in E. assert (q = IZR (z - zp)) by (rewrite minus_IZR; lra). subst q. rewrite as_int_IZR in Eq. discriminate.
      * f_equal. rewrite Rpower_plus. f_equal. symmetry. now apply powerRZ_Rpower.
    + destruct (Rlt_dec 0 a); [|discriminate]. intros [= <-] [= <-]. apply as_int_spec in Eq. subst q. destruct (as_int (p + IZR zq)) as [z|] eqn:E.
      * apply as_int_spec in E. assert (p = IZR (z - zq)) by (rewrite minus_IZR; lra). subst p. rewrite as_int_IZR in Ep. discriminate.
      * f_equal. rewrite Rpower_plus. f_equal. symmetry. now apply powerRZ_Rpower.
    + destruct (Rlt_dec 0 a); [|discriminate]. intros [= <-] [= <-]. destruct (as_int (p + q)) as [z|] eqn:E.
      * apply as_int_spec in E. f_equal. rewrite <- Rpower_plus, E. now apply powerRZ_Rpower.
      * f_equal. apply Rpower_plus.
Qed.

(** * Factorials *)
Lemma fact_prod m (lo : Z) n : (0 <= lo + m - 1)%Z -> zprod (fun i => IZR (i + m)) lo n * INR (fact (Z.to_nat (lo + m - 1))) = INR (fact (Z.to_nat (lo + m - 1) + n)).
Proof.
  intros H. induction n as [|n IH]; cbn [zprod]; [rewrite Nat.add_0_r; ring|].
  rewrite Nat.add_succ_r. change (fact (S ?a)) with ((S a) * fact a)%nat. rewrite mult_INR, <- IH. replace (INR (S (Z.to_nat (lo + m - 1) + n))) with (IZR (lo + Z.of_nat n + m)); [ring|].
  rewrite INR_IZR_INZ. f_equal. lia.
Qed.
Lemma INR_fact_nz n : INR (fact n) <> 0. Proof. apply INR_fact_neq_0. Qed.
Lemma fact_S a : INR (fact (S a)) = INR (S a) * INR (fact a).
Proof. change (fact (S a)) with (S a * fact a)%nat. apply mult_INR. Qed.
(** (2k+1), (2k-1), (3k-1)(3k-2) from 1 to n. *)
Lemma prod_odd n : zprod (fun i => 2 * IZR i + 1) 1 n * 2 ^ n * INR (fact n) = INR (fact (2 * n + 1)).
Proof.
  induction n as [|n IH]; [cbn; ring|]. cbn [zprod pow]. replace (2 * S n + 1)%nat with (S (S (2 * n + 1))) by lia. rewrite !fact_S, <- IH.
  replace (IZR (1 + Z.of_nat n)) with (INR n + 1) by (rewrite plus_IZR, <- INR_IZR_INZ; ring). rewrite !S_INR, plus_INR, mult_INR. cbn [INR]. ring.
Qed.
Lemma prod_odd2 n : zprod (fun i => 2 * IZR i - 1) 1 n * 2 ^ n * INR (fact n) = INR (fact (2 * n)).
Proof.
  induction n as [|n IH]; [cbn; ring|]. cbn [zprod pow]. replace (2 * S n)%nat with (S (S (2 * n))) by lia. rewrite !fact_S, <- IH.
  replace (IZR (1 + Z.of_nat n)) with (INR n + 1) by (rewrite plus_IZR, <- INR_IZR_INZ; ring). rewrite !S_INR, mult_INR. cbn [INR]. ring.
Qed.
Lemma prod_third n : zprod (fun i => 2 - 9 * IZR i + 9 * (IZR i * IZR i)) 1 n * 3 ^ n * INR (fact n) = INR (fact (3 * n)).
Proof.
  induction n as [|n IH]; [cbn; ring|]. cbn [zprod pow]. replace (3 * S n)%nat with (S (S (S (3 * n)))) by lia. rewrite !fact_S, <- IH.
  replace (IZR (1 + Z.of_nat n)) with (INR n + 1) by (rewrite plus_IZR, <- INR_IZR_INZ; ring). rewrite !S_INR, mult_INR. cbn [INR]. ring.
Qed.
