From Coq Require Import Reals Lra Lia Bool Field.
From Coquelicot Require Import Complex.
From Verif Require Import Fld CplxF RootModel RootSpec.
Local Open Scope C_scope.

Lemma Rlt_b_spec a b : reflect (a < b)%R (Rlt_b a b).
Proof. unfold Rlt_b. destruct (Rlt_dec a b); constructor; auto. Qed.

(** * Principal roots *)
Lemma rroot_nonneg n r : (0 <= rroot n r)%R.
Proof. unfold rroot. destruct (Req_EM_T r 0); [lra|]. left. apply exp_pos. Qed.
Lemma rroot_pow n r : (0 < n)%nat -> (0 <= r)%R -> (rroot n r ^ n = r)%R.
Proof.
  intros Hn Hr. assert (0 < INR n)%R by (apply lt_0_INR; auto). unfold rroot. destruct (Req_EM_T r 0) as [->|N].
  - rewrite pow_i; auto.
  - rewrite <- Rpower_pow by apply exp_pos. rewrite Rpower_mult, Rinv_l, Rpower_1; lra.
Qed.
Lemma polar z : z = (Cmod z * cos (carg z), Cmod z * sin (carg z))%R.
Proof.
  destruct (Req_EM_T (Cmod z) 0) as [E|N].
  - rewrite E, !Rmult_0_l. apply Cmod_eq_0 in E. exact E.
  - assert (P : (0 < Cmod z)%R) by (pose proof (Cmod_ge_0 z); lra).
    assert (SQ : (Cmod z * Cmod z = fst z * fst z + snd z * snd z)%R).
    { unfold Cmod. rewrite sqrt_sqrt by nra. cbn. ring. }
    assert (B : (-1 <= fst z / Cmod z <= 1)%R).
    { split; apply (Rmult_le_reg_r (Cmod z)); auto; unfold Rdiv; rewrite Rmult_assoc, Rinv_l by auto; nra. }
    assert (SN : (sin (acos (fst z / Cmod z)) = Rabs (snd z) / Cmod z)%R).
    { rewrite sin_acos by auto. rewrite <- (sqrt_Rsqr (Rabs (snd z) / Cmod z)).
      - f_equal. unfold Rsqr. replace (Rabs (snd z) / Cmod z * (Rabs (snd z) / Cmod z))%R with (snd z * snd z / (Cmod z * Cmod z))%R.
        + apply (Rmult_eq_reg_r (Cmod z * Cmod z)); [|nra]. field_simplify; auto. nra.
        + pose proof (Rsqr_abs (snd z)) as AB. unfold Rsqr in AB. rewrite AB. field. auto.
      - apply Rmult_le_pos; [apply Rabs_pos|]. left. apply Rinv_0_lt_compat; auto. }
    destruct z as [a b]. cbn [fst snd] in *. unfold carg. cbn [fst snd].
    destruct (Rle_dec 0 b) as [L|L].
    + rewrite cos_acos, SN by auto. rewrite Rabs_pos_eq by auto. f_equal; field; auto.
    + rewrite cos_neg, sin_neg, cos_acos, SN by auto. rewrite Rabs_left by lra. f_equal; field; auto.
Qed.
Lemma scal_pow (r : R) (w : C) n : fpow (K:=CF) (RtoC r * w) n = RtoC (r ^ n) * fpow (K:=CF) w n.
Proof.
  induction n as [|n IH]; cbn [fpow pow].
  - change (@f1 CF) with (RtoC 1). symmetry. apply Cmult_1_l.
  - rewrite IH. change (@fmul CF) with Cmult. rewrite RtoC_mult. generalize (fpow (K:=CF) w n). intros v. change (car CF) with C in v.
    change (RtoC r * w * (RtoC (r ^ n) * v) = RtoC r * RtoC (r ^ n) * (w * v)). ring.
Qed.
Lemma proot_pow n z : (0 < n)%nat -> fpow (K:=CF) (proot n z) n = z.
Proof.
  intros Hn. assert (D : (0 < INR n)%R) by (apply lt_0_INR; auto).
  assert (E : proot n z = RtoC (rroot n (Cmod z)) * (cos (carg z / INR n), sin (carg z / INR n))%R).
  { unfold proot, Cmult, RtoC. cbn [fst snd]. f_equal; ring. }
  rewrite E, scal_pow, cis_pow, rroot_pow by (auto using Cmod_ge_0).
  replace (INR n * (carg z / INR n))%R with (carg z) by (field; lra).
  etransitivity; [|symmetry; apply polar]. unfold Cmult, RtoC. cbn [fst snd]. f_equal; ring.
Qed.
Lemma proot_2 z : proot 2 z * proot 2 z = z.
Proof. pose proof (proot_pow 2 z ltac:(lia)) as H. cbn [fpow] in H. change (@fmul CF) with Cmult in H. change (@f1 CF) with (RtoC 1) in H. rewrite Cmult_1_r in H. exact H. Qed.
Lemma proot_3 z : proot 3 z * proot 3 z * proot 3 z = z.
Proof.
  pose proof (proot_pow 3 z ltac:(lia)) as H. cbn [fpow] in H. change (@fmul CF) with Cmult in H. change (@f1 CF) with (RtoC 1) in H.
  rewrite Cmult_1_r in H. rewrite <- Cmult_assoc. exact H.
Qed.
Lemma proot_real n a : (0 <= a)%R -> proot n (RtoC a) = RtoC (rroot n a).
Proof.
  intros H. unfold proot. rewrite Cmod_R, Rabs_pos_eq by auto. unfold carg. cbn [fst snd RtoC].
  destruct (Rle_dec 0 0); [|lra]. rewrite Cmod_R, Rabs_pos_eq by auto.
  destruct (Req_EM_T a 0) as [->|N].
  - unfold rroot. destruct (Req_EM_T 0 0); [|lra]. unfold RtoC. f_equal; ring.
  - replace (a / a)%R with 1%R by (field; auto). rewrite acos_1. unfold Rdiv. rewrite Rmult_0_l, cos_0, sin_0.
    unfold RtoC. f_equal; ring.
Qed.

Lemma C2_neq : RtoC 2 <> RtoC 0.
Proof. intros E. apply RtoC_inj in E. lra. Qed.
Lemma RtoC_neq a : a <> 0%R -> RtoC a <> RtoC 0.
Proof. intros H E. apply RtoC_inj in E. auto. Qed.
Lemma C_eq0 (a b : C) : a * b = RtoC 0 -> a = RtoC 0 \/ b = RtoC 0.
Proof. exact (mul_eq0 (K:=CF) a b). Qed.

Lemma RtoC_2 : RtoC 2 = RtoC 1 + RtoC 1. Proof. rewrite <- RtoC_plus. f_equal; lra. Qed.
Lemma RtoC_3 : RtoC 3 = RtoC 1 + (RtoC 1 + RtoC 1). Proof. rewrite <- !RtoC_plus. f_equal; lra. Qed.
Lemma RtoC_4 : RtoC 4 = (RtoC 1 + RtoC 1) * (RtoC 1 + RtoC 1). Proof. rewrite <- !RtoC_plus, <- RtoC_mult. f_equal; lra. Qed.
Lemma RtoC_8 : RtoC 8 = (RtoC 1 + RtoC 1) * (RtoC 1 + RtoC 1) * (RtoC 1 + RtoC 1). Proof. rewrite <- !RtoC_plus, <- !RtoC_mult. f_equal; lra. Qed.
Ltac cnum := rewrite ?RtoC_8, ?RtoC_4, ?RtoC_3, ?RtoC_2.
Ltac cside := repeat split; let E := fresh in intros E; apply (f_equal fst) in E; cbn [fst RtoC] in E; lra.

(** * Degree 2 *)
Lemma solve_equation_2_ok b c : let '(x1, x2) := solve_equation_2 b c in roots_of_2 b c x1 x2.
Proof.
  unfold solve_equation_2. intros z. pose proof (proot_2 (b * b - RtoC 4 * c)) as H.
  set (w := proot 2 _) in *. clearbody w.
  transitivity (z * z + b * z + (b * b - w * w) / RtoC 4); [rewrite H|]; cnum; field; cside.
Qed.

(** * Degree 3 *)
Lemma cardano (Q A B u v w a : C) :
  u * u * u = A -> v * v * v = B -> u * v = - Q -> w * w = - RtoC 3 ->
  forall z, let Z := z + a in
    (z - (u + v - a)) * (z - (- (u + v) / RtoC 2 - a + (u - v) * w / RtoC 2)) * (z - (- (u + v) / RtoC 2 - a - (u - v) * w / RtoC 2))
    = Z * Z * Z + RtoC 3 * Q * Z - (A + B).
Proof.
  intros <- <- Huv Hw z Z. subst Z.
  transitivity ((z + a - (u + v)) * ((z + a + (u + v) / RtoC 2) * (z + a + (u + v) / RtoC 2) - (u - v) * (u - v) * (w * w) / RtoC 4)).
  { cnum. field. cside. }
  rewrite Hw. transitivity ((z + a) * (z + a) * (z + a) - RtoC 3 * (u * v) * (z + a) - (u * u * u + v * v * v)).
  { cnum. field. cside. }
  rewrite Huv. ring.
Qed.
Lemma vieta_3 (a1 a2 a3 x1 x2 x3 : R) : (a1 = - (x1 + x2 + x3))%R -> (a2 = x1 * x2 + x1 * x3 + x2 * x3)%R -> (a3 = - (x1 * x2 * x3))%R ->
  roots_of_3 (RtoC a1) (RtoC a2) (RtoC a3) (RtoC x1) (RtoC x2) (RtoC x3).
Proof.
  intros -> -> -> z. rewrite !RtoC_opp, !RtoC_plus, !RtoC_mult. ring.
Qed.
Lemma cube_inj (x y : R) : (x * x * x = y * y * y)%R -> x = y.
Proof.
  intros H. assert (E : ((x - y) * (x * x + x * y + y * y) = 0)%R) by lra.
  apply Rmult_integral in E. destruct E as [E|E]; [lra|]. pose proof (pow2_ge_0 (x + y / 2)). pose proof (pow2_ge_0 y).
  assert (Y : (y * y = 0)%R) by lra. apply Rmult_integral in Y. assert (y = 0)%R by (destruct Y; auto). subst y.
  assert (X : (x * x = 0)%R) by lra. apply Rmult_integral in X. destruct X; auto.
Qed.
Lemma three_cos t : let c := cos t in let c2 := cos (t + 2 * PI / 3) in let c3 := cos (t + 4 * PI / 3) in
  (c + c2 + c3 = 0 /\ c * c2 + c * c3 + c2 * c3 = - (3 / 4) /\ 4 * (c * c2 * c3) = cos (3 * t))%R.
Proof.
  intros c c2 c3.
  assert (E2 : c2 = (- c / 2 - sqrt 3 / 2 * sin t)%R).
  { unfold c2. rewrite cos_plus. replace (2 * PI / 3)%R with (2 * (PI / 3))%R by field.
    rewrite cos_2PI3, sin_2PI3. unfold c. field. }
  assert (E3 : c3 = (- c / 2 + sqrt 3 / 2 * sin t)%R).
  { unfold c3. rewrite cos_plus. replace (4 * PI / 3)%R with (PI + PI / 3)%R by field.
    rewrite (Rplus_comm PI), neg_cos, neg_sin, cos_PI3, sin_PI3. unfold c. field. }
  assert (T : (cos (3 * t) = 4 * (c * c * c) - 3 * c)%R).
  { replace (3 * t)%R with (2 * t + t)%R by ring. rewrite cos_plus, cos_2a, sin_2a. unfold c.
    pose proof (sin2_cos2 t) as H. unfold Rsqr in H. replace (sin t * sin t)%R with (1 - cos t * cos t)%R by lra.
    replace (2 * sin t * cos t * sin t)%R with (2 * cos t * (sin t * sin t))%R by ring.
    replace (sin t * sin t)%R with (1 - cos t * cos t)%R by lra. ring. }
  assert (P : (sin t * sin t + c * c = 1)%R) by (pose proof (sin2_cos2 t) as H; unfold Rsqr in H; unfold c; lra).
  assert (S3 : (sqrt 3 * sqrt 3 = 3)%R) by (apply sqrt_sqrt; lra).
  rewrite T, E2, E3. clearbody c. clear - P S3. set (s := sin t) in *. set (k := sqrt 3) in *. clearbody s k.
  assert (X : ((k * s) * (k * s) = 3 * (1 - c * c))%R).
  { replace (k * s * (k * s))%R with (k * k * (s * s))%R by ring. rewrite S3. replace (s * s)%R with (1 - c * c)%R by lra. ring. }
  repeat split.
  - field.
  - transitivity (- (c * c) + (c * c - (k * s) * (k * s)) / 4)%R; [field|]. rewrite X. field.
  - transitivity (c * (c * c - (k * s) * (k * s)))%R; [field|]. rewrite X. ring.
Qed.

(** The real case. *)
Lemma trig_roots (Q R' : R) : (Q * Q * Q + R' * R' < 0)%R ->
  let k := sqrt (- Q) in let t := (acos (- R' / (Q * k)) / 3)%R in
  (0 < k /\ k * k = - Q /\ k * k * k * cos (3 * t) = R')%R.
Proof.
  intros D. assert (HQ : (Q < 0)%R) by (destruct (Rlt_dec Q 0); auto; nra).
  assert (P : (0 < sqrt (- Q))%R) by (apply sqrt_lt_R0; lra).
  assert (K : (sqrt (- Q) * sqrt (- Q) = - Q)%R) by (apply sqrt_sqrt; lra).
  cbn zeta. set (k := sqrt (- Q)) in *. clearbody k.
  assert (E : Q = (- (k * k))%R) by lra. subst Q. clear HQ K.
  split; auto. split; [ring|].
  replace (3 * (acos (- R' / (- (k * k) * k)) / 3))%R with (acos (- R' / (- (k * k) * k))) by field.
  assert (K3 : (0 < k * k * k)%R) by (repeat apply Rmult_lt_0_compat; auto).
  replace (- R' / (- (k * k) * k))%R with (R' / (k * k * k))%R by (field; lra).
  assert (B : (R' * R' < (k * k * k) * (k * k * k))%R) by nra.
  set (c := (k * k * k)%R) in *. clearbody c.
  rewrite cos_acos.
  - field. lra.
  - split; apply (Rmult_le_reg_r c); auto; unfold Rdiv; rewrite Rmult_assoc, Rinv_l by lra; nra.
Qed.

Lemma rroot_2_sq a : (0 <= a)%R -> (rroot 2 a * rroot 2 a = a)%R.
Proof. intros H. pose proof (rroot_pow 2 a ltac:(lia) H) as E. cbn [pow] in E. lra. Qed.
Lemma rroot_3_cube a : (0 <= a)%R -> (rroot 3 a * rroot 3 a * rroot 3 a = a)%R.
Proof. intros H. pose proof (rroot_pow 3 a ltac:(lia) H) as E. cbn [pow] in E. lra. Qed.

(** The other case: S and T are real, with the right cubes and product. *)
Lemma cubic_ST (Q R' : R) : (0 <= Q * Q * Q + R' * R')%R ->
  exists (s t e : R), (0 <= e)%R /\ (e * e = Q * Q * Q + R' * R')%R /\ proot 2 (RtoC (Q * Q * Q + R' * R')) = RtoC e /\
  (let A := RtoC R' + RtoC e in let B := RtoC R' - RtoC e in
    (if negb (Rlt_b Q 0) then (proot 3 A, - proot 3 (- B))
        else if Rlt_b R' 0 then (- proot 3 (- A), - proot 3 (- B))
        else (proot 3 A, proot 3 B)) = (RtoC s, RtoC t)) /\
  (s * s * s = R' + e /\ t * t * t = R' - e /\ s * t = - Q)%R.
Proof.
  intros D. set (d := (Q * Q * Q + R' * R')%R) in *.
  assert (E2 := rroot_2_sq d D). assert (E0 := rroot_nonneg 2 d).
  pose proof (proot_real 2 d D) as PE. set (e := rroot 2 d) in *. clearbody e.
  assert (FIN : forall s t : R, (s * s * s = R' + e)%R -> (t * t * t = R' - e)%R -> (s * t = - Q)%R).
  { intros s t Hs Ht. apply cube_inj. replace (s * t * (s * t) * (s * t))%R with ((s * s * s) * (t * t * t))%R by ring.
    rewrite Hs, Ht. unfold d in E2. lra. }
  destruct (Rlt_b_spec Q 0) as [HQ|HQ]; cbn [negb].
  - assert (EL : (e * e <= R' * R')%R) by (unfold d in E2; nra).
    destruct (Rlt_b_spec R' 0) as [HR|HR].
    + assert (e <= - R')%R by nra.
      exists (- rroot 3 (- (R' + e)))%R, (- rroot 3 (- (R' - e)))%R, e.
      pose proof (rroot_3_cube (- (R' + e)) ltac:(lra)). pose proof (rroot_3_cube (- (R' - e)) ltac:(lra)).
      repeat split; auto; try (cbn zeta; rewrite <- RtoC_plus, <- RtoC_minus, <- ?RtoC_opp; rewrite !proot_real by lra; rewrite <- !RtoC_opp; reflexivity); try (apply FIN); lra.
    + assert (e <= R')%R by nra.
      exists (rroot 3 (R' + e))%R, (rroot 3 (R' - e))%R, e.
      pose proof (rroot_3_cube (R' + e) ltac:(lra)). pose proof (rroot_3_cube (R' - e) ltac:(lra)).
      repeat split; auto; try (cbn zeta; rewrite <- RtoC_plus, <- RtoC_minus, <- ?RtoC_opp; rewrite !proot_real by lra; reflexivity).
  - assert (EL : (R' * R' <= e * e)%R) by (unfold d in E2; assert (0 <= Q * Q * Q)%R by (repeat apply Rmult_le_pos; lra); lra).
    assert (- e <= R' <= e)%R by (split; nra).
    exists (rroot 3 (R' + e))%R, (- rroot 3 (- (R' - e)))%R, e.
    pose proof (rroot_3_cube (R' + e) ltac:(lra)). pose proof (rroot_3_cube (- (R' - e)) ltac:(lra)).
    repeat split; auto; try (cbn zeta; rewrite <- RtoC_plus, <- RtoC_minus, <- ?RtoC_opp; rewrite !proot_real by lra; rewrite <- !RtoC_opp; reflexivity); try apply FIN; lra.
Qed.
