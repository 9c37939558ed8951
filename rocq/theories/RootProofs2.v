From Coq Require Import Reals Lra Lia Bool Field.
From Coquelicot Require Import Complex.
From Verif Require Import Fld CplxF RootModel RootSpec RootProofs.
Local Open Scope C_scope.

Lemma w2 : Ci * proot 2 (RtoC 3) * (Ci * proot 2 (RtoC 3)) = - RtoC 3.
Proof.
  replace (Ci * proot 2 (RtoC 3) * (Ci * proot 2 (RtoC 3))) with ((Ci * Ci) * (proot 2 (RtoC 3) * proot 2 (RtoC 3))) by ring.
  rewrite proot_2. unfold Ci, Cmult, Copp, RtoC. cbn [fst snd]. f_equal; ring.
Qed.

Lemma solve_equation_3_ok a1 a2 a3 :
  let '(x1, x2, x3, all_real) := solve_equation_3 a1 a2 a3 in
  roots_of_3 (RtoC a1) (RtoC a2) (RtoC a3) x1 x2 x3 /\ is_real x1 /\ (all_real = true <-> is_real x1 /\ is_real x2 /\ is_real x3).
Proof.
  unfold solve_equation_3.
  set (Q := ((3 * a2 - a1 * a1) / 9)%R). set (R' := ((9 * a1 * a2 - 27 * a3 - 2 * a1 * a1 * a1) / 54)%R).
  cbv zeta. destruct (Rlt_b_spec (Q * Q * Q + R' * R') 0) as [D|D].
  - pose proof (trig_roots Q R' D) as (P & K & T). cbv zeta in T.
    set (k := sqrt (- Q)) in *. set (t := (acos (- R' / (Q * k)) / 3)%R) in *.
    replace ((acos (- R' / (Q * k)) + 2 * PI) / 3)%R with (t + 2 * PI / 3)%R by (unfold t; field).
    replace ((acos (- R' / (Q * k)) + 4 * PI) / 3)%R with (t + 4 * PI / 3)%R by (unfold t; field).
    pose proof (three_cos t) as (C1 & C2 & C3). cbv zeta in C1, C2, C3. rewrite <- C3 in T.
    set (c := cos t) in *. set (c2 := cos (t + 2 * PI / 3)) in *. set (c3 := cos (t + 4 * PI / 3)) in *.
    clearbody c c2 c3 k. clear t C3.
    split; [|split; [reflexivity|]].
    + apply vieta_3.
      * replace (- (- (a1 / 3) + 2 * k * c + (- (a1 / 3) + 2 * k * c2) + (- (a1 / 3) + 2 * k * c3)))%R with (a1 - 2 * k * (c + c2 + c3))%R by field.
        rewrite C1. ring.
      * replace ((- (a1 / 3) + 2 * k * c) * (- (a1 / 3) + 2 * k * c2) + (- (a1 / 3) + 2 * k * c) * (- (a1 / 3) + 2 * k * c3) + (- (a1 / 3) + 2 * k * c2) * (- (a1 / 3) + 2 * k * c3))%R
          with (a1 * a1 / 3 - a1 / 3 * 4 * k * (c + c2 + c3) + 4 * (k * k) * (c * c2 + c * c3 + c2 * c3))%R by field.
        rewrite C1, C2, K. unfold Q. field.
      * replace (- ((- (a1 / 3) + 2 * k * c) * (- (a1 / 3) + 2 * k * c2) * (- (a1 / 3) + 2 * k * c3)))%R
          with (a1 * a1 * a1 / 27 - 2 * k * (a1 * a1 / 9) * (c + c2 + c3) + a1 / 3 * 4 * (k * k) * (c * c2 + c * c3 + c2 * c3) - 2 * (k * k * k * (4 * (c * c2 * c3))))%R by field.
        rewrite C1, C2, T, K. unfold Q, R'. field.
    + destruct (Rlt_b_spec 0 (Q * Q * Q + R' * R')); [lra|]. cbn [negb]. split; auto. intros _. repeat split.
  - assert (D' : (0 <= Q * Q * Q + R' * R')%R) by lra.
    destruct (cubic_ST Q R' D') as (s & t & e & E0 & E2 & PE & ST & Hs & Ht & Hst). cbv zeta in ST. rewrite PE, ST. clear ST.
    assert (CA := cardano (RtoC Q) (RtoC (R' + e)) (RtoC (R' - e)) (RtoC s) (RtoC t) (Ci * proot 2 (RtoC 3)) (RtoC (a1 / 3))
               ltac:(rewrite <- !RtoC_mult, Hs; reflexivity) ltac:(rewrite <- !RtoC_mult, Ht; reflexivity) ltac:(rewrite <- RtoC_mult, Hst, RtoC_opp; reflexivity) w2).
    cbv zeta in CA.
    split; [|split].
    + intros z. specialize (CA z).
      transitivity ((z - (RtoC s + RtoC t - RtoC (a1 / 3))) * (z - (- (RtoC s + RtoC t) / RtoC 2 - RtoC (a1 / 3) + (RtoC s - RtoC t) * (Ci * proot 2 (RtoC 3)) / RtoC 2)) * (z - (- (RtoC s + RtoC t) / RtoC 2 - RtoC (a1 / 3) - (RtoC s - RtoC t) * (Ci * proot 2 (RtoC 3)) / RtoC 2))).
      * rewrite CA. clear CA. rewrite <- RtoC_plus.
        replace (R' + e + (R' - e))%R with (2 * R')%R by ring.
        assert (EQ : (3 * Q = a2 - 3 * (a1 / 3) * (a1 / 3))%R) by (unfold Q; field).
        assert (ER : (2 * R' = - a3 + a2 * (a1 / 3) - 2 * ((a1 / 3) * (a1 / 3) * (a1 / 3)))%R) by (unfold R'; field).
        rewrite <- RtoC_mult, EQ, ER. set (b := (a1 / 3)%R). replace a1 with (3 * b)%R by (unfold b; field). clearbody b.
        repeat (rewrite RtoC_plus || rewrite RtoC_minus || rewrite RtoC_mult || rewrite RtoC_opp). cnum. ring.
      * f_equal; [f_equal|]; f_equal; cnum; field; cside.
    + unfold is_real. cbn [RtoC Cplus Cminus Copp fst snd]. ring.
    + assert (P3 : proot 2 (RtoC 3) = RtoC (rroot 2 3)) by (apply proot_real; lra). rewrite P3.
      pose proof (rroot_2_sq 3 ltac:(lra)) as R3. set (k3 := rroot 2 3) in *. clearbody k3.
      assert (I2 : forall u v : R, snd (- (RtoC s + RtoC t) / RtoC 2 - RtoC (a1 / 3) + (RtoC u - RtoC v) * Ci * RtoC k3 / RtoC 2) = ((u - v) * k3 / 2)%R).
      { intros u v. unfold Cdiv, Cinv. cbn [RtoC Cplus Cminus Copp Cmult Ci fst snd]. field. }
      assert (I3 : snd (- (RtoC s + RtoC t) / RtoC 2 - RtoC (a1 / 3) - (RtoC s - RtoC t) * Ci * RtoC k3 / RtoC 2) = (- ((s - t) * k3 / 2))%R).
      { unfold Cdiv, Cinv. cbn [RtoC Cplus Cminus Copp Cmult Ci fst snd]. field. }
      unfold is_real at 2 3. rewrite I2, I3.
      destruct (Rlt_b_spec 0 (Q * Q * Q + R' * R')) as [L|L]; cbn [negb].
      * split; [discriminate|]. intros (_ & H & _). exfalso.
        assert (H0 : ((s - t) * k3 = 0)%R) by lra. apply Rmult_integral in H0. destruct H0 as [H0|H0]; [|subst k3; lra].
        assert (s = t) by lra. subst t. nra.
      * split; [intros _|reflexivity]. assert (e = 0)%R by nra. subst e.
        assert (s = t) by (apply cube_inj; lra). subst t. split; [|split; lra].
        unfold is_real. cbn [RtoC Cplus Cminus Copp fst snd]. ring.
Qed.

(** * Degree 4 *)
Lemma vieta_of_roots_3 b1 b2 b3 y1 y2 y3 : roots_of_3 b1 b2 b3 y1 y2 y3 ->
  y1 + y2 + y3 = - b1 /\ y1 * y2 + y1 * y3 + y2 * y3 = b2 /\ y1 * y2 * y3 = - b3.
Proof.
  intros H.
  pose proof (H (RtoC 0)) as H0. pose proof (H (RtoC 1)) as H1. pose proof (H (- RtoC 1)) as H2.
  assert (E3 : y1 * y2 * y3 = - b3).
  { transitivity (- (RtoC 0 * RtoC 0 * RtoC 0 + b1 * (RtoC 0 * RtoC 0) + b2 * RtoC 0 + b3)); [rewrite H0|]; ring. }
  assert (S1 : RtoC 2 * (b1 + b3) = - RtoC 2 * (y1 + y2 + y3) - RtoC 2 * (y1 * y2 * y3)).
  { transitivity ((RtoC 1 * RtoC 1 * RtoC 1 + b1 * (RtoC 1 * RtoC 1) + b2 * RtoC 1 + b3) +
      (- RtoC 1 * - RtoC 1 * - RtoC 1 + b1 * (- RtoC 1 * - RtoC 1) + b2 * - RtoC 1 + b3)); [cnum; ring|]. rewrite H1, H2. cnum. ring. }
  assert (S2 : RtoC 2 * (RtoC 1 + b2) = RtoC 2 * (RtoC 1 + (y1 * y2 + y1 * y3 + y2 * y3))).
  { transitivity ((RtoC 1 * RtoC 1 * RtoC 1 + b1 * (RtoC 1 * RtoC 1) + b2 * RtoC 1 + b3) -
      (- RtoC 1 * - RtoC 1 * - RtoC 1 + b1 * (- RtoC 1 * - RtoC 1) + b2 * - RtoC 1 + b3)); [cnum; ring|]. rewrite H1, H2. cnum. ring. }
  assert (CAN : forall u v : C, RtoC 2 * u = RtoC 2 * v -> u = v) by (intros u v; apply (mul_cancel_l (K:=CF) (RtoC 2) u v), C2_neq).
  split; [|split; auto].
  - rewrite E3 in S1. apply CAN. transitivity (- (RtoC 2 * (b1 + b3)) + RtoC 2 * b3); [rewrite S1|]; ring.
  - apply CAN. transitivity (RtoC 2 * (RtoC 1 + (y1 * y2 + y1 * y3 + y2 * y3)) - RtoC 2); [ring|]. rewrite <- S2. ring.
Qed.
Lemma vieta_of_roots_2 b c y1 y2 : roots_of_2 b c y1 y2 -> y1 + y2 = - b /\ y1 * y2 = c.
Proof.
  intros H. pose proof (H (RtoC 0)) as H0. pose proof (H (RtoC 1)) as H1.
  assert (E : y1 * y2 = c) by (transitivity (RtoC 0 * RtoC 0 + b * RtoC 0 + c); [rewrite H0|]; ring).
  split; auto. transitivity (RtoC 1 + c - (RtoC 1 * RtoC 1 + b * RtoC 1 + c)); [rewrite H1, <- E|]; ring.
Qed.
Lemma ferrari (p q r s f g h : C) :
  - RtoC 2 * (p * p + q * q + r * r) = f -> - RtoC 8 * (p * q * r) = g ->
  (p * p + q * q + r * r) * (p * p + q * q + r * r) - RtoC 4 * (p * p * (q * q) + p * p * (r * r) + q * q * (r * r)) = h ->
  forall z, let Z := z + s in
  (z - (p + q + r - s)) * (z - (p - q - r - s)) * (z - (- p + q - r - s)) * (z - (- p - q + r - s)) = Z * Z * Z * Z + f * (Z * Z) + g * Z + h.
Proof. intros <- <- <- z Z. subst Z. cnum. ring. Qed.

Definition depressed (a1 a2 a3 a4 : R) : R * R * R :=
  ((a2 - 3 * a1 * a1 * 1 / 8)%R, (a3 + a1 * a1 * a1 / 8 - a1 * a2 / 2)%R,
   (a4 - 3 * a1 * a1 * a1 * a1 / 256 + a1 * a1 * a2 / 16 - a1 * a3 / 4)%R).
Lemma shift_4 a1 a2 a3 a4 z : let '(f, g, h) := depressed a1 a2 a3 a4 in let Z := z + RtoC (a1 / 4) in
  Z * Z * Z * Z + RtoC f * (Z * Z) + RtoC g * Z + RtoC h = z * z * z * z + RtoC a1 * (z * z * z) + RtoC a2 * (z * z) + RtoC a3 * z + RtoC a4.
Proof.
  unfold depressed. cbv zeta. set (b := (a1 / 4)%R). replace a1 with (4 * b)%R by (unfold b; field). clearbody b.
  replace (a2 - 3 * (4 * b) * (4 * b) * 1 / 8)%R with (a2 - 6 * (b * b))%R by field.
  replace (a3 + 4 * b * (4 * b) * (4 * b) / 8 - 4 * b * a2 / 2)%R with (a3 + 8 * (b * b * b) - 2 * b * a2)%R by field.
  replace (a4 - 3 * (4 * b) * (4 * b) * (4 * b) * (4 * b) / 256 + 4 * b * (4 * b) * a2 / 16 - 4 * b * a3 / 4)%R with (a4 - 3 * (b * b * b * b) + b * b * a2 - b * a3)%R by field.
  repeat (rewrite RtoC_plus || rewrite RtoC_minus || rewrite RtoC_mult).
  replace (RtoC 6) with (RtoC 2 * RtoC 3) by (rewrite <- RtoC_mult; f_equal; lra). cnum. ring.
Qed.

Lemma Ceqb_false x y : Ceqb x y = false -> x <> y.
Proof. intros H E. destruct (Ceqb_spec x y); congruence. Qed.

Lemma quartic_assembly a1 a2 a3 a4 (y1 y2 y3 : C) : let '(f, g, h) := depressed a1 a2 a3 a4 in
  y1 <> RtoC 0 -> y2 <> RtoC 0 ->
  y1 + y2 + y3 = RtoC (- (f / 2)) -> y1 * y2 + y1 * y3 + y2 * y3 = RtoC ((f * f - 4 * h) / 16) -> y1 * y2 * y3 = RtoC (g * g / 64) ->
  let p := proot 2 y1 in let q := proot 2 y2 in let r := - RtoC g / (RtoC 8 * p * q) in let s := RtoC a1 / RtoC 4 in
  roots_of_4 (RtoC a1) (RtoC a2) (RtoC a3) (RtoC a4) (p + q + r - s) (p - q - r - s) (- p + q - r - s) (- p - q + r - s).
Proof.
  pose proof (shift_4 a1 a2 a3 a4) as SH. destruct (depressed a1 a2 a3 a4) as [[f g] h] eqn:ED.
  intros N1 N2 E1 E2 E3 p q r s z.
  assert (P : p * p = y1) by apply proot_2. assert (Q : q * q = y2) by apply proot_2.
  assert (Np : p <> RtoC 0) by (intros X; apply N1; rewrite <- P, X; ring).
  assert (Nq : q <> RtoC 0) by (intros X; apply N2; rewrite <- Q, X; ring).
  assert (N8 : RtoC 8 <> RtoC 0) by (apply RtoC_neq; lra).
  assert (RR : r * r = y3).
  { unfold r. transitivity (RtoC g * RtoC g / (RtoC 64 * (p * p * (q * q)))).
    - replace (RtoC 64) with (RtoC 8 * RtoC 8) by (rewrite <- RtoC_mult; f_equal; lra). field. auto.
    - assert (G : RtoC g * RtoC g = RtoC 64 * (y1 * y2 * y3)).
      { rewrite E3, <- !RtoC_mult. f_equal. field. }
      rewrite G, P, Q. field. repeat split; auto. apply RtoC_neq. lra. }
  assert (PQR : - RtoC 8 * (p * q * r) = RtoC g) by (unfold r; field; auto).
  assert (S' : s = RtoC (a1 / 4)) by (unfold s; rewrite RtoC_div by lra; reflexivity).
  clearbody p q r s. subst s.
  rewrite (ferrari p q r (RtoC (a1 / 4)) (RtoC f) (RtoC g) (RtoC h)).
  - symmetry. apply SH.
  - rewrite P, Q, RR, E1, <- RtoC_opp, <- RtoC_mult. f_equal. field.
  - exact PQR.
  - rewrite P, Q, RR, E1, E2, <- !RtoC_mult, <- RtoC_minus. f_equal. field.
Qed.

Lemma solve_equation_4_ok a1 a2 a3 a4 x1 x2 x3 x4 : solve_equation_4 a1 a2 a3 a4 = Some (x1, x2, x3, x4) ->
  roots_of_4 (RtoC a1) (RtoC a2) (RtoC a3) (RtoC a4) x1 x2 x3 x4.
Proof.
  unfold solve_equation_4. pose proof (quartic_assembly a1 a2 a3 a4) as QA. unfold depressed in QA.
  set (f := (a2 - 3 * a1 * a1 * 1 / 8)%R) in *. set (g := (a3 + a1 * a1 * a1 / 8 - a1 * a2 / 2)%R) in *.
  set (h := (a4 - 3 * a1 * a1 * a1 * a1 / 256 + a1 * a1 * a2 / 16 - a1 * a3 / 4)%R) in *. cbv zeta in *.
  destruct (Req_EM_T g 0) as [G|G].
  - pose proof (solve_equation_2_ok (RtoC (f / 2)) (RtoC ((f * f - 4 * h) / 16))) as H.
    destruct (solve_equation_2 _ _) as [y1 y2]. apply vieta_of_roots_2 in H. destruct H as (V1 & V2).
    destruct (Ceqb y1 (RtoC 0)) eqn:Z1; [discriminate|]. destruct (Ceqb y2 (RtoC 0)) eqn:Z2; [discriminate|]. cbn [orb].
    apply Ceqb_false in Z1, Z2. intros [= <- <- <- <-]. apply (QA y1 y2 (RtoC 0)); auto.
    + rewrite RtoC_opp, <- V1. ring.
    + rewrite <- V2. ring.
    + rewrite G. replace (0 * 0 / 64)%R with 0%R by field. ring.
  - pose proof (solve_equation_3_ok (f / 2) ((f * f - 4 * h) / 16) (- g * g / 64)) as H.
    destruct (solve_equation_3 _ _ _) as [[[y1 y2] y3] ar]. destruct H as (H & _). apply vieta_of_roots_3 in H. destruct H as (V1 & V2 & V3).
    rewrite <- RtoC_opp in V1, V3. intros [= <- <- <- <-].
    assert (V3' : y1 * y2 * y3 = RtoC (g * g / 64)) by (rewrite V3; f_equal; field).
    assert (NZ : RtoC (g * g / 64) <> RtoC 0) by (apply RtoC_neq; intros X; apply G; nra).
    apply (QA y1 y2 y3); auto; intros ->; apply NZ; rewrite <- V3'; ring.
Qed.
(** The assertion holds for polynomials without multiple roots. *)
Lemma solve_equation_4_defined a1 a2 a3 a4 : simple_roots_4 (RtoC a1) (RtoC a2) (RtoC a3) (RtoC a4) ->
  solve_equation_4 a1 a2 a3 a4 <> None.
Proof.
  intros SR. unfold solve_equation_4. pose proof (shift_4 a1 a2 a3 a4) as SH. unfold depressed in SH.
  set (f := (a2 - 3 * a1 * a1 * 1 / 8)%R) in *. set (g := (a3 + a1 * a1 * a1 / 8 - a1 * a2 / 2)%R) in *.
  set (h := (a4 - 3 * a1 * a1 * a1 * a1 / 256 + a1 * a1 * a2 / 16 - a1 * a3 / 4)%R) in *. cbv zeta in *.
  destruct (Req_EM_T g 0) as [G|G]; [|destruct (solve_equation_3 _ _ _) as [[[? ?] ?] ?]; discriminate].
  pose proof (solve_equation_2_ok (RtoC (f / 2)) (RtoC ((f * f - 4 * h) / 16))) as H.
  destruct (solve_equation_2 _ _) as [y1 y2]. apply vieta_of_roots_2 in H. destruct H as (V1 & V2).
  destruct (Ceqb y1 (RtoC 0) || Ceqb y2 (RtoC 0)) eqn:Z; [|discriminate]. exfalso.
  assert (Y : y1 * y2 = RtoC 0).
  { apply orb_true_iff in Z. destruct Z as [Z|Z]; [destruct (Ceqb_spec y1 (RtoC 0)) as [->|]|destruct (Ceqb_spec y2 (RtoC 0)) as [->|]]; try discriminate; ring. }
  rewrite V2 in Y. apply RtoC_inj in Y. assert (F : (f * f = 4 * h)%R) by lra.
  (* the depressed polynomial is (Z^2 + f/2)^2 *)
  set (w := proot 2 (RtoC (- f / 2))). assert (W : w * w = RtoC (- f / 2)) by apply proot_2. clearbody w.
  assert (DER : forall z, let Z := z + RtoC (a1 / 4) in RtoC 4 * (Z * Z * Z) + RtoC 2 * RtoC f * Z + RtoC g =
     RtoC 4 * (z * z * z) + RtoC 3 * RtoC a1 * (z * z) + RtoC 2 * RtoC a2 * z + RtoC a3).
  { intros z. cbv zeta. unfold f, g. set (b := (a1 / 4)%R). replace a1 with (4 * b)%R by (unfold b; field). clearbody b.
    replace (a2 - 3 * (4 * b) * (4 * b) * 1 / 8)%R with (a2 - 6 * (b * b))%R by field.
    replace (a3 + 4 * b * (4 * b) * (4 * b) / 8 - 4 * b * a2 / 2)%R with (a3 + 8 * (b * b * b) - 2 * b * a2)%R by field.
    repeat (rewrite RtoC_plus || rewrite RtoC_minus || rewrite RtoC_mult).
    replace (RtoC 6) with (RtoC 2 * RtoC 3) by (rewrite <- RtoC_mult; f_equal; lra). cnum. ring. }
  apply (SR (w - RtoC (a1 / 4))).
  - rewrite <- SH. replace (w - RtoC (a1 / 4) + RtoC (a1 / 4)) with w by ring. rewrite G.
    transitivity ((w * w) * (w * w) + RtoC f * (w * w) + RtoC 0 * w + RtoC h); [ring|]. rewrite W.
    rewrite <- !RtoC_mult, <- !RtoC_plus. replace (RtoC 0 * w) with (RtoC 0) by ring. rewrite <- !RtoC_plus. f_equal. nra.
  - rewrite <- DER. replace (w - RtoC (a1 / 4) + RtoC (a1 / 4)) with w by ring. rewrite G.
    transitivity (RtoC 4 * (w * w) * w + RtoC 2 * RtoC f * w); [ring|]. rewrite W, <- !RtoC_mult, <- Cmult_plus_distr_r, <- RtoC_plus.
    replace (4 * (- f / 2) + 2 * f)%R with 0%R by field. ring.
Qed.
