(** Counterexamples and examples for find_roots. *)
From Coq Require Import ZArith QArith Qcanon Qfield List Bool Lia Reals Lra Field Arith Permutation.
From Coquelicot Require Import Complex.
From Verif Require Import IntUtilModel Ast ExprModel ExprProofs1 Fld FPoly PolyMore CplxF RootModel RootSpec RootProofs RootProofs2 FindRootModel FindRootSpec NestedProofs RatRootProofs SearchProofs FindRootProofs FindRootProofs2 FindRootProofs3 FindRootProofs4 FindRootProofs5 FindRootProofs6.
Import ListNotations.
Local Open Scope list_scope.
Local Open Scope nat_scope.

(** x^2 + 2: the arguments of solve_monomial_irrational are exchanged. *)
Lemma swapped poly_factor fuel : exists roots, find_roots poly_factor (S fuel) (pure_power_poly 1 2 2) [] 1 = Some (true, roots) /\ roots <> [] /\
  forall r, In r roots -> (rvalue r * rvalue r = RtoC (-1 / 2) /\ pval (pure_power_poly 1 2 2) (rvalue r) <> RtoC 0)%C.
Proof.
  destruct (pure_search poly_factor 1 2 2 ltac:(lia) ltac:(lia) ltac:(lia) fuel) as (q' & new & P1 & L1 & ND & V & RT & E); [lia|lia|].
  assert (N0 : new = []).
  { destruct new as [|r l]; auto. exfalso. pose proof (proj2 (RT r) (or_introl eq_refl)) as X. apply (pure_root 1 2 2) in X; try lia. cbn [pow] in X. nra. }
  subst new. cbn [map length] in *. rewrite (pure_length 1 2 2) in L1 by lia. pose proof (proper_degree q' P1) as D. tq.
  destruct (Nat.eqb_spec (degree q') 0) as [Z|_]; [lia|]. rewrite E. unfold solve_monomial_irrational. cbn [length signs Nat.ltb Nat.leb app].
  eexists. split; [reflexivity|]. split; [discriminate|]. intros r Hr. apply in_map_iff in Hr. destruct Hr as (j & <- & Hj). cbn [rvalue value].
  apply filter_In in Hj. destruct Hj as [Hj _]. apply in_seq in Hj.
  assert (Q : qC (- zq 1 / zq 2) = RtoC (-1 / 2)). { unfold qC. rewrite rv_div, rv_opp, !rv_zq. f_equal. }
  rewrite Q. set (w := proot 2 (RtoC (-1 / 2))). assert (W : (w * w)%C = RtoC (-1 / 2)) by apply proot_2.
  assert (U : (unity 2 j * unity 2 j)%C = RtoC 1).
  { destruct (unity_ok 2 ltac:(lia)) as (U1 & U2 & _). assert (J : j = 0 \/ j = 1) by lia. destruct J as [-> | ->].
    - rewrite (U1 0). cbn [fpow]. toC. ring.
    - cbn [fpow] in U2. toC. rewrite <- U2. ring. }
  assert (S2 : (w * unity 2 j * (w * unity 2 j))%C = RtoC (-1 / 2)).
  { transitivity ((w * w) * (unity 2 j * unity 2 j))%C; [ring|]. rewrite W, U. ring. }
  split; auto. rewrite (pure_val 1 2 2) by lia. cbn [fpow]. toC. unfold qC. rewrite !rv_zq.
  intros X. assert (Y : (RtoC 1 * (RtoC (-1 / 2)) + RtoC 2)%C = RtoC 0) by (rewrite <- X, <- S2; ring).
  rewrite <- RtoC_mult, <- RtoC_plus in Y. injection Y. lra.
Qed.

(** x^3 + 1: -1 is reported twice. *)
Lemma third_root : (proot 3 (RtoC (-1)) * unity 3 1)%C = RtoC (-1).
Proof.
  assert (M : Cmod (RtoC (-1)) = 1%R) by (rewrite Cmod_R; unfold Rabs; destruct (Rcase_abs (-1)); lra).
  assert (A : carg (RtoC (-1)) = PI).
  { unfold carg. rewrite M. cbn [fst snd RtoC]. destruct (Rle_dec 0 0); [|lra]. unfold Rdiv. rewrite Rinv_1, Rmult_1_r. replace (-1)%R with (- (1))%R by lra. rewrite acos_opp, acos_1. lra. }
  unfold proot. rewrite M, A, rroot_1 by lia. unfold unity. cbn [INR].
  replace (PI / (1 + 1 + 1))%R with (PI / 3)%R by field. replace (2 * PI * 1 / (1 + 1 + 1))%R with (PI - PI / 3)%R by field.
  unfold Cmult. cbn [fst snd]. unfold RtoC. rewrite !cos_minus, !sin_minus, cos_PI, sin_PI.
  pose proof (sin2_cos2 (PI / 3)) as S. unfold Rsqr in S. f_equal; nra.
Qed.
Lemma duplicated poly_factor fuel : exists roots, find_roots poly_factor (S fuel) (pure_power_poly 1 1 3) [] 1 = Some (true, roots) /\
  ~ exists c : C, forall x, (fpow (K:=CF) x 3 + RtoC 1)%C = (c * linear_factors roots x)%C.
Proof.
  destruct (pure_search poly_factor 1 1 3 ltac:(lia) ltac:(lia) ltac:(lia) fuel) as (q' & new & P1 & L1 & ND & V & RT & E); [lia|lia|].
  assert (RN : forall r, In r new <-> r = (- (1))%Qc).
  { intros r. rewrite <- RT, (pure_root 1 1 3) by lia. split.
    - intros X. apply rv_inj. rewrite rv_opp, rv_1. cbn [pow] in X.
      assert (Y : ((rv r + 1) * (rv r * rv r - rv r + 1) = 0)%R) by lra. apply Rmult_integral in Y. destruct Y as [Y|Y]; [lra|nra].
    - intros ->. rewrite rv_opp, rv_1. cbn [pow]. lra. }
  assert (N1 : new = [(- (1))%Qc]).
  { destruct new as [|r [|s l]].
    - exfalso. apply (proj2 (RN (- (1))%Qc) eq_refl).
    - f_equal. apply RN. left; auto.
    - exfalso. pose proof (proj1 (RN r) ltac:(left; auto)) as ->. pose proof (proj1 (RN s) ltac:(right; left; auto)) as ->. inversion ND as [|u v W]. apply W. left; auto. }
  subst new. cbn [map length] in *. rewrite (pure_length 1 1 3) in L1 by lia. pose proof (proper_degree q' P1) as D. tq.
  destruct (Nat.eqb_spec (degree q') 0) as [Z|_]; [lia|].
  assert (S : solve_monomial_irrational (zq 1) 3 (zq 1) [rational_root 1 (- (1))%Qc] =
    Some [rational_root 1 (- (1))%Qc; irr (proot 3 (qC (- zq 1 / zq 1)) * unity 3 0)%C; irr (proot 3 (qC (- zq 1 / zq 1)) * unity 3 1)%C]) by reflexivity.
  rewrite S in E. eexists. split; [exact E|]. intros [c H].
  assert (Q : qC (- zq 1 / zq 1) = RtoC (-1)). { unfold qC. rewrite rv_div, rv_opp, !rv_zq. f_equal. field. }
  rewrite Q in H. set (w := (proot 3 (RtoC (-1)) * unity 3 0)%C) in *.
  apply (pure_square_free 1 1 3 ltac:(lia) ltac:(lia) ltac:(lia) (RtoC (-1)) [(c * - w)%C; c]). intros x.
  rewrite (pure_val 1 1 3) by lia. unfold qC. rewrite rv_zq. specialize (H x).
  transitivity (fpow (K:=CF) x 3 + RtoC 1)%C; [cgen (fpow (K:=CF) x 3); ring|]. rewrite H, !lf_cons. unfold rvalue. cbn [value rational_root irr linear_factors fold_right peval].
  rewrite third_root. unfold qC. rewrite rv_opp, rv_1. toC. replace (- (1))%R with (-1)%R by lra. ring.
Qed.

(** (x^2 - x - 1)^2: the multiplicity is lost. *)
Definition golden : list Qc := [(- (1))%Qc; (- (1))%Qc; 1%Qc].
Lemma golden_val x : pval golden x = (x * x - x - RtoC 1)%C.
Proof. unfold golden. rewrite !pval_cons, pval_nil, !qC_opp, !qC_1. ring. Qed.
Lemma golden_found poly_factor fuel m : exists x1 x2, find_roots poly_factor (S fuel) golden [] m = Some (true, [irr x1; irr x2]) /\
  forall x, (x * x - x - RtoC 1)%C = ((x - x1) * (x - x2))%C.
Proof.
  pose proof (solve_equation_2_ok (qC (coeff golden 1 / lcoeff golden)) (qC (coeff golden 0 / lcoeff golden))) as H2.
  destruct (solve_equation_2 (qC (coeff golden 1 / lcoeff golden)) (qC (coeff golden 0 / lcoeff golden))) as [x1 x2] eqn:E2. exists x1, x2. split.
  - cbn [find_roots]. unfold find_roots_step.
    assert (A : negb (qzero (coeff golden 0)) = true) by reflexivity. rewrite A.
    assert (B : degree golden =? 1 = false) by reflexivity. rewrite B.
    assert (D : small (lcoeff golden) && small (coeff golden 0) = true) by reflexivity. rewrite D.
    assert (F : divisors (lcoeff golden) = Some [1%Z]) by reflexivity. assert (G : divisors (coeff golden 0) = Some [1%Z]) by reflexivity. rewrite F, G.
    assert (SE : search m [1%Z] [1%Z] (golden, []) = (golden, [])) by reflexivity.
    match goal with |- context [search m [1%Z] [1%Z] ?s] => change (search m [1%Z] [1%Z] s) with (search m [1%Z] [1%Z] (golden, [])) end. rewrite SE.
    assert (DQ : degree golden =? 0 = false) by reflexivity. rewrite DQ.
    assert (M : is_monomial golden = false) by reflexivity. rewrite M.
    unfold rest. assert (DD : (1 <=? degree golden) && (degree golden <=? 4) = true) by reflexivity. rewrite DD.
    unfold direct. assert (D2 : degree golden = 2) by reflexivity. rewrite D2. rewrite E2. reflexivity.
  - intros x. rewrite <- (H2 x).
    assert (C1 : qC (coeff golden 1 / lcoeff golden) = (- RtoC 1)%C).
    { replace (coeff golden 1 / lcoeff golden)%Qc with (- (1))%Qc by (apply Qc_is_canon; vm_compute; reflexivity). rewrite qC_opp, qC_1. reflexivity. }
    assert (C0 : qC (coeff golden 0 / lcoeff golden) = (- RtoC 1)%C).
    { replace (coeff golden 0 / lcoeff golden)%Qc with (- (1))%Qc by (apply Qc_is_canon; vm_compute; reflexivity). rewrite qC_opp, qC_1. reflexivity. }
    rewrite C1, C0. ring.
Qed.
Lemma golden_square poly_factor fuel : exists roots, find_roots_top poly_factor (S fuel) (SPow golden 2) = Some (true, roots, false) /\
  ~ exists k : C, forall x, fpow (K:=CF) (pval golden x) 2 = (k * root_product roots x)%C.
Proof.
  destruct (golden_found poly_factor fuel 2) as (x1 & x2 & E & H). exists [irr x1; irr x2]. unfold find_roots_top. rewrite E. split; [reflexivity|].
  intros [k HK]. assert (X : forall x, ((x * x - x - RtoC 1) * (x * x - x - RtoC 1))%C = (k * (x * x - x - RtoC 1))%C).
  { intros x. specialize (HK x). rewrite golden_val in HK. cbn [fpow] in HK. toC. rewrite H in HK |- *. unfold root_product in HK. cbn [fold_right irr rvalue value multiplicity fpow] in HK. toC.
    transitivity ((x - x1) * (x - x2) * ((x - x1) * (x - x2) * RtoC 1))%C; [ring|]. rewrite HK. ring. }
  pose proof (X (RtoC 0)) as A. pose proof (X (RtoC 2)) as B.
  assert (A' : k = (- RtoC 1)%C) by (transitivity (- (k * (RtoC 0 * RtoC 0 - RtoC 0 - RtoC 1)))%C; [ring|rewrite <- A; ring]).
  subst k. clear A X HK. repeat rewrite <- ?RtoC_mult, <- ?RtoC_minus, <- ?RtoC_opp in B. apply RtoC_inj in B. lra.
Qed.

(** * Hypotheses of the theorems on an example *)
Lemma golden_proper : proper golden. Proof. split; [discriminate|]. intros X. apply (f_equal (fun q => Qc_eqb q 0)) in X. vm_compute in X. discriminate. Qed.
Lemma golden_int : integer_coefficients golden.
Proof. unfold golden. repeat constructor; [exists (-1)%Z|exists (-1)%Z|exists 1%Z]; apply Qc_is_canon; vm_compute; reflexivity. Qed.
Lemma golden_square_free : square_free golden.
Proof.
  apply square_free_derivative. intros z. rewrite golden_val. unfold golden. cbn [map]. rewrite !(pd_cons (K:=CF)), (pd_nil (K:=CF)). cbn [peval]. rewrite !qC_opp, !qC_1. toC.
  intros A B. assert (Z : (RtoC 2 * z)%C = RtoC 1) by (transitivity ((- RtoC 1 + z * (RtoC 1 + z * RtoC 0) + z * (RtoC 1 + z * RtoC 0 + z * (RtoC 0 + z * RtoC 0))) + RtoC 1)%C; [rewrite RtoC_2; ring|rewrite B; ring]).
  assert (W : (RtoC 4 * (z * z - z - RtoC 1))%C = RtoC 0) by (rewrite A; ring).
  assert (W' : (RtoC 2 * z * (RtoC 2 * z) - RtoC 2 * (RtoC 2 * z) - RtoC 4)%C = RtoC 0) by (rewrite <- W, RtoC_4, RtoC_2; ring).
  rewrite Z in W'. repeat rewrite <- ?RtoC_mult, <- ?RtoC_minus, <- ?RtoC_opp in W'. apply RtoC_inj in W'. lra.
Qed.
Lemma quadratic_no_pure_power (p : list Qc) : length p = 3 -> proper p -> coeff p 1 <> 0%Qc -> no_pure_power_factor p.
Proof.
  intros L HP H1 g h E (a & k & n & Ha & Hk & Hn & G).
  assert (A0 : qC a <> RtoC 0) by (apply qC_neq0; auto). assert (K0 : qC k <> RtoC 0) by (apply qC_neq0; auto).
  set (w := proot n (- qC k / qC a)%C). assert (W : fpow (K:=CF) w n = (- qC k / qC a)%C) by (apply proot_pow; lia).
  assert (W0 : w <> RtoC 0).
  { intros X. rewrite X in W. pose proof (fpow_0l (K:=CF) n ltac:(lia)) as Y. change (@f0 CF) with (RtoC 0) in Y. rewrite Y in W.
    apply K0. transitivity (- (qC a * (- qC k / qC a)))%C; [field; auto|]. rewrite <- W. ring. }
  destruct (unity_ok n ltac:(lia)) as (U1 & U2 & U3).
  assert (RT : forall j, pval p (w * unity n j)%C = RtoC 0).
  { intros j. rewrite E, G. pose proof (fpow_mul_l (K:=CF) w (unity n j) n) as M. toC. rewrite M, W.
    assert (UJ : fpow (K:=CF) (unity n j) n = RtoC 1).
    { rewrite U1. rewrite <- (fpow_mul (K:=CF)), Nat.mul_comm, (fpow_mul (K:=CF)), U2. apply (fpow_1l (K:=CF)). }
    rewrite UJ. field. auto. }
  assert (UU : unity n 0 = RtoC 1) by (rewrite (U1 0); reflexivity).
  destruct (Nat.eq_dec n 2) as [->|N2].
  - pose proof (RT 0) as R0. pose proof (RT 1) as R1. rewrite UU in R0.
    assert (UM : unity 2 1 = (- RtoC 1)%C) by (pose proof (unity_half 1 ltac:(lia)) as X; cbn [Nat.mul Nat.add] in X; rewrite X, <- RtoC_opp; f_equal; lra).
    rewrite UM in R1. destruct p as [|c0 [|c1 [|c2 [|? ?]]]]; cbn [length] in L; try lia. rewrite !pval_cons, pval_nil in R0, R1.
    assert (X : (RtoC 2 * (qC c1 * w))%C = RtoC 0).
    { transitivity ((qC c0 + w * RtoC 1 * (qC c1 + w * RtoC 1 * (qC c2 + w * RtoC 1 * RtoC 0))) - (qC c0 + w * - RtoC 1 * (qC c1 + w * - RtoC 1 * (qC c2 + w * - RtoC 1 * RtoC 0))))%C; [rewrite RtoC_2; ring|rewrite R0, R1; ring]. }
    apply C_eq0 in X. destruct X as [X|X]; [revert X; apply C2_neq|]. apply C_eq0 in X. destruct X as [X|X]; [|contradiction]. apply H1. apply qC_inj. rewrite qC_0. exact X.
  - assert (N1 : unity n 1 <> RtoC 1) by (apply U3; lia). assert (N2' : unity n 2 <> RtoC 1) by (apply U3; lia).
    assert (Z1 : unity n 1 <> RtoC 0).
    { intros X. rewrite X in U2. pose proof (fpow_0l (K:=CF) n ltac:(lia)) as Y. change (@f0 CF) with (RtoC 0) in Y. rewrite Y in U2. injection U2. lra. }
    assert (N12 : unity n 1 <> unity n 2).
    { intros X. apply N1. rewrite (U1 2) in X. cbn [fpow] in X. toC. apply (mul_cancel_l (K:=CF) (unity n 1)); auto. toC. clear - X. change (@eq C (unity n 1 * unity n 1) (unity n 1 * RtoC 1))%C.
      revert X. generalize (unity n 1). intros u X. rewrite !Cmult_1_r in *. symmetry. exact X. }
    assert (ND : NoDup [(w * unity n 0)%C; (w * unity n 1)%C; (w * unity n 2)%C]).
    { assert (INJ : forall u v, (w * u)%C = (w * v)%C -> u = v) by (intros u v; apply (mul_cancel_l (K:=CF) w); auto).
      constructor; [|constructor; [|constructor; [|constructor]]].
      - intros [X|[X|[]]]; apply INJ in X; rewrite UU in X; auto.
      - intros [X|[]]; apply INJ in X; auto.
      - intros []. }
    assert (AZ : allzero (K:=CF) (map qC p)).
    { apply (too_many_roots (K:=CF) [(w * unity n 0)%C; (w * unity n 1)%C; (w * unity n 2)%C]); auto.
      - cbn [length]. pose proof (map_length qC p). change (car CF) with C. lia.
      - intros y [<-|[<-|[<-|[]]]]; apply RT. }
    apply (proper_map p HP). rewrite (last_nth (K:=CF)). apply (allzero_nth' (K:=CF)). exact AZ.
Qed.
Lemma golden_no_pure_power : no_pure_power_factor golden.
Proof. apply quadratic_no_pure_power; [reflexivity|apply golden_proper|]. intros X. apply (f_equal (fun q => Qc_eqb q 0)) in X. vm_compute in X. discriminate. Qed.
