(** Pure power equations: the roots reported. *)
From Coq Require Import ZArith QArith Qcanon Qfield List Bool Lia Reals Lra Field Arith Permutation.
From Coquelicot Require Import Complex.
From Verif Require Import IntUtilModel Ast ExprModel ExprProofs1 Fld FPoly PolyMore CplxF RootModel RootSpec RootProofs RootProofs2 FindRootModel FindRootSpec NestedProofs RatRootProofs SearchProofs FindRootProofs FindRootProofs2 FindRootProofs3 FindRootProofs4 FindRootProofs5.
Import ListNotations.
Local Open Scope list_scope.
Local Open Scope nat_scope.

Lemma fpow_RtoC t n : fpow (K:=CF) (RtoC t) n = RtoC (t ^ n).
Proof. induction n as [|n IH]; [reflexivity|]. cbn [fpow pow]. rewrite IH, RtoC_mult. reflexivity. Qed.
Lemma nodup_square_free (p : list Qc) : square_free p -> forall (new : list Qc) (h : list C),
  (forall x, pval p x = (peval (K:=CF) h x * lin_prod (K:=CF) (map qC new) x)%C) -> NoDup new.
Proof.
  intros HS. induction new as [|r new IH]; intros h E; [constructor|]. constructor.
  - intros I. apply in_split in I. destruct I as (u & v & ->).
    apply (HS (qC r) (pmul (K:=CF) h (lin_poly (map qC (u ++ v))))). intros x. rewrite E, (peval_pmul (K:=CF)), peval_lin_poly, !lp_cprod, !cprod_map.
    rewrite cprod_cons, !cprod_app, cprod_cons. cring.
  - apply (IH (pmul (K:=CF) h (lin_poly [qC r]))). intros x. rewrite E, (peval_pmul (K:=CF)), peval_lin_poly.
    cbn [map lin_prod fold_right]. fold (lin_prod (K:=CF) (map qC new) x). cring.
Qed.
Lemma signs_rational m l pos neg : signs (map (rational_root m) l) pos neg = Some (pos || existsb (q_lt 0) l, neg || existsb (fun q => negb (q_lt 0 q)) l).
Proof.
  revert pos neg. induction l as [|q l IH]; intros pos neg; cbn [map signs existsb]; [rewrite !orb_false_r; reflexivity|].
  cbn [positive_root rational_root value]. destruct (q_lt 0 q) eqn:E; cbn [negb]; rewrite IH; f_equal; f_equal; rewrite ?orb_true_l, ?orb_false_l, ?orb_true_r; auto.
Qed.
Lemma cprod_filter {A} (f : A -> C) (g : A -> bool) l : cprod f l = (cprod f (filter g l) * cprod f (filter (fun a => negb (g a)) l))%C.
Proof.
  induction l as [|a l IH]; [unfold cprod; cbn; ring|]. cbn [filter]. rewrite cprod_cons, IH. destruct (g a); cbn [negb]; rewrite cprod_cons; ring.
Qed.
Lemma filter_none {A} (g : A -> bool) l : (forall a, In a l -> g a = false) -> filter g l = [].
Proof. induction l as [|a l IH]; intros H; [reflexivity|]. cbn [filter]. rewrite H by (left; auto). apply IH. intros; apply H; right; auto. Qed.
Lemma filter_all {A} (g : A -> bool) l : (forall a, In a l -> g a = true) -> filter g l = l.
Proof. induction l as [|a l IH]; intros H; [reflexivity|]. cbn [filter]. rewrite H by (left; auto). f_equal. apply IH. intros; apply H; right; auto. Qed.
Lemma rroot_1 n : 0 < n -> rroot n 1 = 1%R.
Proof.
  intros H. pose proof (rroot_nonneg n 1). pose proof (rroot_pow n 1 H ltac:(lra)) as E. apply pow_R1 in E. destruct E as [E|]; [|lia].
  rewrite Rabs_pos_eq in E; auto.
Qed.
Lemma rv_m1 : rv (- (1))%Qc = (-1)%R.
Proof. rewrite rv_opp, rv_1. reflexivity. Qed.
Lemma unity_half h : 0 < h -> unity (2 * h) h = RtoC (-1).
Proof.
  intros H. unfold unity. assert (E : (2 * PI * INR h / INR (2 * h) = PI)%R).
  { rewrite mult_INR. cbn [INR]. assert (INR h <> 0%R) by (apply not_0_INR; lia). field. auto. }
  rewrite E, cos_PI, sin_PI. reflexivity.
Qed.

Section Pure.
Variable poly_factor : poly -> list poly.
Variables (a k : Z) (n : nat).
Hypothesis Ha : a <> 0%Z.
Hypothesis Hb : (Z.abs a < 121)%Z.
Hypothesis Hn : 2 <= n.
Let p : list Qc := pure_power_poly a k n.

Lemma pure_search fuel : k <> 0%Z -> (Z.abs k < 121)%Z -> exists q' new,
  proper q' /\ length p = length q' + length new /\ NoDup new /\ (forall x, pval p x = (pval q' x * lin_prod (K:=CF) (map qC new) x)%C) /\
  (forall r, peval (K:=QcF) p r = 0%Qc <-> In r new) /\
  find_roots poly_factor (S fuel) p [] 1 =
    if degree q' =? 0 then Some (true, map (rational_root 1) new)
    else match solve_monomial_irrational (zq k) n (zq a) (map (rational_root 1) new) with Some roots => Some (true, roots) | None => None end.
Proof.
  intros Hk Hkb. pose proof (pure_proper a k n Ha) as PP. pose proof (pure_int a k n) as PI. pose proof (pure_square_free a k n Ha Hk Hn) as PS.
  pose proof (pure_length a k n Hn) as PL. pose proof (pure_lcoeff a k n Ha) as LC. pose proof (pure_degree a k n Ha Hn) as PD. pose proof (pure_monomial a k n Ha Hn) as PM.
  fold p in PP, PI, PS, PL, LC, PD, PM. assert (P0 : coeff p 0 = zq k) by reflexivity.
  assert (K0 : zq k <> 0%Qc) by (apply zq_neq0; auto).
  destruct (start_eq poly_factor (find_roots poly_factor fuel) p [] 1 PP PI PS) as (q & z & [HST HZ] & HC).
  assert (z = [] /\ q = p) as [-> ->].
  { destruct HZ as [[-> ->]|[-> HZ]]; auto. exfalso. apply K0. rewrite <- P0, HZ. reflexivity. }
  destruct HC as [(D0 & Hz & _)|(_ & E)]; [discriminate|]. cbn [find_roots]. rewrite E. cbn [map app]. unfold after_start. rewrite PD, LC, P0, PM.
  destruct (Nat.eqb_spec n 1) as [|_]; [lia|].
  pose proof (small_zq a Hb) as S1. pose proof (small_zq k Hkb) as S2. rewrite S1, S2. cbn [andb].
  destruct (divisors_defined (zq a) S1 (ex_intro _ a eq_refl) (zq_neq0 a Ha)) as [ls DL]. destruct (divisors_defined (zq k) S2 (ex_intro _ k eq_refl) K0) as [ts DT].
  rewrite DL, DT. match goal with |- context [search 1 ls ts ?s] => destruct (search 1 ls ts s) as [q' rs'] eqn:SE end.
  assert (L2 : 2 <= length p) by (tq; lia).
  rewrite <- LC in S1, DL. rewrite <- P0 in S2, DT.
  destruct (no_rational_root_after p 1 ls ts [] q' rs' PP PI PS L2 ltac:(rewrite P0; exact K0) S1 S2 DL DT SE) as (new & E1 & P1 & L1 & I1 & SF & V1 & NR & RT).
  cbn [app] in E1. subst rs'. exists q', new. split; auto. split; auto.
  split; [apply (nodup_square_free p PS new (map qC q')); exact V1|]. split; auto. split; auto.
  destruct (Nat.eqb_spec (degree q') 0) as [Z|Z]; auto. rewrite map_length.
  replace (degree q' + length new) with n; auto. pose proof (proper_degree q' P1). pose proof (proper_length q' P1). tq. lia.
Qed.
Lemma pure_root r : peval (K:=QcF) p r = 0%Qc <-> (IZR a * rv r ^ n + IZR k = 0)%R.
Proof.
  assert (E : pval p (qC r) = RtoC (IZR a * rv r ^ n + IZR k)).
  { unfold p. rewrite (pure_val a k n Ha Hn). unfold qC. rewrite fpow_RtoC, !rv_zq. rewrite <- RtoC_mult, <- RtoC_plus. reflexivity. }
  split; intros H.
  - apply pval_of_peval in H. rewrite E in H. injection H. auto.
  - apply peval_of_pval. rewrite E, H. reflexivity.
Qed.
Lemma const_quotient (q' : poly) new : proper q' -> degree q' = 0 -> (forall x, pval p x = (pval q' x * lin_prod (K:=CF) (map qC new) x)%C) ->
  exists c : C, c <> RtoC 0 /\ forall x, pval p x = (c * linear_factors (map (rational_root 1) new) x)%C.
Proof.
  intros P1 D0 V. pose proof (proper_list q' 0 P1 D0) as L. destruct q' as [|c [|? ?]]; cbn [length] in L; try lia.
  exists (qC c). split; [apply qC_neq0, P1|]. intros x. rewrite V, lf_rational, pval_cons, pval_nil. cring.
Qed.

Theorem pure_power_ok fuel : (a * a = k * k)%Z -> ~ (Nat.odd n = true /\ a = k) -> exists roots,
  find_roots poly_factor (S fuel) p [] 1 = Some (true, roots) /\ (forall r, In r roots -> multiplicity r = 1) /\
  exists c : C, c <> RtoC 0 /\ forall x, (RtoC (IZR a) * fpow (K:=CF) x n + RtoC (IZR k))%C = (c * linear_factors roots x)%C.
Proof.
  intros HS HO. assert (AK : k = a \/ k = (- a)%Z) by nia. assert (Hk : k <> 0%Z) by (destruct AK; lia).
  assert (A0 : RtoC (IZR a) <> RtoC 0) by (apply RtoC_neq, not_0_IZR; auto).
  destruct (pure_search fuel) as (q' & new & P1 & L1 & ND & V & RT & E); [auto|lia|].
  assert (PV : forall x, pval p x = (RtoC (IZR a) * fpow (K:=CF) x n + RtoC (IZR k))%C).
  { intros x. unfold p. rewrite (pure_val a k n Ha Hn). unfold qC. rewrite !rv_zq. reflexivity. }
  assert (MR : forall r, In r (map (rational_root 1) new) -> multiplicity r = 1).
  { intros r Hr. apply in_map_iff in Hr. destruct Hr as (c & <- & _). reflexivity. }
  destruct (Nat.eqb_spec (degree q') 0) as [Z|Z].
  { exists (map (rational_root 1) new). split; auto. split; auto. destruct (const_quotient q' new P1 Z V) as (c & Hc & VC). exists c. split; auto. intros x. rewrite <- PV. apply VC. }
  assert (RR : forall r, In r new <-> (IZR a * rv r ^ n + IZR k = 0)%R) by (intros r; rewrite <- RT; apply pure_root).
  assert (IA : IZR a <> 0%R) by (apply not_0_IZR; auto).
  unfold solve_monomial_irrational in E. rewrite map_length, signs_rational in E. cbn [orb] in E.
  assert (FIN : forall kept, find_roots poly_factor (S fuel) p [] 1 = Some (true, map (rational_root 1) new ++ map (fun j => MkRoot (Irrational (proot n (qC (- zq a / zq k)) * unity n j)%C) 1) kept) ->
    (forall x, (fpow (K:=CF) x n - qC (- zq a / zq k))%C = (lin_prod (K:=CF) (map qC new) x * cprod (fun j => x - proot n (qC (- zq a / zq k)) * unity n j)%C kept)%C) ->
    exists roots, find_roots poly_factor (S fuel) p [] 1 = Some (true, roots) /\ (forall r, In r roots -> multiplicity r = 1) /\
    exists c : C, c <> RtoC 0 /\ forall x, (RtoC (IZR a) * fpow (K:=CF) x n + RtoC (IZR k))%C = (c * linear_factors roots x)%C).
  { intros kept F1 F2. eexists. split; [exact F1|]. split.
    - intros r Hr. apply in_app_or in Hr. destruct Hr as [Hr|Hr]; auto. apply in_map_iff in Hr. destruct Hr as (c & <- & _). reflexivity.
    - exists (RtoC (IZR a)). split; auto. intros x. rewrite lf_app, lf_rational, lf_cprod, cprod_map. unfold rvalue. cbn [value].
      specialize (F2 x). toC. rewrite <- F2.
      assert (KE : qC (- zq a / zq k) = RtoC (- IZR k / IZR a)).
      { unfold qC. rewrite rv_div, rv_opp, !rv_zq. f_equal. assert (IZR k <> 0%R) by (apply not_0_IZR; auto).
        destruct AK as [-> | ->]; rewrite ?opp_IZR; field; auto. }
      rewrite KE. assert (X : RtoC (IZR k) = (- (RtoC (IZR a) * RtoC (- IZR k / IZR a)))%C).
      { rewrite <- RtoC_mult, <- RtoC_opp. f_equal. field. auto. }
      rewrite X. generalize (RtoC (- IZR k / IZR a)). intros w. cring. }
  destruct AK as [AK|AK].
  - (* a x^n + a, n even: no rational root *)
    assert (EV : Nat.even n = true) by (rewrite <- Nat.negb_odd; destruct (Nat.odd n); auto; exfalso; apply HO; auto).
    assert (N0 : new = []).
    { destruct new as [|r l]; auto. exfalso. pose proof (proj1 (RR r) (or_introl eq_refl)) as X. rewrite AK in X.
      assert (Y : (rv r ^ n = -1)%R) by (apply (Rmult_eq_reg_l (IZR a)); auto; lra).
      apply Nat.even_spec in EV. destruct EV as [h ->]. rewrite pow_mult in Y. pose proof (pow_le (rv r ^ 2) h ltac:(apply pow2_ge_0)). lra. }
    subst new. cbn [length Nat.ltb Nat.leb existsb map app] in E.
    apply (FIN (seq 0 n)); cbn [map app].
    + rewrite E. rewrite filter_all by (intros; reflexivity). reflexivity.
    + intros x. rewrite <- (nth_roots n) by lia. rewrite lp_cprod, cprod_map. cbn [lin_prod fold_right]. cring.
  - (* a x^n - a *)
    assert (C1 : (- zq a / zq k)%Qc = 1%Qc).
    { rewrite AK, zq_opp. field. intros X. apply (zq_neq0 a Ha). replace (zq a) with (- - zq a)%Qc by ring. rewrite X. reflexivity. }
    rewrite C1 in *.
    assert (RN : forall r, In r new <-> (rv r ^ n = 1)%R).
    { intros r. rewrite RR, AK, opp_IZR. split; intros X; [apply (Rmult_eq_reg_l (IZR a)); auto; lra|rewrite X; lra]. }
    assert (PM : forall r, In r new -> r = 1%Qc \/ r = (- (1))%Qc).
    { intros r Hr. apply RN, pow_R1 in Hr. destruct Hr as [Hr|]; [|lia]. unfold Rabs in Hr. destruct (Rcase_abs (rv r)); [right|left]; apply rv_inj; rewrite ?rv_m1, ?rv_1; lra. }
    assert (I1 : In 1%Qc new) by (apply RN; rewrite rv_1; apply pow1).
    assert (IM : In (- (1))%Qc new <-> Nat.even n = true).
    { rewrite RN, rv_m1. rewrite Nat.even_spec. split.
      - intros X. destruct (Nat.Even_or_Odd n) as [|[h Hh]]; auto. rewrite Hh, Nat.add_1_r, pow_1_odd in X. lra.
      - intros [h ->]. apply pow_1_even. }
    assert (LT : length new <= 2).
    { assert (incl new [1%Qc; (- (1))%Qc]) by (intros r Hr; destruct (PM r Hr); [left|right; left]; auto). exact (NoDup_incl_length ND H). }
    destruct (Nat.ltb_spec 2 (length new)) as [|_]; [lia|].
    assert (POS : existsb (q_lt 0) new = true).
    { apply existsb_exists. exists 1%Qc. split; auto. }
    assert (NEG : existsb (fun q => negb (q_lt 0 q)) new = Nat.even n).
    { destruct (Nat.even n) eqn:EV.
      - apply existsb_exists. exists (- (1))%Qc. split; [apply IM; auto|reflexivity].
      - apply not_true_is_false. intros X. apply existsb_exists in X. destruct X as (r & Hr & X). destruct (PM r Hr) as [->| ->]; [discriminate X|].
        apply IM in Hr. congruence. }
    rewrite POS, NEG in E. cbn [andb] in E.
    set (g := fun j => negb ((j =? 0) || Nat.even n && (j * 2 =? n + n mod 2))) in *.
    apply (FIN (filter g (seq 0 n)) E). intros x.
    assert (P1' : proot n (qC 1) = RtoC 1) by (unfold qC; rewrite rv_1, proot_real, rroot_1 by (lra || lia); reflexivity).
    rewrite <- (nth_roots n) by lia. rewrite (lp_cprod (map _ (seq 0 n))), cprod_map. rewrite (cprod_filter _ g (seq 0 n)).
    rewrite Cmult_comm. f_equal. rewrite P1'.
    assert (U0 : unity n 0 = RtoC 1) by (destruct (unity_ok n ltac:(lia)) as (U1 & _); rewrite (U1 0); reflexivity).
    assert (SQ : seq 0 n = 0 :: seq 1 (n - 1)) by (replace n with (S (n - 1)) at 1 by lia; reflexivity).
    destruct (Nat.even n) eqn:EV.
    + pose proof EV as EV'. apply Nat.even_spec in EV'. destruct EV' as [h Hh].
      assert (M0 : n mod 2 = 0) by (rewrite Hh, Nat.mul_comm; apply Nat.mod_mul; lia).
      assert (SQ2 : seq 1 (n - 1) = seq 1 (h - 1) ++ h :: seq (h + 1) (h - 1)).
      { replace (n - 1) with ((h - 1) + (1 + (h - 1))) by lia. rewrite seq_app. f_equal. replace (1 + (h - 1)) with h by lia.
        replace h with (S (h - 1)) at 2 by lia. cbn [seq]. f_equal. f_equal. lia. }
      assert (FR : filter (fun j => negb (g j)) (seq 0 n) = [0; h]).
      { rewrite SQ, SQ2. cbn [filter]. unfold g at 1. cbn [Nat.eqb orb negb]. f_equal. rewrite filter_app. cbn [filter].
        assert (GH : negb (g h) = true) by (unfold g; rewrite negb_involutive, M0, Nat.add_0_r; cbn [andb]; apply orb_true_intro; right; apply Nat.eqb_eq; lia).
        rewrite GH. rewrite !filter_none; auto; intros j Hj; apply in_seq in Hj; unfold g; rewrite negb_involutive, M0, Nat.add_0_r; cbn [andb]; apply orb_false_intro; apply Nat.eqb_neq; lia. }
      rewrite FR. assert (UH : unity n h = RtoC (-1)) by (rewrite Hh; apply unity_half; lia).
      assert (PE : Permutation [1%Qc; (- (1))%Qc] new).
      { apply NoDup_Permutation_bis; [| |].
        - constructor; [intros [X|[]]; discriminate X|]. constructor; [intros []|constructor].
        - exact LT.
        - intros r [<-|[<-|[]]]; auto. apply IM; auto. }
      rewrite <- (lin_prod_perm _ _ x PE). cbn [map lin_prod fold_right cprod].
      unfold cprod. cbn [fold_right]. rewrite U0, UH. unfold qC. rewrite rv_1, rv_m1. cring.
    + assert (FR : filter (fun j => negb (g j)) (seq 0 n) = [0]).
      { rewrite SQ. cbn [filter]. unfold g at 1. cbn [Nat.eqb orb negb]. f_equal. apply filter_none. intros j Hj. apply in_seq in Hj.
        unfold g. rewrite negb_involutive. cbn [andb]. rewrite orb_false_r. apply Nat.eqb_neq. lia. }
      rewrite FR.
      assert (PE : Permutation [1%Qc] new).
      { apply NoDup_Permutation_bis; [constructor; [intros []|constructor]| |intros r [<-|[]]; auto].
        apply (NoDup_incl_length ND). intros r Hr. left. destruct (PM r Hr) as [->| ->]; auto. apply IM in Hr. congruence. }
      rewrite <- (lin_prod_perm _ _ x PE). cbn [map lin_prod fold_right].
      unfold cprod. cbn [fold_right]. rewrite U0. unfold qC. rewrite rv_1. cring.
Qed.
End Pure.
