(** Powers with an exponent that is one point. *)
From Coq Require Import ZArith QArith Qcanon Qround Reals Qreals Lra Lia Psatz Bool.
From Verif Require Import Bool3Model Ast IvlModel IvlSpec IvlProofs IvlProofs2 IvlProofs3 IvlProofs4 IvlProofs5 IvlProofs6 IpwModel IpwSpec IpwProofs IpwProofs2 MonoProofs RatRootProofs.
Local Open Scope R_scope.
Set Bullet Behavior "Strict Subproofs".

(** * Natural powers of real numbers *)
Lemma pow_strict a b n : 0 <= a -> a < b -> a ^ S n < b ^ S n.
Proof.
  intros A B. induction n as [|n IH]; [cbn; lra|]. change (a ^ S (S n)) with (a * a ^ S n). change (b ^ S (S n)) with (b * b ^ S n).
  assert (0 <= a ^ S n) by (apply pow_le; lra). assert (0 < b ^ S n) by (apply pow_lt; lra). nra.
Qed.
Lemma pow_odd a k : a ^ S (2 * k) = a * (a * a) ^ k.
Proof. change (a ^ S (2 * k)) with (a * a ^ (2 * k)). rewrite pow_mult. f_equal. f_equal. ring. Qed.
Lemma pow_odd_opp a k : (- a) ^ S (2 * k) = - a ^ S (2 * k).
Proof. rewrite !pow_odd. replace (- a * - a) with (a * a) by ring. ring. Qed.
Lemma pow_even_abs a k : Rabs a ^ (2 * k) = a ^ (2 * k).
Proof. rewrite !pow_mult. f_equal. cbn. unfold Rabs. destruct (Rcase_abs a); ring. Qed.
Lemma pow_odd_strict a b k : a < b -> a ^ S (2 * k) < b ^ S (2 * k).
Proof.
  intros H. destruct (Rle_or_lt 0 a) as [A|A]; [apply pow_strict; assumption|].
  assert (K : a ^ S (2 * k) = - (- a) ^ S (2 * k)) by (rewrite <- pow_odd_opp, Ropp_involutive; reflexivity).
  destruct (Rle_or_lt b 0) as [B|B].
  - assert (K' : b ^ S (2 * k) = - (- b) ^ S (2 * k)) by (rewrite <- pow_odd_opp, Ropp_involutive; reflexivity). rewrite K, K'. apply Ropp_lt_contravar. apply pow_strict; lra.
  - rewrite K. pose proof (pow_lt (- a) (S (2 * k)) ltac:(lra)). pose proof (pow_lt b (S (2 * k)) B). lra.
Qed.
Lemma rpow_nat a n : rpow a (IZR (Z.of_nat n)) = Some (a ^ n).
Proof.
  unfold rpow. rewrite as_int_IZR, <- pow_powerRZ. destruct (Req_EM_T a 0); [|reflexivity]. destruct (Z.ltb_spec (Z.of_nat n) 0); [lia|reflexivity].
Qed.
(** The exponents: 0, or a positive number for which the powers of the bases considered grow. *)
Definition growing (n : nat) (a b : R) : Prop := (0 <= a /\ 0 <= b) \/ exists k, n = S (2 * k).
Lemma growing_strict n a b : growing n a b -> n <> O -> a < b -> a ^ n < b ^ n.
Proof. intros [[A B]|[k ->]] N H; [destruct n; [congruence|]; apply pow_strict; lra|apply pow_odd_strict, H]. Qed.
Lemma growing_le n a b : growing n a b -> a <= b -> a ^ n <= b ^ n.
Proof. intros G [H| ->]; [|lra]. destruct n as [|n]; [cbn; lra|]. left. apply growing_strict; auto. Qed.

Section Arith.
Variables (A : arith) (rep : Qc -> Prop) (pw : power).
Hypothesis Hd : directed A rep.
Hypothesis Hf : directed_functions A rep.
Hypothesis Hp : directed_power pw rep.

Lemma half_not c z : rv c = IZR z -> qeq c (/ zq 2)%Qc = false.
Proof.
  intros E. apply qeq_false. rewrite half_rv, E. intros K. assert (H : IZR (2 * z) = IZR 1) by (rewrite mult_IZR; lra). apply eq_IZR in H. lia.
Qed.
Lemma natural_side dir b x s' c n a : bv x = Fin s' c -> is_closed x = true -> rv c = IZR (Z.of_nat n) -> side dir b a -> (n = O -> a <> 0) ->
  (0 <= a \/ exists k, n = S (2 * k)) -> (dir = false -> (exists k, n = S (2 * k)) \/ exists s q, bv b = Fin s q /\ 0 <= rv q) -> side dir (b_pow A pw dir b x) (a ^ n).
Proof.
  intros E C EN HS Z POS DL. assert (ZX : vzero (bv x) = true <-> n = O).
  { rewrite E. rewrite vzero_fin, EN. split; [intros K; apply eq_IZR in K; lia|intros ->; reflexivity]. }
  destruct (bv b) as [|i|s q] eqn:EB.
  - exfalso. unfold side, above, below in HS. rewrite EB in HS. destruct dir; exact HS.
  - apply (side_inf dir b i a EB) in HS. subst i.
    assert (VB : vzero (bv b) = false /\ veq (bv b) (num 1) = false) by (rewrite EB; split; reflexivity). destruct VB as [V1 V2].
    destruct n as [|n].
    + assert (V : vzero (bv x) = true) by (apply ZX; reflexivity). assert (O : b_pow A pw dir b x = pow_one b x) by (unfold b_pow, u_pow, l_pow; rewrite V, V1; destruct dir; reflexivity).
      rewrite O. apply (side_fin dir (pow_one b x) false (zq 1) _ eq_refl). unfold pow_one, is_closed at 1. cbn [bf pow]. rewrite C, rv_zq. split; [destruct dir; cbn; lra|discriminate].
    + assert (V : vzero (bv x) = false) by (destruct (vzero (bv x)); [exfalso; destruct ZX as [K _]; specialize (K eq_refl); discriminate|reflexivity]).
      assert (O : b_pow A pw dir b x = pow_core A pw dir b x) by (unfold b_pow, u_pow, l_pow; rewrite V, V1, V2; destruct dir; reflexivity). rewrite O.
      apply core_inf. destruct dir; cbn [negb] in *.
      * apply (core_base_inf A rep pw Hf Hp true b x s' c EB E). rewrite EN. apply IZR_lt. lia.
      * destruct (DL eq_refl) as [[k K]|(s & q & K & _)]; [|congruence].
        unfold core_val, b_eqv, one_half. rewrite E, EB. cbn [veq num]. rewrite (half_not c _ EN). cbn [andb].
        assert (Q2 : qeq c (zq 2) = false) by (apply qeq_false; rewrite EN, rv_zq; intros J; apply eq_IZR in J; lia). rewrite Q2. cbn [andb].
        assert (c = zq (Z.of_nat (S n))) as -> by (apply rv_inj; rewrite rv_zq; exact EN). apply (pw_odd pw rep Hp); [|lia].
        rewrite K. replace (Z.of_nat (S (2 * k))) with (1 + 2 * Z.of_nat k)%Z by lia. rewrite Z.even_add_mul_2. reflexivity.
  - apply (side_fin dir b s q a EB) in HS. destruct HS as [S1 S2].
    assert (G : dir = false \/ 0 <= a \/ (exists k, n = S (2 * k)) -> growing n a (rv q) /\ growing n (rv q) a).
    { intros _. destruct POS as [P|K]; [|split; right; exact K]. destruct dir.
      - cbn in S1. split; left; lra.
      - destruct (DL eq_refl) as [K|(s0 & q0 & K & Q)]; [split; right; exact K|]. assert (q0 = q) as -> by congruence. split; left; lra. }
    destruct (G ltac:(destruct POS as [P|P]; auto)) as [G1 G2]. clear G.
    destruct (Req_dec (rv q) 0) as [Q0|Q0].
    + assert (VB : vzero (bv b) = true) by (rewrite EB; apply vzero_fin; exact Q0).
      assert (K : side dir b (a ^ n) \/ (dir = true /\ n = O)).
      { destruct (Nat.eq_dec n 0) as [-> |N].
        - destruct dir; [right; split; reflexivity|left]. apply (side_fin false b s q _ EB). cbn [sle slt pow]. rewrite Q0. split; [lra|intros _; lra].
        - left. apply (side_fin dir b s q _ EB). rewrite Q0 in *. assert (P0 : 0 ^ n = 0) by (apply pow_i; lia). rewrite <- P0.
          destruct dir; cbn [sle slt] in *; (split; [apply growing_le; assumption|intros L; apply growing_strict; auto]). }
      destruct K as [K|[-> ->]].
      * unfold b_pow, u_pow, l_pow. rewrite VB. destruct dir; cbn [orb]; [|exact K]. destruct (vzero (bv x)) eqn:V; [|exact K].
        assert (N : n = O) by (apply ZX; reflexivity). apply (side_fin true (pow_one b x) false (zq 1) _ eq_refl). unfold pow_one, is_closed at 1. cbn [bf sle]. rewrite C, rv_zq, N. split; [cbn; lra|discriminate].
      * assert (V : vzero (bv x) = true) by (apply ZX; reflexivity). unfold b_pow, u_pow. rewrite V.
        apply (side_fin true (pow_one b x) false (zq 1) _ eq_refl). unfold pow_one, is_closed at 1. cbn [bf sle pow]. rewrite C, rv_zq. split; [lra|discriminate].
    + apply (bpow_side A rep pw Hd Hf Hp dir b x s q s' c (rv q ^ n)); auto.
      * rewrite EN. apply rpow_nat.
      * destruct dir; cbn [sle] in *; apply growing_le; assumption.
      * intros K1 [K2|K2]; [|congruence]. assert (N : n <> O) by (intros ->; apply K2; rewrite EN; reflexivity). destruct dir; cbn [slt] in *; apply growing_strict; auto.
      * intros K. congruence.
Qed.

(** The lower boundary of an absolute value. *)
Lemma abs_lower x a : formed rep x -> hull x a -> exists s q, bv (lo (i_abs x)) = Fin s q /\ 0 <= rv q.
Proof.
  intros W [H1 H2]. unfold i_abs. destruct (ltv x (num 0)) eqn:L.
  - destruct (ltv_1 x a 0 H2 L) as (s & q & E & Q & _). unfold i_neg, b_negate, b_set. cbn [lo bv]. rewrite E. cbn [vneg]. exists (negb s), (- q)%Qc. split; [reflexivity|]. rewrite rv_opp. lra.
  - destruct (gtv x (num 0)) eqn:G.
    + assert (WT : lower_bound (fun _ => True) (lo x)) by (intros t p Et; split; [apply (proj1 W t p Et)|exact Logic.I]). destruct (gtv_1 x a 0 WT H1 G) as (s & q & E & Q & _). exists s, q. auto.
    + exists false, (zq 0). cbn. split; [reflexivity|]. rewrite rv_zq. lra.
Qed.
Lemma one_point_value y b : is_one_point y = true -> hull y b -> exists s q, bv (lo y) = Fin s q /\ rv q = b /\ (typed y -> is_closed (lo y) = true).
Proof.
  intros O [H1 H2]. unfold is_one_point, b_eq in O. apply Bool.andb_true_iff in O. destruct O as [O1 O2]. apply Z.eqb_eq in O2.
  destruct (above_inv _ _ H1) as [E|(s & q & E & X & Y)]; destruct (below_inv _ _ H2) as [E'|(s' & q' & E' & X' & Y')]; rewrite E, E' in O1; cbn in O1; try discriminate.
  apply qeq_iff in O1. exists s, q. split; [exact E|]. split; [lra|]. intros _. destruct (is_closed (lo y)) eqn:C; [reflexivity|]. specialize (Y eq_refl). lra.
Qed.
Lemma gtv_zero_false y b : formed rep y -> hull y b -> b <= 0 -> gtv y (num 0) = false.
Proof.
  intros W [H _] B. destruct (gtv y (num 0)) eqn:G; [exfalso|reflexivity]. assert (WT : lower_bound (fun _ => True) (lo y)) by (intros t p Et; split; [apply (proj1 W t p Et)|exact Logic.I]).
  destruct (gtv_1 y b 0 WT H G) as (s & q & E & Q1 & Q2). destruct (above_inv _ _ H) as [E'|(s' & q' & E' & X & Y)]; [congruence|]. assert (q' = q) as -> by congruence.
  destruct (is_closed (lo y)); [specialize (Q2 eq_refl); lra|specialize (Y eq_refl); lra].
Qed.

(** An exponent that is one natural number. *)
Lemma floor_zq z : Qfloor (this (zq z)) = z.
Proof. unfold zq. cbn [this Q2Qc]. rewrite (Qfloor_comp _ _ (Qred_correct _)). first [apply Qfloor_Z|cbn; now rewrite Z.div_1_r]. Qed.
Lemma pow_natural x y a b r : formed rep x -> formed rep y -> typed y -> is_one_point y = true -> fl y = INTEGER -> member a x -> member b y -> 0 <= b -> rpow a b = Some r -> member r (i_pow A pw x y).
Proof.
  intros W W' T OP FY M M' B0 E. unfold i_pow. rewrite OP, FY. destruct (i_has A x (num 0) && negb (gtv y (num 0))) eqn:Z; [apply full_in|]. cbn [is_int].
  destruct (one_point_value y b OP (proj1 M')) as (s & q & EY & QB & CY). specialize (CY T). destruct (proj2 M' FY) as [z Bz]. subst b.
  assert (Z0 : (0 <= z)%Z) by (apply le_IZR; lra). remember (Z.to_nat z) as n eqn:En. assert (z = Z.of_nat n) as -> by lia. clear En.
  rewrite Bz, rpow_nat in E. assert (r = a ^ n) as -> by congruence. clear E.
  assert (NZ : n = 0%nat -> a <> 0).
  { intros ->. rewrite (gtv_zero_false y (rv q) W' (proj1 M')) in Z by (rewrite Bz; cbn; lra). cbn in Z. rewrite Bool.andb_true_r in Z. apply (no_zero A rep Hd x a W M Z). }
  assert (EV : v_even (bv (lo y)) = Nat.even n).
  { rewrite EY. cbn [v_even]. assert (q = zq (Z.of_nat n)) as -> by (apply rv_inj; rewrite rv_zq; exact Bz). rewrite floor_zq. destruct (Nat.even n) eqn:N.
    - apply Nat.even_spec in N. destruct N as [k ->]. apply Z.even_spec. exists (Z.of_nat k). lia.
    - rewrite <- Nat.negb_odd in N. apply Bool.negb_false_iff, Nat.odd_spec in N. destruct N as [k ->]. replace (Z.of_nat (2 * k + 1)) with (1 + 2 * Z.of_nat k)%Z by lia. rewrite Z.even_add_mul_2. reflexivity. }
  rewrite EV. destruct (Nat.even n) eqn:N.
  - apply Nat.even_spec in N. destruct N as [k Ek]. pose proof (abs_in A rep Hd x a W M) as MA. destruct (abs_lower x a W (proj1 M)) as (s0 & q0 & E0 & Q0).
    assert (P : a ^ n = Rabs a ^ n) by (rewrite Ek; symmetry; apply pow_even_abs). rewrite P. destruct MA as [[H1 H2] I]. set (x' := i_abs x) in *. clearbody x'.
    pose proof (Rabs_pos a) as PA. assert (NA : n = 0%nat -> Rabs a <> 0) by (intros K; apply Rabs_no_R0, NZ, K).
    split; [split|]; cbn [lo up fl].
    + apply (natural_side false (lo x') (lo y) s q n (Rabs a)); auto. intros _. right. exists s0, q0. auto.
    + apply (natural_side true (up x') (lo y) s q n (Rabs a)); auto. intros; discriminate.
    + intros F. apply integer_pow, I, F.
  - rewrite <- Nat.negb_odd in N. apply Bool.negb_false_iff, Nat.odd_spec in N. destruct N as [k Ek]. assert (K : exists k, n = S (2 * k)) by (exists k; lia).
    destruct M as [[H1 H2] I]. split; [split|]; cbn [lo up fl].
    + apply (natural_side false (lo x) (lo y) s q n a); auto.
    + apply (natural_side true (up x) (lo y) s q n a); auto.
    + intros F. apply integer_pow, I, F.
Qed.

(** An exponent that is one number, and not an integer. *)
Lemma rpow_frac a c r : ~ integer c -> rpow a c = Some r -> pow_of a c r.
Proof.
  intros N E. unfold rpow in E. destruct (as_int c) as [z|] eqn:K; [exfalso; apply N; exists z; apply as_int_spec, K|].
  destruct (Rlt_dec 0 a) as [H|H]; [left; split; [exact H|]; unfold Rpower in E; congruence|].
  destruct (Req_EM_T a 0) as [Z|Z]; [|discriminate]. destruct (Rlt_dec 0 c) as [C|C]; [|discriminate]. right. repeat split; auto; congruence.
Qed.
(** A boundary on the other side of a positive number, after a growing power. *)
Lemma up_power dir b x s' c a r : bv x = Fin s' c -> is_closed x = true -> 0 < rv c -> side dir b a -> (dir = false -> exists s q, bv b = Fin s q /\ 0 <= rv q) -> pow_of a (rv c) r -> side dir (b_pow A pw dir b x) r.
Proof.
  intros E C P HS DL PO. pose proof (pow_of_nonneg a _ r PO) as R0. assert (A0 : 0 <= a) by (destruct PO as [[K _]|(K & _)]; lra).
  assert (VX : vzero (bv x) = false) by (rewrite E; apply vzero_nfin; lra).
  destruct (bv b) as [|i|s q] eqn:EB.
  - exfalso. unfold side, above, below in HS. rewrite EB in HS. destruct dir; exact HS.
  - destruct dir; [|destruct (DL eq_refl) as (s0 & q0 & K & _); congruence]. apply (side_inf true b i a EB) in HS. subst i. cbn [negb] in EB.
    unfold b_pow, u_pow. rewrite VX, EB. cbn [vzero veq num orb]. change (side true (pow_core A pw true b x) r). apply core_inf. apply (core_base_inf A rep pw Hf Hp true b x s' c EB E P).
  - apply (side_fin dir b s q a EB) in HS. destruct HS as [S1 S2]. assert (Q0 : 0 <= rv q) by (destruct dir; cbn in S1; [lra|destruct (DL eq_refl) as (s0 & q0 & K & Q); assert (q0 = q) as -> by congruence; exact Q]).
    destruct Q0 as [Q0|Q0].
    + assert (EX : exp (rv c * ln (rv q)) = exp (rv c * ln (rv q))) by reflexivity.
      assert (LE : forall u v, 0 < u -> u <= v -> exp (rv c * ln u) <= exp (rv c * ln v)). { intros u v U V. apply exp_mono. assert (ln u <= ln v) by (apply ln_mono; lra). nra. }
      assert (LT : forall u v, 0 < u -> u < v -> exp (rv c * ln u) < exp (rv c * ln v)). { intros u v U V. apply exp_increasing. assert (ln u < ln v) by (apply ln_increasing; lra). nra. }
      apply (bpow_side A rep pw Hd Hf Hp dir b x s q s' c (exp (rv c * ln (rv q)))); auto; [lra|rewrite rpow_positive by exact Q0; reflexivity| | |congruence].
      * destruct PO as [[PA ->]|(Z & _ & ->)]; destruct dir; cbn [sle] in *; [apply LE; assumption|apply LE; assumption|left; apply exp_pos|lra].
      * intros K _. specialize (S2 K). destruct PO as [[PA ->]|(Z & _ & ->)]; destruct dir; cbn [slt] in *; [apply LT; assumption|apply LT; assumption|apply exp_pos|lra].
    + assert (VB : vzero (bv b) = true) by (rewrite EB; apply vzero_fin; lra).
      assert (O : b_pow A pw dir b x = b) by (unfold b_pow, u_pow, l_pow; rewrite VB, VX; destruct dir; reflexivity). rewrite O.
      apply (side_fin dir b s q r EB). rewrite <- Q0 in *. destruct PO as [[PA ->]|(Z & _ & ->)]; destruct dir; cbn [sle slt] in *; (split; [first [lra|left; apply exp_pos]|intros K; specialize (S2 K); first [lra|apply exp_pos]]).
Qed.
(** The same after a decreasing power: [b] is on the other side. *)
Lemma down_power dir b x s' c a r : bv x = Fin s' c -> is_closed x = true -> rv c < 0 -> side (negb dir) b a -> (forall s q, bv b = Fin s q -> 0 < rv q) -> (dir = true -> exists s q, bv b = Fin s q) -> pow_of a (rv c) r -> side dir (b_pow A pw dir (b_set dir b) x) r.
Proof.
  intros E C P HS DL DF PO. destruct PO as [[PA ->]|(_ & K & _)]; [|lra].
  assert (VX : vzero (bv x) = false) by (rewrite E; apply vzero_nfin; lra).
  destruct (bv b) as [|i|s q] eqn:EB.
  - exfalso. unfold side, above, below in HS. rewrite EB in HS. destruct dir; exact HS.
  - destruct dir; [destruct (DF eq_refl) as (s0 & q0 & K); congruence|]. cbn [negb] in HS. apply (side_inf true b i a EB) in HS. subst i. cbn [negb] in EB.
    assert (V : vzero (bv (b_set false b)) = false) by (unfold b_set; cbn [bv]; rewrite EB; reflexivity).
    unfold b_pow, l_pow. rewrite V, VX. unfold b_set at 1. cbn [bv]. rewrite EB. cbn [veq num]. change (side false (pow_core A pw false (b_set false b) x) (exp (rv c * ln a))).
    apply core_zero; [|cbn; apply exp_pos]. destruct (pw_inf_neg pw rep Hp false s' c P) as [w K]. exists w. unfold core_val, b_eqv, one_half. cbn [b_set bv]. rewrite E, EB. cbn [veq num].
    assert (N1 : qeq c (/ zq 2)%Qc = false) by (apply qeq_false; rewrite half_rv; lra). assert (N2 : qeq c (zq 2) = false) by (apply qeq_false; rewrite rv_zq; lra). rewrite N1, N2. exact K.
  - specialize (DL s q eq_refl). apply (side_fin (negb dir) b s q a EB) in HS. destruct HS as [S1 S2].
    assert (CB : is_closed (b_set dir b) = is_closed b) by (unfold b_set, is_closed; cbn [bf]; destruct (bf b), dir; reflexivity).
    assert (LE : forall u v, 0 < u -> u <= v -> exp (rv c * ln v) <= exp (rv c * ln u)). { intros u v U V. apply exp_mono. assert (ln u <= ln v) by (apply ln_mono; lra). nra. }
    assert (LT : forall u v, 0 < u -> u < v -> exp (rv c * ln v) < exp (rv c * ln u)). { intros u v U V. apply exp_increasing. assert (ln u < ln v) by (apply ln_increasing; lra). nra. }
    apply (bpow_side A rep pw Hd Hf Hp dir (b_set dir b) x s q s' c (exp (rv c * ln (rv q)))); auto; [lra|rewrite rpow_positive by exact DL; reflexivity| | |congruence].
    + destruct dir; cbn [sle negb] in *; apply LE; lra.
    + intros K _. rewrite CB in K. specialize (S2 K). destruct dir; cbn [slt negb] in *; apply LT; lra.
Qed.
Lemma lower_cut x a : hull x a -> 0 <= a -> let l := if lv_lt (lo x) (num 0) then b_value (num 0) else lo x in above l a /\ exists s q, bv l = Fin s q /\ 0 <= rv q.
Proof.
  intros [H1 H2] P. cbv zeta. unfold lv_lt. destruct (above_inv _ _ H1) as [E|(s & q & E & X & Y)].
  - rewrite E. cbn [vlt num]. split; [|exists false, (zq 0); cbn; rewrite rv_zq; split; [reflexivity|lra]]. unfold above, b_value. cbn. rewrite rv_zq. exact P.
  - destruct (vlt (bv (lo x)) (num 0)) eqn:L.
    + split; [|exists false, (zq 0); cbn; rewrite rv_zq; split; [reflexivity|lra]]. unfold above, b_value. cbn. rewrite rv_zq. exact P.
    + split; [exact H1|]. exists s, q. split; [exact E|]. rewrite E in L. cbn in L. apply qlt_false in L. rewrite rv_zq in L. exact L.
Qed.
Lemma pow_fraction x y a b r : formed rep x -> formed rep y -> typed y -> is_one_point y = true -> fl y = REAL -> fl x = REAL -> member a x -> member b y -> ~ integer b ->
  (b < 0 -> forall s q, bv (lo x) = Fin s q -> rv q <> 0) -> rpow a b = Some r -> member r (i_pow A pw x y).
Proof.
  intros W W' T OP FY FX M M' NI NZ E. apply rpow_frac in E; [|exact NI]. unfold i_pow. rewrite OP, FY. destruct (i_has A x (num 0) && negb (gtv y (num 0))) eqn:Z; [apply full_in|]. cbn [is_int].
  destruct (one_point_value y b OP (proj1 M')) as (s & c & EY & QB & CY). specialize (CY T). subst b.
  assert (A0 : 0 <= a) by (destruct E as [[K _]|(K & _)]; lra). destruct (lower_cut x a (proj1 M) A0) as [L1 L2].
  set (l := if lv_lt (lo x) (num 0) then b_value (num 0) else lo x) in *.
  destruct (lv_lt (lo x) (num 0) && is_empty (mkI l (up x) (fl x))) eqn:EM.
  - exfalso. apply Bool.andb_true_iff in EM. destruct EM as [EN EM]. unfold is_empty, b_gt in EM. cbn [lo up] in EM. unfold l in EM. rewrite EN in EM. pose proof M as [[_ H2] _].
    destruct (below_inv _ _ H2) as [EU|(s1 & q1 & EU & X & Y)]; rewrite EU in EM; cbn in EM; [discriminate|]. apply Bool.orb_true_iff in EM. destruct EM as [EM|EM].
    + apply qlt_iff in EM. rewrite rv_zq in EM. lra.
    + apply Bool.andb_true_iff in EM. destruct EM as [E1 E2]. apply qeq_iff in E1. rewrite rv_zq in E1. assert (C : is_closed (up x) = false) by (unfold is_closed; destruct (bf (up x)); cbn in E2; congruence). specialize (Y C). lra.
  - pose proof M as [[H1 H2] _]. destruct (lv_lt (lo y) (num 0)) eqn:NG.
    + assert (C0 : rv c < 0) by (unfold lv_lt in NG; rewrite EY in NG; cbn in NG; apply qlt_iff in NG; rewrite rv_zq in NG; exact NG).
      destruct E as [[PA PE]|(_ & K & _)]; [|lra]. specialize (NZ C0).
      assert (PL : exists s q, bv l = Fin s q /\ 0 < rv q).
      { destruct L2 as (s1 & q1 & E1 & Q1). exists s1, q1. split; [exact E1|]. unfold l in E1. destruct (lv_lt (lo x) (num 0)) eqn:EN; [exfalso|specialize (NZ _ _ E1); lra].
        assert (G : gtv y (num 0) = false) by (apply (gtv_zero_false y (rv c) W' (proj1 M')); lra). rewrite G in Z. cbn in Z. rewrite Bool.andb_true_r in Z.
        assert (MZ : member 0 x); [|exact (no_zero A rep Hd x 0 W MZ Z eq_refl)].
        split; [|rewrite FX; discriminate]. split; [|apply below_down with a; [exact H2|lra]]. unfold lv_lt in EN.
        destruct (above_inv _ _ H1) as [EL|(s2 & q2 & EL & X & Y)]; [unfold above; rewrite EL; reflexivity|]. rewrite EL in EN. cbn in EN. apply qlt_iff in EN. rewrite rv_zq in EN.
        apply (side_fin false (lo x) s2 q2 0 EL). cbn [sle slt]. split; [lra|intros _; exact EN]. }
      destruct PL as (s1 & q1 & E1 & Q1). assert (PO : pow_of a (rv c) r) by (left; auto).
      split; [split|]; cbn [lo up fl]; [| |rewrite FX; discriminate].
      * apply (down_power false (up x) (lo y) s c a r); auto; [|discriminate]. intros s2 q2 E2. destruct (below_inv _ _ H2) as [K|(s3 & q3 & K & X & _)]; [congruence|]. assert (q3 = q2) as -> by congruence. lra.
      * apply (down_power true l (lo y) s c a r); auto; [|exists s1, q1; exact E1]. intros s2 q2 E2. assert (q2 = q1) as -> by congruence. exact Q1.
    + assert (C0 : 0 < rv c). { unfold lv_lt in NG. rewrite EY in NG. cbn in NG. apply qlt_false in NG. rewrite rv_zq in NG. destruct NG as [NG|NG]; [exact NG|exfalso; apply NI; exists 0%Z; congruence]. }
      split; [split|]; cbn [lo up fl]; [| |rewrite FX; discriminate].
      * apply (up_power false l (lo y) s c a r); auto.
      * apply (up_power true (up x) (lo y) s c a r); auto. discriminate.
Qed.
End Arith.
