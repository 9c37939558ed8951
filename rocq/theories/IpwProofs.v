(** Powers of intervals: boundaries. *)
From Coq Require Import ZArith QArith Qcanon Qround Reals Qreals Lra Lia Psatz Bool.
From Verif Require Import Bool3Model Ast IvlModel IvlSpec IvlProofs IvlProofs2 IvlProofs3 IvlProofs4 IvlProofs5 IvlProofs6 IpwModel IpwSpec MonoProofs RatRootProofs.
Local Open Scope R_scope.
Set Bullet Behavior "Strict Subproofs".

(** * Real powers *)
Lemma rpow_positive a b : 0 < a -> rpow a b = Some (Rpower a b).
Proof.
  intros H. unfold rpow. destruct (as_int b) as [z|] eqn:E.
  - apply as_int_spec in E. subst b. destruct (Req_EM_T a 0); [lra|]. rewrite powerRZ_Rpower by exact H. reflexivity.
  - destruct (Rlt_dec 0 a); [reflexivity|lra].
Qed.
Lemma rpow_half q v : rpow q (/ 2) = Some v -> q <> 0 -> 0 <= q /\ v = sqrt q.
Proof.
  intros H N. unfold rpow in H. destruct (as_int (/ 2)) as [z|] eqn:E.
  - exfalso. apply as_int_spec in E. assert (K : IZR (2 * z) = 1) by (rewrite mult_IZR; lra). apply eq_IZR in K. lia.
  - destruct (Rlt_dec 0 q) as [P|P]; [|destruct (Req_EM_T q 0); [lra|discriminate]]. split; [lra|]. assert (v = Rpower q (/ 2)) as -> by congruence. apply Rpower_sqrt, P.
Qed.
Lemma rpow_two q v : rpow q 2 = Some v -> v = q * q.
Proof.
  unfold rpow. rewrite (as_int_IZR 2). change (2 <? 0)%Z with false. cbv iota. change (powerRZ q 2) with (q ^ 2).
  destruct (Req_EM_T q 0); intros H; assert (v = q ^ 2) as -> by congruence; ring.
Qed.
Lemma exp_mono x y : x <= y -> exp x <= exp y.
Proof. intros [H|H]; [left; apply exp_increasing, H|rewrite H; lra]. Qed.
Lemma ln_mono x y : 0 < x -> x <= y -> ln x <= ln y.
Proof. intros P [H|H]; [left; apply ln_increasing; assumption|rewrite H; lra]. Qed.
Lemma ln_ge1 x : 1 <= x -> 0 <= ln x.
Proof. intros H. rewrite <- ln_1. apply ln_mono; lra. Qed.
Lemma ln_le1 x : 0 < x -> x <= 1 -> ln x <= 0.
Proof. intros P H. rewrite <- ln_1. apply ln_mono; lra. Qed.
Lemma ln_gt1 x : 1 < x -> 0 < ln x.
Proof. intros H. rewrite <- ln_1. apply ln_increasing; lra. Qed.
Lemma ln_lt1 x : 0 < x -> x < 1 -> ln x < 0.
Proof. intros P H. rewrite <- ln_1. apply ln_increasing; lra. Qed.

Section Arith.
Variables (A : arith) (rep : Qc -> Prop) (pw : power).
Hypothesis Hd : directed A rep.
Hypothesis Hf : directed_functions A rep.
Hypothesis Hp : directed_power pw rep.

Definition outside (dir : bool) (v : val) (strict : bool) (t : R) : Prop := if dir then over v strict t else under v strict t.
Definition core_val (dir : bool) (b x : bnd) : val * bool :=
  if b_eqv x one_half then fn A Sqrt dir (bv b) else if b_eqv x (num 2) then vmul A dir (bv b) (bv b) else pw dir (bv b) (bv x).
Lemma mul_outside dir s q : outside dir (fst (vmul A dir (Fin s q) (Fin s q))) (snd (vmul A dir (Fin s q) (Fin s q))) (rv q * rv q).
Proof.
  rewrite <- rv_mul. unfold vmul, with_zero. destruct dir; cbn [outside].
  - pose proof (rounds_up A rep Hd (q * q)%Qc) as U. destruct (rnd A true (q * q)%Qc) as [[|i|w u] m]; exact U.
  - pose proof (rounds_down A rep Hd (q * q)%Qc) as U. destruct (rnd A false (q * q)%Qc) as [[|i|w u] m]; exact U.
Qed.
Lemma half_rv : rv (/ zq 2) = / 2.
Proof. rewrite rv_inv, rv_zq. lra. Qed.
Lemma core_fin dir b x s q s' c v : bv b = Fin s q -> bv x = Fin s' c -> rv q <> 0 -> rpow (rv q) (rv c) = Some v ->
  outside dir (fst (core_val dir b x)) (snd (core_val dir b x)) v.
Proof.
  intros E E' N P. unfold core_val, b_eqv. rewrite E, E'. unfold one_half, num. cbn [veq].
  destruct (qeq c (/ zq 2)%Qc && is_closed x) eqn:H1.
  - apply Bool.andb_true_iff in H1. destruct H1 as [H1 _]. apply qeq_iff in H1. rewrite half_rv in H1. rewrite H1 in P. apply rpow_half in P; [|exact N]. destruct P as [P ->].
    destruct dir; [exact (fn_up A rep Hf Sqrt s q P)|exact (fn_down A rep Hf Sqrt s q P)].
  - destruct (qeq c (zq 2) && is_closed x) eqn:H2.
    + apply Bool.andb_true_iff in H2. destruct H2 as [H2 _]. apply qeq_iff in H2. rewrite rv_zq in H2. rewrite H2 in P. apply rpow_two in P. rewrite P. apply mul_outside.
    + destruct dir; [exact (pw_up pw rep Hp s q s' c v P)|exact (pw_down pw rep Hp s q s' c v P)].
Qed.
Lemma core_side dir b x t :
  (match fst (core_val dir b x) with NaN => False | Inf i => i = negb dir | Fin _ p => sle dir (rv p) t /\ (is_closed b = false \/ is_closed x = false \/ snd (core_val dir b x) = true -> slt dir (rv p) t) end) ->
  side dir (pow_core A pw dir b x) t.
Proof.
  intros H. change (pow_core A pw dir b x) with (if true then meet dir (compute dir b (core_val dir b x)) x else compute dir b (core_val dir b x)). apply compute_side.
  destruct (fst (core_val dir b x)); try exact H. destruct H as [H1 H2]. split; [exact H1|]. intros [K|[[_ K]|K]]; apply H2; tauto.
Qed.
(** [v] is beyond t, strictly when a boundary is open. *)
Lemma core_power dir b x s q s' c v t : bv b = Fin s q -> bv x = Fin s' c -> rv q <> 0 -> rpow (rv q) (rv c) = Some v ->
  sle dir v t -> (is_closed b = false \/ is_closed x = false -> slt dir v t) -> side dir (pow_core A pw dir b x) t.
Proof.
  intros E E' N P H1 H2. apply core_side. pose proof (core_fin dir b x s q s' c v E E' N P) as K.
  destruct dir; cbn [outside sle slt] in *; [unfold over in K|unfold under in K]; (destruct (fst (core_val _ b x)) as [|i|w u]; [exact K|exact K|]); destruct K as [K1 K2]; (split; [lra|]); intros [C|[C|C]]; try (specialize (H2 ltac:(tauto)); lra); specialize (K2 C); lra.
Qed.
Lemma core_zero dir b x t : (exists s, core_val dir b x = (Fin s 0%Qc, false)) -> slt dir 0 t -> side dir (pow_core A pw dir b x) t.
Proof. intros [s E] H. apply core_side. rewrite E. cbn [fst]. rewrite rv_0. split; [destruct dir; cbn in *; lra|intros _; exact H]. Qed.
Lemma core_inf dir b x t : core_val dir b x = (Inf (negb dir), false) -> side dir (pow_core A pw dir b x) t.
Proof. intros E. apply core_side. rewrite E. reflexivity. Qed.
Lemma core_exp_inf dir b x i : bv x = Inf i -> core_val dir b x = pw dir (bv b) (Inf i).
Proof. intros E. unfold core_val, b_eqv. rewrite E. reflexivity. Qed.
Lemma core_base_inf dir b x s c : bv b = Inf false -> bv x = Fin s c -> 0 < rv c -> core_val dir b x = (Inf false, false).
Proof.
  intros E E' P. unfold core_val. rewrite E, E'. destruct (b_eqv x one_half); [apply (plus_inf A rep Hf Sqrt dir); auto|]. destruct (b_eqv x (num 2)); [reflexivity|]. apply (pw_inf pw rep Hp), P.
Qed.

(** Both functions, for a base that is not zero. *)
Definition b_pow (dir : bool) (b x : bnd) : bnd := if dir then u_pow A pw b x else l_pow A pw b x.
Lemma bpow_side dir b x s q s' c v t : bv b = Fin s q -> bv x = Fin s' c -> rv q <> 0 -> rpow (rv q) (rv c) = Some v -> sle dir v t ->
  (is_closed b = false -> (rv c <> 0 \/ is_closed x = false) -> slt dir v t) -> (is_closed x = false -> rv q <> 1 -> rv c <> 0 -> slt dir v t) -> side dir (b_pow dir b x) t.
Proof.
  intros E E' N P H1 H2 H3. assert (ZB : vzero (bv b) = false) by (rewrite E; apply vzero_nfin, N).
  destruct (vzero (bv x)) eqn:ZX.
  - assert (C : rv c = 0) by (rewrite E' in ZX; apply vzero_fin in ZX; exact ZX). rewrite C in P. assert (v = 1) as ->. { unfold rpow in P. rewrite (as_int_IZR 0) in P. destruct (Req_EM_T (rv q) 0); cbn in P; congruence. }
    assert (PO : side dir (pow_one b x) t).
    { apply (side_fin dir (pow_one b x) false (zq 1) t eq_refl). rewrite rv_zq. split; [exact H1|]. unfold pow_one, is_closed at 1. cbn [bf]. destruct (is_closed x) eqn:CX; [discriminate|]. intros K. apply H2; [exact K|right; reflexivity]. }
    unfold b_pow, u_pow, l_pow. rewrite ZB, ZX. destruct dir; exact PO.
  - assert (C : rv c <> 0) by (rewrite E' in ZX; apply vzero_nfin in ZX; exact ZX).
    assert (O : (if veq (bv b) (num 1) then b else pow_core A pw dir b x) = b_pow dir b x) by (unfold b_pow, u_pow, l_pow; rewrite ZB, ZX; destruct dir; reflexivity). rewrite <- O.
    destruct (veq (bv b) (num 1)) eqn:B1.
    + rewrite E in B1. unfold num in B1. cbn in B1. apply qeq_iff in B1. rewrite rv_zq in B1. rewrite B1 in P. rewrite rpow_positive in P by lra. assert (v = 1) as ->. { assert (v = Rpower 1 (rv c)) as -> by congruence. unfold Rpower. rewrite ln_1, Rmult_0_r. apply exp_0. }
      apply (side_fin dir b s q t E). rewrite B1. split; [exact H1|]. intros K. apply H2; [exact K|left; exact C].
    + assert (Q1 : rv q <> 1). { rewrite E in B1. unfold num in B1. cbn in B1. apply qeq_false in B1. rewrite rv_zq in B1. exact B1. }
      apply (core_power dir b x s q s' c v t E E' N P H1). intros [K|K]; [apply H2; [exact K|left; exact C]|apply H3; assumption].
Qed.

(** A power a^b, 0 <= a, and the power of a boundary. *)
Definition pow_of (a b r : R) : Prop := (0 < a /\ r = exp (b * ln a)) \/ (a = 0 /\ 0 < b /\ r = 0).
Lemma rpow_pow_of a b r : 0 <= a -> 0 < a \/ 0 < b -> rpow a b = Some r -> pow_of a b r.
Proof.
  intros [H|H] K E.
  - left. split; [exact H|]. rewrite rpow_positive in E by exact H. unfold Rpower in E. congruence.
  - right. subst a. split; [reflexivity|]. assert (B : 0 < b) by lra. split; [exact B|]. apply (rpow_zero_base b r B E).
Qed.
Lemma pow_of_nonneg a b r : pow_of a b r -> 0 <= r.
Proof. intros [[_ ->]|(_ & _ & ->)]; [left; apply exp_pos|lra]. Qed.
Lemma exp_ge1 x : 0 <= x -> 1 <= exp x.
Proof. intros H. rewrite <- exp_0. apply exp_mono, H. Qed.

(** Lower boundaries: the base is at least 1 and the exponent a lower boundary; the base is at most 1 and the exponent an upper boundary. *)
Lemma low_large l y s q s' c a b r : bv l = Fin s q -> bv y = Fin s' c -> 1 <= rv q -> rv q <= a -> (is_closed l = false -> rv q < a) -> 0 <= rv c -> rv c <= b -> (is_closed y = false -> rv c < b) ->
  pow_of a b r -> above (l_pow A pw l y) r.
Proof.
  intros E E' Q1 QA SA C0 CB SB [[PA ->]|(Z & _ & _)]; [|lra].
  pose proof (ln_ge1 (rv q) Q1) as L1. assert (L2 : ln (rv q) <= ln a) by (apply ln_mono; lra).
  apply (bpow_side false l y s q s' c (exp (rv c * ln (rv q)))); auto; try lra.
  - rewrite rpow_positive by lra. reflexivity.
  - apply exp_mono. nra.
  - intros K1 K2. apply exp_increasing. specialize (SA K1). assert (L3 : ln (rv q) < ln a) by (apply ln_increasing; lra).
    assert (B : 0 < b) by (destruct K2 as [K2|K2]; [destruct C0; [lra|congruence]|specialize (SB K2); lra]). nra.
  - intros K1 K2 _. apply exp_increasing. specialize (SB K1). assert (L3 : 0 < ln (rv q)) by (apply ln_gt1; destruct Q1; [assumption|congruence]). nra.
Qed.
Lemma low_small l y s q a b r : bv l = Fin s q -> 0 <= rv q <= 1 -> rv q <= a -> (is_closed l = false -> rv q < a) -> (is_closed l = false -> rv q < 1) -> 0 <= b -> below y b ->
  pow_of a b r -> above (l_pow A pw l y) r.
Proof.
  intros E Q1 QA SA S1 B0 HY P. pose proof (pow_of_nonneg a b r P) as R0. destruct (Req_dec (rv q) 0) as [Z|Z].
  - assert (ZB : vzero (bv l) = true) by (rewrite E; apply vzero_fin; exact Z). unfold l_pow. rewrite ZB. apply (side_fin false l s q r E). cbn [sle slt]. rewrite Z. split; [exact R0|].
    intros K. specialize (SA K). destruct P as [[_ ->]|(Z' & _)]; [apply exp_pos|lra].
  - assert (PQ : 0 < rv q) by lra. destruct P as [[PA ->]|(Z' & _)]; [|lra].
    pose proof (ln_le1 (rv q) PQ (proj2 Q1)) as L1. assert (L2 : ln (rv q) <= ln a) by (apply ln_mono; lra).
    destruct (below_inv _ _ HY) as [EY|(s' & c & EY & CB & SB)].
    + assert (ZB : vzero (bv l) = false) by (rewrite E; apply vzero_nfin; exact Z). unfold l_pow. rewrite ZB, EY. change (vzero (Inf false)) with false. cbv iota.
      destruct (veq (bv l) (num 1)) eqn:B1.
      * rewrite E in B1. cbn in B1. apply qeq_iff in B1. rewrite rv_zq in B1. apply (side_fin false l s q _ E). cbn [sle slt]. rewrite B1 in *. split; [apply exp_ge1; pose proof (ln_ge1 a); nra|]. intros K. specialize (S1 K). lra.
      * assert (Q : rv q <> 1) by (rewrite E in B1; cbn in B1; apply qeq_false in B1; rewrite rv_zq in B1; exact B1).
        change (side false (pow_core A pw false l y) (exp (b * ln a))). apply core_zero; [|cbn; apply exp_pos]. rewrite (core_exp_inf _ _ _ _ EY), E. apply (pw_to_zero pw rep Hp). lra.
    + assert (MAX : ln (rv q) * rv c <= b * ln a) by (destruct (Rle_or_lt 0 (ln a)); nra).
      apply (bpow_side false l y s q s' c (exp (rv c * ln (rv q)))); auto; try lra.
      * rewrite rpow_positive by lra. reflexivity.
      * apply exp_mono. lra.
      * intros K1 K2. apply exp_increasing. specialize (SA K1). specialize (S1 K1). assert (L3 : ln (rv q) < ln a) by (apply ln_increasing; lra). assert (L4 : ln (rv q) < 0) by (apply ln_lt1; lra).
        assert (C : 0 < rv c) by (destruct K2 as [K2|K2]; [destruct (Rdichotomy _ _ K2); lra|specialize (SB K2); lra]). destruct (Rle_or_lt 0 (ln a)); nra.
      * intros K1 K2 K3. apply exp_increasing. specialize (SB K1). assert (L4 : ln (rv q) < 0) by (apply ln_lt1; lra). destruct (Rle_or_lt 0 (ln a)); nra.
Qed.
(** Upper boundaries, in the same two cases. *)
Lemma up_large u y a b r : below u a -> (forall s q, bv u = Fin s q -> 1 <= rv q /\ (is_closed u = false -> 1 < rv q)) -> 0 <= b -> below y b -> pow_of a b r -> below (u_pow A pw u y) r.
Proof.
  intros HU U1 B0 HY P.
  assert (LE : forall q c, 1 <= q -> a <= q -> b <= c -> r <= exp (c * ln q)).
  { intros q c Q1 QA CB. pose proof (ln_ge1 q Q1). destruct P as [[PA ->]|(_ & _ & ->)]; [|left; apply exp_pos]. apply exp_mono. assert (ln a <= ln q) by (apply ln_mono; lra). destruct (Rle_or_lt 0 (ln a)); nra. }
  destruct (below_inv _ _ HY) as [EY|(s' & c & EY & CB & SB)]; destruct (below_inv _ _ HU) as [EU|(s & q & EU & QA & SA)].
  - (* both unbounded *)
    unfold u_pow. rewrite EU, EY. change (vzero (Inf false)) with false. cbn [orb veq num]. change (side true (pow_core A pw true u y) r).
    apply core_inf. rewrite (core_exp_inf _ _ _ _ EY), EU. apply (pw_inf_inf pw rep Hp).
  - destruct (U1 _ _ EU) as [Q1 S1]. unfold u_pow. rewrite EY. change (vzero (Inf false)) with false. cbv iota.
    assert (ZB : vzero (bv u) = false) by (rewrite EU; apply vzero_nfin; lra). rewrite ZB. cbn [orb]. destruct (veq (bv u) (num 1)) eqn:B1.
    + rewrite EU in B1. cbn in B1. apply qeq_iff in B1. rewrite rv_zq in B1. apply (side_fin true u s q _ EU). cbn [sle slt]. rewrite B1 in *. split.
      * destruct P as [[PA ->]|(_ & _ & ->)]; [|lra]. rewrite <- exp_0. apply exp_mono. pose proof (ln_le1 a PA QA). nra.
      * intros K. specialize (S1 K). lra.
    + assert (Q : rv q <> 1) by (rewrite EU in B1; cbn in B1; apply qeq_false in B1; rewrite rv_zq in B1; exact B1).
      change (side true (pow_core A pw true u y) r). apply core_inf. rewrite (core_exp_inf _ _ _ _ EY), EU. apply (pw_to_inf pw rep Hp). lra.
  - (* unbounded base *)
    unfold u_pow. rewrite EU. destruct (vzero (bv y)) eqn:ZY.
    + rewrite EY in ZY. apply vzero_fin in ZY. assert (b = 0) as -> by lra.
      assert (CY : is_closed y = true) by (destruct (is_closed y); [reflexivity|specialize (SB eq_refl); lra]).
      apply (side_fin true (pow_one u y) false (zq 1) r eq_refl). unfold pow_one, is_closed at 1. cbn [bf sle slt]. rewrite CY, rv_zq. split; [|discriminate].
      destruct P as [[PA ->]|(_ & K & _)]; [|lra]. rewrite Rmult_0_l, exp_0. lra.
    + cbn [vzero veq num orb]. change (side true (pow_core A pw true u y) r). apply core_inf. apply (core_base_inf true u y s' c EU EY).
      rewrite EY in ZY. apply vzero_nfin in ZY. destruct (Rdichotomy _ _ ZY); lra.
  - destruct (U1 _ _ EU) as [Q1 S1]. pose proof (ln_ge1 (rv q) Q1) as L1.
    apply (bpow_side true u y s q s' c (exp (rv c * ln (rv q)))); auto; try lra.
    + rewrite rpow_positive by lra. reflexivity.
    + cbn [sle]. apply LE; assumption.
    + intros K1 K2. cbn [slt]. specialize (S1 K1). specialize (SA K1). assert (L3 : 0 < ln (rv q)) by (apply ln_gt1; lra).
      assert (C : 0 < rv c) by (destruct K2 as [K2|K2]; [destruct (Rdichotomy _ _ K2); lra|specialize (SB K2); lra]).
      destruct P as [[PA ->]|(_ & _ & ->)]; [|apply exp_pos]. apply exp_increasing. assert (ln a < ln (rv q)) by (apply ln_increasing; lra). destruct (Rle_or_lt 0 (ln a)); nra.
    + intros K1 K2 K3. cbn [slt]. specialize (SB K1). assert (L3 : 0 < ln (rv q)) by (apply ln_gt1; lra).
      destruct P as [[PA ->]|(_ & _ & ->)]; [|apply exp_pos]. apply exp_increasing. assert (ln a <= ln (rv q)) by (apply ln_mono; lra). destruct (Rle_or_lt 0 (ln a)); nra.
Qed.
Lemma up_small u y s q s' c a b r : bv u = Fin s q -> bv y = Fin s' c -> 0 <= a -> a < 1 -> rv q <= 1 -> a <= rv q -> (is_closed u = false -> a < rv q) -> 0 <= rv c -> rv c <= b -> (is_closed y = false -> rv c < b) ->
  pow_of a b r -> below (u_pow A pw u y) r.
Proof.
  intros E E' A0 A1 Q1 QA SA C0 CB SB P. destruct (Req_dec (rv q) 0) as [Z|Z].
  - assert (a = 0) by lra. destruct P as [[PA _]|(_ & PB & ->)]; [lra|]. unfold u_pow. rewrite E, E'.
    destruct (vzero (Fin s' c)) eqn:ZY.
    + apply (side_fin true (pow_one u y) false (zq 1) 0 eq_refl). cbn [sle slt]. rewrite rv_zq. split; [lra|intros _; lra].
    + assert (ZB : vzero (Fin s q) = true) by (apply vzero_fin; exact Z). rewrite ZB. cbn [orb]. apply (side_fin true u s q 0 E). cbn [sle slt]. split; [lra|]. intros K. specialize (SA K). lra.
  - assert (PQ : 0 < rv q) by lra. pose proof (ln_le1 (rv q) PQ Q1) as L1.
    apply (bpow_side true u y s q s' c (exp (rv c * ln (rv q)))); auto; try lra.
    + rewrite rpow_positive by lra. reflexivity.
    + cbn [sle]. destruct P as [[PA ->]|(_ & _ & ->)]; [|left; apply exp_pos]. apply exp_mono. assert (ln a <= ln (rv q)) by (apply ln_mono; lra). nra.
    + intros K1 K2. cbn [slt]. specialize (SA K1). destruct P as [[PA ->]|(_ & _ & ->)]; [|apply exp_pos]. apply exp_increasing. assert (ln a < ln (rv q)) by (apply ln_increasing; lra). assert (ln a < 0) by (apply ln_lt1; lra).
      assert (B : 0 < b) by (destruct K2 as [K2|K2]; [destruct (Rdichotomy _ _ K2); lra|specialize (SB K2); lra]). destruct C0 as [C0|C0]; nra.
    + intros K1 K2 K3. cbn [slt]. specialize (SB K1). destruct P as [[PA ->]|(_ & _ & ->)]; [|apply exp_pos]. apply exp_increasing. assert (ln a <= ln (rv q)) by (apply ln_mono; lra). assert (ln a < 0) by (apply ln_lt1; lra). nra.
Qed.

(** * Flags and machine numbers *)
Lemma rep_1 : rep (zq 1).
Proof. apply (rep_integer A rep Hd). pose proof (fract_positive A rep Hd). rewrite Rabs_R1. lra. Qed.
Lemma core_rep dir b x s p : fst (core_val dir b x) = Fin s p -> rep p.
Proof.
  unfold core_val. destruct (b_eqv x one_half); [apply (fn_to_rep A rep Hf)|]. destruct (b_eqv x (num 2)); [|apply (pw_to_rep pw rep Hp)].
  unfold vmul. destruct (bv b) as [|i|s0 q]; cbn; try discriminate. unfold with_zero. destruct (rnd A dir (q * q)%Qc) as [[|i|w u] m] eqn:E; cbn; try discriminate.
  intros K. assert (p = u) as -> by congruence. apply (rounds_to_rep A rep Hd dir (q * q)%Qc w u). rewrite E. reflexivity.
Qed.
Lemma bpow_bound dir b x : good_flag dir b -> bound rep dir b -> bound rep dir (b_pow dir b x).
Proof.
  intros G B. assert (PO : bound rep dir (pow_one b x)).
  { unfold bound, pow_one, good_flag in *. destruct dir; intros s q E; cbn [bv bf] in *; (split; [destruct (is_closed x); [discriminate|exact G]|]); unfold num in E; assert (q = zq 1) as -> by congruence; exact rep_1. }
  assert (PC : bound rep dir (pow_core A pw dir b x)).
  { change (pow_core A pw dir b x) with (if true then meet dir (compute dir b (core_val dir b x)) x else compute dir b (core_val dir b x)). apply (compute_bound rep dir b x (core_val dir b x) true G). intros s p. apply core_rep. }
  unfold b_pow, u_pow, l_pow. destruct dir; repeat match goal with |- context [if ?c then _ else _] => destruct c end; assumption.
Qed.
End Arith.
