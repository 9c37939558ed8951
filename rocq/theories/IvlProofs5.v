(** Quotients, negation, absolute values, squares. *)
From Coq Require Import ZArith QArith Qcanon Qround Reals Qreals Lra Lia Psatz Bool.
From Verif Require Import Bool3Model Ast IvlModel IvlSpec IvlProofs IvlProofs2 IvlProofs3 IvlProofs4 RatRootProofs ExprCases.
Local Open Scope R_scope.
Set Bullet Behavior "Strict Subproofs".

Section Arith.
Variables (A : arith) (rep : Qc -> Prop).
Hypothesis Hd : directed A rep.

Lemma lev_sound y b : lev y (num 0) = true -> hull y b -> b <= 0.
Proof.
  intros L [_ H]. apply below_inv in H. unfold lev, uv_le, vgt in L. destruct H as [E|(s & p & E & X & _)]; rewrite E in L; cbn in L; [discriminate|].
  destruct (qlt (zq 0) p) eqn:Q; [discriminate|]. q2r. lra.
Qed.
Lemma gev_sound y b : gev y (num 0) = true -> hull y b -> 0 <= b.
Proof.
  intros L [H _]. apply above_inv in H. unfold gev, lv_ge in L. destruct H as [E|(s & p & E & X & _)]; rewrite E in L; cbn in L; [discriminate|].
  destruct (qlt p (zq 0)) eqn:Q; [discriminate|]. q2r. lra.
Qed.
Lemma lev_false y b : upper_bound rep (up y) -> integral (up y) -> lev y (num 0) = false -> hull y b -> below (up y) 1.
Proof.
  intros W N L [_ H]. apply below_inv in H. unfold lev, uv_le, vgt in L. destruct H as [E|(s & p & E & X & _)]; rewrite E in L; cbn in L.
  - unfold below. rewrite E. reflexivity.
  - destruct (qlt (zq 0) p) eqn:Q; [|discriminate]. q2r. destruct (N _ _ E) as [F [z ->]]. unfold below. rewrite E, F. rewrite rv_zq in *. assert (0 < z)%Z by (apply lt_IZR; lra). apply IZR_le. lia.
Qed.
Lemma gev_false y b : lower_bound rep (lo y) -> integral (lo y) -> gev y (num 0) = false -> hull y b -> above (lo y) (-1).
Proof.
  intros W N L [H _]. apply above_inv in H. unfold gev, lv_ge in L. destruct H as [E|(s & p & E & X & _)]; rewrite E in L; cbn in L.
  - unfold above. rewrite E. reflexivity.
  - destruct (qlt p (zq 0)) eqn:Q; [|discriminate]. q2r. destruct (N _ _ E) as [F [z ->]]. unfold above. rewrite E, F. rewrite rv_zq in *. assert (z < 0)%Z by (apply lt_IZR; lra). apply IZR_le. lia.
Qed.
(** The divisors of one sign only, in the integers. *)

Lemma neg_up x a t : formed rep x -> hull x a -> - a <= t -> above (b_negate (b_set false (up x))) t.
Proof. intros W H K. apply above_up with (- a); [|exact K]. exact (negate_side true (up x) a (proj2 H)). Qed.
Lemma neg_lo x a t : formed rep x -> hull x a -> t <= - a -> below (b_negate (b_set true (lo x))) t.
Proof. intros W H K. apply below_down with (- a); [|exact K]. exact (negate_side false (lo x) a (proj1 H)). Qed.

Lemma div_in x y a b : formed rep x -> formed rep y -> typed x -> typed y -> normal y -> signed y -> member a x -> member b y -> b <> 0 ->
  (fl y = INTEGER -> one_signed y \/ member 0 x) -> member (a / b) (i_div A x y).
Proof.
  intros W W' T T' N SG Ha Hb NB ONE. unfold i_div. destruct (is_one_point y) eqn:P.
  { destruct (one_point_val y b P (proj1 Hb)) as (s & q & E & ->). rewrite E. apply (div_v_in A rep Hd); auto. apply (proj1 W' _ _ E). }
  cbv zeta. pose proof (proj1 Ha) as H. pose proof (proj1 Hb) as H'. destruct (hull_flags x a T H) as [GL GU]. pose proof W as [WL WU]. pose proof W' as [WL' WU'].
  assert (BL := bound_set_lo rep x a W H). assert (BU := bound_set_up rep x a W H).
  assert (NL := negate_bound A rep Hd false (lo x) WL). assert (NU := negate_bound A rep Hd true (up x) WU). cbn [negb] in NL, NU.
  assert (PX : pos_of x = if ltv x (num 0) then Neg else if gtv x (num 0) then Pos else Mix) by reflexivity.
  destruct (cases rep x a W H) as (_ & _ & XN & XP).
  assert (X0 : pos_of x = Mix -> hull x 0) by (apply (mix_hull rep x a W H)).
  destruct (i_has A y (num 0)) eqn:HZ.
  - apply (has_zero A rep Hd y b W' H') in HZ. pose proof (hull_mix rep y W' HZ) as PY.
    destruct (is_int (fl y)) eqn:IY.
    + assert (FY : fl y = INTEGER) by (destruct (fl y); [discriminate|reflexivity]).
      assert (BB : 1 <= b \/ b <= -1). { destruct (proj2 Hb FY) as [z ->]. assert (z <> 0%Z) by (intros ->; apply NB; reflexivity). assert (1 <= z \/ z <= -1)%Z as [K|K] by lia; [left|right]; apply IZR_le; exact K. }
      assert (IN : integral (lo y) /\ integral (up y)). { destruct N as [[E1 _]|(_ & _ & _ & N)]; [|apply N, FY]. exfalso. destruct H' as [H' _]. unfold above in H'. rewrite E1 in H'. discriminate. }
      destruct IN as [IL IU]. destruct (quot_abs a b BB) as [QA1 QA2].
      match goal with |- context [let '(l', u') := ?e in _] => destruct e as [l u] eqn:E end.
      assert (G : (bound rep false l /\ side false l (a / b)) /\ bound rep true u /\ side true u (a / b)).
      { destruct (lev y (num 0)) eqn:LE; [|destruct (gev y (num 0)) eqn:GE].
        - assert (b <= -1) by (pose proof (lev_sound y b LE H'); lra). destruct (int_lo rep x y a b W W' H H' H0 PY) as [D1 D2].
          destruct (ltv x (num 0)); [|destruct (gtv x (num 0))]; injection E as <- <-.
          + specialize (XN PX). split; split.
            * apply (div_b_bound A rep Hd false); [apply good_set|exact BU].
            * apply (div_b_side A rep Hd false), D1, PX.
            * exact NL.
            * apply (neg_lo x a); auto. apply QA2. lra.
          + specialize (XP PX). split; split.
            * exact NU.
            * apply (neg_up x a); auto. apply QA1. lra.
            * apply (div_b_bound A rep Hd true); [apply good_set|exact BL].
            * apply (div_b_side A rep Hd true), D2, PX.
          + specialize (X0 PX). split; split; [exact NU| |exact NL|].
            * destruct (Rle_dec 0 a) as [K|K]; [apply (neg_up x a); auto; apply QA1; exact K|]. apply Rnot_le_lt in K. apply (neg_up x 0); auto. assert (0 <= a / b) by (apply quot_sign; nra). lra.
            * destruct (Rle_dec 0 a) as [K|K]; [|apply (neg_lo x a); auto; apply QA2; lra]. apply (neg_lo x 0); auto. assert (a / b <= 0) by (apply quot_sign; nra). lra.
        - assert (1 <= b) by (pose proof (gev_sound y b GE H'); lra). destruct (int_up rep x y a b W W' H H' H0 PY) as [D1 D2]. destruct H as [H1 H2].
          destruct (ltv x (num 0)); [|destruct (gtv x (num 0))]; injection E as <- <-.
          + specialize (XN PX). split; split.
            * exact WL.
            * apply above_up with a; [exact H1|]. apply QA2. lra.
            * apply (div_b_bound A rep Hd true); assumption.
            * apply (div_b_side A rep Hd true), D1, PX.
          + specialize (XP PX). split; split.
            * apply (div_b_bound A rep Hd false); assumption.
            * apply (div_b_side A rep Hd false), D2, PX.
            * exact WU.
            * apply below_down with a; [exact H2|]. apply QA1. lra.
          + specialize (X0 PX). split; split; [exact WL| |exact WU|].
            * destruct (Rle_dec 0 a) as [K|K]; [|apply above_up with a; [exact H1|]; apply QA2; lra]. apply above_up with 0; [apply X0|]. apply quot_sign; nra.
            * destruct (Rle_dec 0 a) as [K|K]; [apply below_down with a; [exact H2|]; apply QA1; exact K|]. apply below_down with 0; [apply X0|]. apply quot_sign; nra.
        - assert (Y1 : member 1 y). { split; [split|]. - apply above_up with 0; [apply HZ|lra]. - apply (lev_false y b); auto. - intros _. exists 1%Z. reflexivity. }
          assert (Y2 : member (-1) y). { split; [split|]. - apply (gev_false y b); auto. - apply below_down with 0; [apply HZ|lra]. - intros _. exists (-1)%Z. reflexivity. }
          destruct (ONE FY) as [[K|K]|K]; [specialize (K _ Y2); lra|specialize (K _ Y1); lra|]. pose proof (hull_mix rep x W (proj1 K)) as MX. rewrite MX in PX.
          destruct (ltv x (num 0)); [discriminate|]. destruct (gtv x (num 0)); [discriminate|]. injection E as <- <-. destruct H as [H1 H2].
          assert (S1 := neg_up x a (- a) W (conj H1 H2) (Rle_refl _)). assert (S2 := neg_lo x a (- a) W (conj H1 H2) (Rle_refl _)).
          split; split.
          + destruct (b_lt _ _); assumption.
          + apply (lower_choice rep); try assumption; [exact (side_nan false _ _ H1)|exact (side_nan false _ _ S1)|]. destruct (Rle_dec 0 a) as [L|L].
            * right. apply (neg_up x a); [exact W|split; assumption|]. apply QA1. exact L.
            * left. apply above_up with a; [exact H1|]. apply QA2. lra.
          + destruct (b_gt _ _); assumption.
          + apply (upper_choice rep); try assumption; [exact (side_nan true _ _ H2)|exact (side_nan true _ _ S2)|]. destruct (Rle_dec 0 a) as [L|L].
            * left. apply below_down with a; [exact H2|]. apply QA1. exact L.
            * right. apply (neg_lo x a); [exact W|split; assumption|]. apply QA2. lra. }
      destruct G as ((B1 & S1) & B2 & S2). apply (set_maybe_real_iff A rep Hd); split; assumption.
    + split; [split; reflexivity|discriminate].
  - assert (NZ : ~ hull y 0) by (intros K; apply (has_zero A rep Hd y b W' H') in K; congruence).
    assert (PY : pos_of y = if ltv y (num 0) then Neg else if gtv y (num 0) then Pos else Mix) by reflexivity.
    pose proof (div_lower rep x y a b W W' SG H H') as DL. pose proof (div_upper rep x y a b W W' SG H H') as DU. unfold div_lo_ok, div_up_ok in DL, DU. rewrite PX, PY in DL, DU.
    match goal with |- context [let '(l', u') := ?e in _] => destruct e as [l u] eqn:E end.
    assert (G : (bound rep false l /\ side false l (a / b)) /\ bound rep true u /\ side true u (a / b)).
    { destruct (ltv y (num 0)).
      - destruct (ltv x (num 0)); [|destruct (gtv x (num 0))]; injection E as <- <-; (split; split);
        try (apply (div_b_bound A rep Hd false); [first [assumption|apply good_set]|assumption]); try (apply (div_b_bound A rep Hd true); [first [assumption|apply good_set]|assumption]);
        try (apply (div_b_side A rep Hd false); assumption); try (apply (div_b_side A rep Hd true); assumption).
      - destruct (gtv y (num 0)); [|exfalso; apply NZ, (mix_hull rep y b W' H' PY)].
        destruct (ltv x (num 0)); [|destruct (gtv x (num 0))]; injection E as <- <-; (split; split);
        try (apply (div_b_bound A rep Hd false); [first [assumption|apply good_set]|assumption]); try (apply (div_b_bound A rep Hd true); [first [assumption|apply good_set]|assumption]);
        try (apply (div_b_side A rep Hd false); assumption); try (apply (div_b_side A rep Hd true); assumption). }
    destruct G as ((B1 & S1) & B2 & S2). apply (set_maybe_real_iff A rep Hd); split; assumption.
Qed.

(** * Negation and absolute value *)
Lemma neg_in x a : member a x <-> member (- a) (i_neg x).
Proof.
  assert (Q : forall dir b t, side dir b t <-> side (negb dir) (b_negate (b_set (negb dir) b)) (- t)).
  { intros dir b t. split; [apply negate_side|]. intros H. apply side_holds in H. apply side_holds. cbn [b_negate b_set bv] in H.
    replace (is_closed (b_negate (b_set (negb dir) b))) with (is_closed b) in H by (unfold b_negate, b_set, oc, is_closed; cbn; destruct (bf b), dir; reflexivity).
    apply (holds_neg (negb dir)) in H. rewrite Ropp_involutive, Bool.negb_involutive in H. destruct (bv b) as [|i|s q]; cbn [vneg holds] in *; [tauto|rewrite Bool.negb_involutive in H; exact H|].
    rewrite !rv_opp, Ropp_involutive in H. exact H. }
  unfold member, hull, i_neg. cbn [lo up fl]. split.
  - intros [[H1 H2] I]. split; [split; [exact (proj1 (Q true (up x) a) H2)|exact (proj1 (Q false (lo x) a) H1)]|]. intros F. apply integer_opp, I, F.
  - intros [[H1 H2] I]. split; [split; [exact (proj2 (Q false (lo x) a) H2)|exact (proj2 (Q true (up x) a) H1)]|]. intros F. rewrite <- (Ropp_involutive a). apply integer_opp, I, F.
Qed.
Lemma integer_abs a : integer a -> integer (Rabs a).
Proof. intros H. unfold Rabs. destruct (Rcase_abs a); [apply integer_opp|]; exact H. Qed.
Lemma abs_in x a : formed rep x -> member a x -> member (Rabs a) (i_abs x).
Proof.
  intros W M. pose proof M as [H I]. destruct (cases rep x a W H) as (XL & XU & XN & XP). unfold i_abs.
  assert (PX : pos_of x = if ltv x (num 0) then Neg else if gtv x (num 0) then Pos else Mix) by reflexivity.
  destruct (ltv x (num 0)); [specialize (XN PX); rewrite Rabs_left by exact XN; apply (neg_in x a), M|].
  destruct (gtv x (num 0)); [specialize (XP PX); rewrite Rabs_right by lra; exact M|].
  split; [split|intros F; apply integer_abs, I, F]; cbn [lo up].
  - unfold above, b_value. cbn. rewrite rv_zq. apply Rabs_pos.
  - pose proof (mix_hull rep x a W H PX) as [Z1 Z2]. pose proof W as [WL WU]. destruct H as [H1 H2].
    assert (NL := negate_bound A rep Hd false (lo x) WL). cbn [negb] in NL.
    apply (upper_choice rep); auto; [exact (side_nan true _ _ H2)|exact (side_nan true _ _ (neg_lo x a (- a) W (conj H1 H2) (Rle_refl _)))|].
    unfold Rabs. destruct (Rcase_abs a); [right; apply (neg_lo x a); auto; [split; assumption|lra]|left; exact H2].
Qed.
End Arith.
