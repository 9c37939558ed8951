(** Squares, roots, exponentials, logarithms, roundings, minimum and maximum; results are well formed. *)
From Coq Require Import ZArith QArith Qcanon Qround Reals Qreals Lra Lia Psatz Bool.
From Verif Require Import Bool3Model Ast IvlModel IvlSpec IvlProofs IvlProofs2 IvlProofs3 IvlProofs4 IvlProofs5 RatRootProofs ExprCases.
Local Open Scope R_scope.
Set Bullet Behavior "Strict Subproofs".

Lemma bound_flag (rep : Qc -> Prop) dir b : good_flag dir b -> (forall s q, bv b = Fin s q -> rep q) -> bound rep dir b.
Proof. unfold good_flag, bound, lower_bound, upper_bound. destruct dir; intros G R s q E; split; eauto. Qed.

Section Arith.
Variables (A : arith) (rep : Qc -> Prop).
Hypothesis Hd : directed A rep.

(** * Squares *)
Lemma sqr_in x a : formed rep x -> typed x -> member a x -> ltv x (num 0) = false -> member (a * a) (i_sqr A x).
Proof.
  intros W T M L. pose proof M as [H I]. destruct (cases rep x a W H) as (XL & XU & XN & XP). destruct (hull_flags x a T H) as [GL GU]. pose proof W as [WL WU].
  assert (PX : pos_of x = if ltv x (num 0) then Neg else if gtv x (num 0) then Pos else Mix) by reflexivity.
  assert (J : is_int (fl x) = true -> integer (a * a)) by (intros F; apply integer_mul; apply I; destruct (fl x); [discriminate|reflexivity|discriminate|reflexivity]).
  unfold i_sqr. rewrite L in *. destruct (gtv x (num 0)).
  - pose proof (mul_lower rep x x a a W W H H) as ML. pose proof (mul_upper rep x x a a W W H H) as MU. unfold mul_lo_ok, mul_up_ok in ML, MU. rewrite PX in ML, MU.
    apply (set_type_in A rep Hd); [split| |exact J]; cbn [lo up].
    + apply (mul_b_bound A rep Hd false); assumption.
    + apply (mul_b_bound A rep Hd true); assumption.
    + split; [apply (mul_b_side A rep Hd false), ML|apply (mul_b_side A rep Hd true), MU].
  - pose proof (abs_in A rep Hd x a W M) as [[_ K] _]. unfold i_abs in K. rewrite L in K.
    assert (Z : gtv x (num 0) = false). { destruct (gtv x (num 0)) eqn:G; [|reflexivity]. unfold pos_of in PX. rewrite L, G in PX. discriminate. }
    rewrite Z in K. cbn [up] in K. set (u := if b_gt (b_negate (b_set true (lo x))) (up x) then b_negate (b_set true (lo x)) else up x) in *.
    assert (GU' : good_flag true u) by (unfold u; destruct (b_gt _ _); [exact (good_set true (lo x))|exact GU]).
    assert (BU : bound rep true u) by (unfold u; destruct (b_gt _ _); [exact (negate_bound A rep Hd false (lo x) WL)|exact WU]).
    assert (MU : mul_ok true u u (a * a)).
    { replace (a * a) with (Rabs a * Rabs a) by (rewrite <- Rabs_mult; apply Rabs_right; nra). pose proof (Rabs_pos a) as P. apply below_inv in K.
      clearbody u. clear - K P. destruct K as [E|(s & p & E & X)]; mul_solve. }
    apply (set_type_in A rep Hd); [split| |exact J]; cbn [lo up].
    + apply (bound_zero A rep Hd false ZERO). discriminate.
    + apply (mul_b_bound A rep Hd true); assumption.
    + split; [|apply (mul_b_side A rep Hd true), MU]. unfold above, b_value. cbn. rewrite rv_zq. nra.
Qed.

(** * The functions *)
Hypothesis Hf : directed_functions A rep.
Lemma fn_side (f : func) (dir : bool) b a : f = Exp \/ f = Log \/ f = Sqrt -> side dir b a -> defined f a ->
  (forall s q, bv b = Fin s q -> defined f (rv q) \/ (f = Log /\ dir = false /\ rv q = 0)) -> (bv b = Inf true -> f = Exp) ->
  side dir (b_fn A f dir b) (exact f a).
Proof.
  intros F S D DQ DI. unfold b_fn. apply (compute_side dir b b _ false). apply side_holds in S. destruct (bv b) as [|i|s q] eqn:E; cbn [holds] in S; [tauto| |].
  - destruct i.
    + specialize (DI eq_refl). subst f. destruct dir; [discriminate|]. destruct (exp_minus_inf A rep Hf false) as [s ->]. cbn [fst snd sle slt]. rewrite rv_0. pose proof (exp_pos a).
      split; [cbn; lra|intros _; cbn; lra].
    + rewrite (plus_inf A rep Hf f dir F). exact S.
  - destruct (DQ s q eq_refl) as [DQ'| (-> & -> & Z)].
    + destruct S as [S1 S2].
      assert (M1 : sle dir (exact f (rv q)) (exact f a)). { destruct dir; cbn [sle] in *; destruct F as [-> | [-> | ->]]; cbn in *;
        [destruct S1 as [S1|S1]; [left; apply exp_increasing; exact S1|rewrite S1; lra]|destruct S1 as [S1|S1]; [left; apply ln_increasing; assumption|rewrite S1; lra]|apply sqrt_le_1; assumption|
         destruct S1 as [S1|S1]; [left; apply exp_increasing; exact S1|rewrite S1; lra]|destruct S1 as [S1|S1]; [left; apply ln_increasing; assumption|rewrite S1; lra]|apply sqrt_le_1; assumption]. }
      assert (M2 : is_closed b = false -> slt dir (exact f (rv q)) (exact f a)). { intros C. specialize (S2 C). destruct dir; cbn [slt] in *; destruct F as [-> | [-> | ->]]; cbn in *;
        [apply exp_increasing; exact S2|apply ln_increasing; assumption|apply sqrt_lt_1; assumption|apply exp_increasing; exact S2|apply ln_increasing; assumption|apply sqrt_lt_1; assumption]. }
      destruct dir; cbn [sle slt] in *.
      * pose proof (fn_up A rep Hf f s q DQ') as U. unfold over in U. destruct (fst (fn A f true (Fin s q))) as [|i|w u]; [exact U|exact U|]. destruct U as [U1 U2]. split; [lra|].
        intros [C|[[C _]|C]]; [specialize (M2 C); lra|discriminate|specialize (U2 C); lra].
      * pose proof (fn_down A rep Hf f s q DQ') as U. unfold under in U. destruct (fst (fn A f false (Fin s q))) as [|i|w u]; [exact U|exact U|]. destruct U as [U1 U2]. split; [lra|].
        intros [C|[[C _]|C]]; [specialize (M2 C); lra|discriminate|specialize (U2 C); lra].
    + assert (q = 0%Qc) as -> by (apply rv_inj; rewrite rv_0; exact Z). rewrite (log_zero A rep Hf false s). reflexivity.
Qed.
Lemma fn_bound f dir b : good_flag dir b -> bound rep dir (b_fn A f dir b).
Proof. intros G. apply (compute_bound rep dir b b _ false); [exact G|]. intros s p. apply (fn_to_rep A rep Hf). Qed.
Lemma fn_flag f dir b : good_flag dir b -> good_flag dir (b_fn A f dir b).
Proof. unfold b_fn, compute, good_flag, oc, is_closed. destruct dir, (bf b), (snd _); cbn; intros; congruence. Qed.

Lemma exp_in x a : formed rep x -> typed x -> member a x -> member (exp a) (i_exp A x).
Proof.
  intros W T [H _]. destruct (hull_flags x a T H) as [GL GU]. destruct H as [H1 H2]. apply (set_maybe_real_iff A rep Hd).
  - split; apply fn_bound with (dir := false) || apply fn_bound with (dir := true); assumption.
  - split; cbn [lo up]; [apply (fn_side Exp false)|apply (fn_side Exp true)]; auto; cbn; auto.
Qed.
Lemma sqrt_in x a : formed rep x -> typed x -> member a x -> 0 <= a -> member (sqrt a) (i_sqrt A x).
Proof.
  intros W T [H _] P. destruct (hull_flags x a T H) as [GL GU]. destruct (cases rep x a W H) as (XL & XU & XN & XP). pose proof H as [H1 H2].
  assert (PX : pos_of x = if ltv x (num 0) then Neg else if gtv x (num 0) then Pos else Mix) by reflexivity.
  unfold i_sqrt. destruct (ltv x (num 0)); [specialize (XN PX); lra|].
  assert (SU : side true (b_fn A Sqrt true (up x)) (sqrt a)).
  { apply (fn_side Sqrt true); auto; [intros s q E; left; cbn; apply below_inv in H2; destruct H2 as [E'|(s' & p & E' & X & _)]; [congruence|]; assert (q = p) by congruence; subst p; lra|
      intros E; exfalso; unfold below in H2; rewrite E in H2; discriminate]. }
  apply (set_maybe_real_iff A rep Hd); cbn [lo up]; destruct (gtv x (num 0)).
  - split; [apply fn_bound with (dir := false); assumption|apply fn_bound with (dir := true); assumption].
  - split; [apply (bound_zero A rep Hd false ZERO); discriminate|apply fn_bound with (dir := true); assumption].
  - split; [|exact SU]. rewrite PX in XL. apply (fn_side Sqrt false); auto.
    + intros s q E. left. cbn. destruct XL as [[E' _]|(s' & p & E' & _ & _ & X & _)]; [congruence|]. assert (q = p) by congruence. subst p. exact X.
    + intros E. destruct XL as [[_ K]|(s' & p & E' & _)]; congruence.
  - split; [|exact SU]. unfold above, b_value. cbn. rewrite rv_zq. apply sqrt_pos.
Qed.
Lemma log_in x a : formed rep x -> typed x -> member a x -> 0 < a -> member (ln a) (i_log A x).
Proof.
  intros W T [H _] P. destruct (hull_flags x a T H) as [GL GU]. destruct (cases rep x a W H) as (XL & XU & XN & XP). pose proof H as [H1 H2].
  assert (PX : pos_of x = if ltv x (num 0) then Neg else if gtv x (num 0) then Pos else Mix) by reflexivity.
  unfold i_log. destruct (lev x (num 0)) eqn:LE; [pose proof (lev_sound x a LE H); lra|].
  destruct (ltv x (num 0)); [specialize (XN PX); lra|].
  assert (SU : side true (b_fn A Log true (up x)) (ln a)).
  { apply (fn_side Log true); auto; [intros s q E; left; cbn; apply below_inv in H2; destruct H2 as [E'|(s' & p & E' & X & _)]; [congruence|]; assert (q = p) by congruence; subst p; lra|
      intros E; exfalso; unfold below in H2; rewrite E in H2; discriminate]. }
  apply (set_maybe_real_iff A rep Hd); cbn [lo up]; destruct (gtv x (num 0)).
  - split; [apply fn_bound with (dir := false); assumption|apply fn_bound with (dir := true); assumption].
  - split; [intros s q E; discriminate|apply fn_bound with (dir := true); assumption].
  - split; [|exact SU]. rewrite PX in XL. apply (fn_side Log false); auto.
    + intros s q E. destruct XL as [[E' _]|(s' & p & E' & _ & _ & X & _)]; [congruence|]. assert (q = p) by congruence. subst p. cbn. destruct X as [X|X]; [left; exact X|right; auto].
    + intros E. destruct XL as [[_ K]|(s' & p & E' & _)]; congruence.
  - split; [reflexivity|exact SU].
Qed.
End Arith.

Section Round.
Variables (A : arith) (rep : Qc -> Prop).
Hypothesis Hd : directed A rep.
(** * Roundings *)
Lemma floor_side b a z : lower_bound rep b -> above b a -> IZR z <= a < IZR z + 1 -> above (l_floor A b) (IZR z).
Proof.
  intros W H Z. unfold l_floor. apply above_inv in H. destruct H as [E|(s & p & E & X & _)].
  - unfold is_min. rewrite E. cbn. unfold above. rewrite E. reflexivity.
  - unfold is_min, my_floor. rewrite E. cbn [veq negb]. unfold above. cbn [bv bf]. destruct (big A (Fin s p)) eqn:B; cbn [vfloor].
    + apply (big_iff A) in B. destruct (big_integer A rep Hd p (proj2 (W _ _ E)) B) as [w Ew]. rewrite Ew in *. apply le_step. lra.
    + destruct (floor_r p) as (w & -> & Hw). rewrite rv_zq. apply le_step. lra.
Qed.
Lemma ceil_side b a z : upper_bound rep b -> below b a -> a <= IZR z < a + 1 -> below (u_ceil A b) (IZR z).
Proof.
  intros W H Z. unfold u_ceil. apply below_inv in H. destruct H as [E|(s & p & E & X & _)].
  - unfold is_max. rewrite E. cbn. unfold below. rewrite E. reflexivity.
  - unfold is_max, my_ceil. rewrite E. cbn [veq negb]. unfold below. cbn [bv bf]. destruct (big A (Fin s p)) eqn:B; cbn [vceil].
    + apply (big_iff A) in B. destruct (big_integer A rep Hd p (proj2 (W _ _ E)) B) as [w Ew]. rewrite Ew in *. apply le_step. lra.
    + destruct (ceil_r p) as (w & -> & Hw). rewrite rv_zq. apply le_step. lra.
Qed.
Lemma int_z z : integer (IZR z).
Proof. exists z. reflexivity. Qed.
Lemma floor_in x a z : formed rep x -> member a x -> IZR z <= a < IZR z + 1 -> member (IZR z) (i_floor A x).
Proof.
  intros [WL WU] [[H1 H2] _] Z. split; [split; cbn|intros _; apply int_z].
  - apply (floor_side (lo x) a); assumption.
  - apply (below_floor A rep); [exact WU|apply int_z|]. apply below_down with a; [exact H2|lra].
Qed.
Lemma ceil_in x a z : formed rep x -> member a x -> a <= IZR z < a + 1 -> member (IZR z) (i_ceil A x).
Proof.
  intros [WL WU] [[H1 H2] _] Z. split; [split; cbn|intros _; apply int_z].
  - apply (above_ceil A rep); [exact WL|apply int_z|]. apply above_up with a; [exact H1|lra].
  - apply (ceil_side (up x) a); assumption.
Qed.
Lemma trunc_in x a z : formed rep x -> member a x -> (0 <= a -> IZR z <= a < IZR z + 1) -> (a <= 0 -> a <= IZR z < a + 1) -> member (IZR z) (i_integer A x).
Proof.
  intros [WL WU] [[H1 H2] _] Z1 Z2. split; [split; cbn [i_integer lo up]|intros _; apply int_z].
  - unfold l_integer. pose proof H1 as H1'. apply above_inv in H1. unfold lv_ge. destruct H1 as [E|(s & p & E & X & X')]; rewrite E.
    + cbn. apply (above_ceil A rep); [exact WL|apply int_z|]. unfold above. rewrite E. reflexivity.
    + cbn. destruct (qlt p (zq 0)) eqn:Q; q2r; cbn [negb].
      * apply (above_ceil A rep); [exact WL|apply int_z|]. destruct (Rle_dec a 0) as [K|K].
        -- apply above_up with a; [exact H1'|]. apply Z2, K.
        -- apply Rnot_le_lt in K. specialize (Z1 (Rlt_le _ _ K)). assert (0 <= IZR z) by (apply le_step; lra). apply (side_fin false _ _ _ _ E). cbn. split; [|intros _]; lra.
      * apply (floor_side (lo x) a); auto. apply Z1. lra.
  - unfold u_integer. pose proof H2 as H2'. apply below_inv in H2. unfold uv_gt, vgt. destruct H2 as [E|(s & p & E & X & X')]; rewrite E.
    + cbn. apply (below_floor A rep); [exact WU|apply int_z|]. unfold below. rewrite E. reflexivity.
    + cbn. destruct (qlt (zq 0) p) eqn:Q; q2r.
      * apply (below_floor A rep); [exact WU|apply int_z|]. destruct (Rle_dec 0 a) as [K|K].
        -- apply below_down with a; [exact H2'|]. apply Z1, K.
        -- apply Rnot_le_lt in K. specialize (Z2 (Rlt_le _ _ K)). assert (IZR z <= 0) by (apply le_step; lra). apply (side_fin true _ _ _ _ E). cbn. split; [|intros _]; lra.
      * apply (ceil_side (up x) a); auto. apply Z2. lra.
Qed.

(** * Minimum and maximum *)
Lemma min_in x y a b : formed rep x -> formed rep y -> fl x = fl y -> member a x -> member b y -> member (Rmin a b) (i_min x y).
Proof.
  intros [WL WU] [WL' WU'] F [[H1 H2] I] [[H1' H2'] I'].
  assert (G : forall l u t, l = lo x /\ b_lt (lo y) (lo x) = false \/ l = lo y /\ b_lt (lo y) (lo x) = true -> u = up x \/ u = up y -> t = fl x -> member (Rmin a b) (mkI l u t)).
  { intros l u t L U ->. split; [split|]; cbn [lo up fl].
    - destruct L as [[-> L]|[-> L]]; rewrite b_lt_gt in L.
      + assert (above (lo x) b) by (apply (above_ngt rep (lo x) (lo y)); auto; exact (side_nan false _ _ H1)). unfold Rmin. destruct (Rle_dec a b); assumption.
      + assert (above (lo y) a) by (apply (above_gt rep (lo x) (lo y)); auto). unfold Rmin. destruct (Rle_dec a b); assumption.
    - destruct U as [->| ->]; [apply below_down with a; [exact H2|apply Rmin_l]|apply below_down with b; [exact H2'|apply Rmin_r]].
    - intros K. unfold Rmin. destruct (Rle_dec a b); [apply I, K|apply I'; congruence]. }
  unfold i_min. rewrite F. destruct (b_lt (lo y) (lo x)) eqn:L, (b_lt (up y) (up x)).
  - destruct y. apply G; auto.
  - apply G; auto. destruct (fl y); congruence.
  - apply G; auto. destruct (fl y); congruence.
  - destruct x. apply G; auto.
Qed.
Lemma max_in x y a b : formed rep x -> formed rep y -> fl x = fl y -> member a x -> member b y -> member (Rmax a b) (i_max x y).
Proof.
  intros [WL WU] [WL' WU'] F [[H1 H2] I] [[H1' H2'] I'].
  assert (G : forall l u t, u = up x /\ b_gt (up y) (up x) = false \/ u = up y /\ b_gt (up y) (up x) = true -> l = lo x \/ l = lo y -> t = fl x -> member (Rmax a b) (mkI l u t)).
  { intros l u t L U ->. split; [split|]; cbn [lo up fl].
    - destruct U as [->| ->]; [apply above_up with a; [exact H1|apply Rmax_l]|apply above_up with b; [exact H1'|apply Rmax_r]].
    - destruct L as [[-> L]|[-> L]]; rewrite <- b_lt_gt in L.
      + assert (below (up x) b) by (apply (below_nlt rep (up x) (up y)); auto; exact (side_nan true _ _ H2)). unfold Rmax. destruct (Rle_dec a b); assumption.
      + assert (below (up y) a) by (apply (below_lt rep (up x) (up y)); auto). unfold Rmax. destruct (Rle_dec a b); assumption.
    - intros K. unfold Rmax. destruct (Rle_dec a b); [apply I'; congruence|apply I, K]. }
  unfold i_max. rewrite F. destruct (b_gt (lo y) (lo x)), (b_gt (up y) (up x)) eqn:L.
  - destruct y. apply G; auto.
  - apply G; auto. destruct (fl y); congruence.
  - apply G; auto. destruct (fl y); congruence.
  - destruct x. apply G; auto.
Qed.
End Round.
