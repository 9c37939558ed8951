(** Products and quotients of intervals. *)
From Coq Require Import ZArith QArith Qcanon Qround Reals Qreals Lra Lia Psatz Bool.
From Verif Require Import Bool3Model Ast IvlModel IvlSpec IvlProofs IvlProofs2 RatRootProofs.
Local Open Scope R_scope.

Lemma vzero_fin s q : vzero (Fin s q) = true <-> rv q = 0.
Proof. unfold vzero, num. cbn. rewrite qeq_iff, rv_zq. tauto. Qed.
Lemma vzero_nfin s q : vzero (Fin s q) = false <-> rv q <> 0.
Proof. unfold vzero, num. cbn. rewrite qeq_false, rv_zq. tauto. Qed.
Lemma sign_fin s q : rv q <> 0 -> sign (Fin s q) = qlt q 0%Qc.
Proof. intros H. unfold sign. destruct (qeq q 0%Qc) eqn:E; [|reflexivity]. q2r. lra. Qed.

(** The product of two boundaries bounds t. *)
Definition mul_ok (dir : bool) (b c : bnd) (t : R) : Prop :=
  match bv b, bv c with
  | Fin _ p, Fin _ q =>
      sle dir (rv p * rv q) t /\ (rv p <> 0 -> rv q <> 0 -> is_closed b = false \/ is_closed c = false -> slt dir (rv p * rv q) t) /\
      (rv q = 0 -> is_closed b = false -> is_closed c = false -> slt dir 0 t) /\ (rv p = 0 -> rv q <> 0 -> is_closed b = false -> slt dir 0 t)
  | Inf i, Fin _ q =>
      (rv q = 0 -> sle dir 0 t /\ (is_closed b = false -> is_closed c = false -> slt dir 0 t)) /\ (rv q <> 0 -> xorb i (qlt q 0%Qc) = negb dir)
  | Fin _ p, Inf i => (rv p = 0 -> sle dir 0 t /\ (is_closed b = false -> slt dir 0 t)) /\ (rv p <> 0 -> xorb (qlt p 0%Qc) i = negb dir)
  | Inf i, Inf j => xorb i j = negb dir
  | _, _ => False
  end.
(** Solves the conditions [mul_ok] for boundaries whose values are known. *)
Ltac get_closed :=
  repeat match goal with
  | H : true = false -> _ |- _ => clear H
  | H : false = false -> _ |- _ => specialize (H eq_refl)
  end.
Ltac nonzero :=
  repeat match goal with
  | H : rv ?p <> 0 |- _ => destruct (Rdichotomy _ _ H); clear H
  | H : rv ?p = 0 -> false = true |- _ => assert (rv p <> 0) by (let K := fresh in intros K; discriminate (H K)); clear H
  | H : rv ?p = 0 -> true = false |- _ => assert (rv p <> 0) by (let K := fresh in intros K; discriminate (H K)); clear H
  | H : rv ?p = 0 -> ?b = ?b |- _ => clear H
  | H : rv ?p = 0 |- _ => rewrite H in *; clear H
  | H : _ \/ _ |- _ => destruct H
  | H : true = false |- _ => discriminate H
  | H : false = true |- _ => discriminate H
  | H : ?b = ?b |- _ => clear H
  end.
Ltac mul_solve :=
  unfold mul_ok; rewrite ?closed_set; unfold b_set; cbn [bv bf];
  repeat match goal with E : bv ?b = _ |- context [bv ?b] => rewrite E end;
  repeat match goal with E : bv ?b = _ |- _ => clear E end;
  repeat match goal with H : _ /\ _ |- _ => destruct H end;
  repeat match goal with |- context [is_closed ?b] => destruct (is_closed b) end;
  repeat match goal with H : context [is_closed ?b] |- _ => destruct (is_closed b) end;
  get_closed; cbn [sle slt negb xorb]; repeat split; intros; nonzero;
  try match goal with |- context [qlt ?u ?v] => let Q := fresh in destruct (qlt u v) eqn:Q; q2r; cbn [xorb] end; try reflexivity; try (exfalso; lra); try nra; try (exfalso; nra).

Section Arith.
Variables (A : arith) (rep : Qc -> Prop).
Hypothesis Hd : directed A rep.

Lemma zero_side dir (f : flag) t : sle dir 0 t -> (f <> ZERO -> slt dir 0 t) -> side dir (mkB (num 0) f) t.
Proof.
  intros H1 H2. apply (side_fin dir (mkB (num 0) f) false (zq 0) t eq_refl). rewrite rv_zq. split; [exact H1|].
  unfold is_closed. cbn. destruct f; intros K; try discriminate; apply H2; discriminate.
Qed.
Lemma mul_b_side dir b c t : mul_ok dir b c t -> side dir (mul_b A dir b c) t.
Proof.
  unfold mul_ok, mul_b. intros H. destruct (vzero (bv c)) eqn:Zc.
  - assert (K : sle dir 0 t /\ (is_closed b = false -> is_closed c = false -> slt dir 0 t)).
    { destruct (bv c) as [|j|s' q] eqn:Ec; [discriminate|discriminate|]. apply vzero_fin in Zc. rewrite Zc in *. destruct (bv b) as [|i|s p]; [tauto|tauto|].
      rewrite Rmult_0_r in H. tauto. }
    apply zero_side; [apply K|]. intros F. destruct (is_closed c) eqn:C; [congruence|]. apply K; [|reflexivity]. unfold is_closed. destruct (bf b); congruence.
  - destruct (vzero (bv b)) eqn:Zb.
    + destruct (bv b) as [|i|s p] eqn:Eb; [discriminate|discriminate|]. apply vzero_fin in Zb. apply (side_fin dir b s p t Eb). rewrite Zb in *.
      destruct (bv c) as [|j|s' q]; [tauto|tauto|]. apply vzero_nfin in Zc. rewrite Rmult_0_l in H. tauto.
    + apply (compute_side dir b c _ true). destruct (bv b) as [|i|s p] eqn:Eb; [tauto| |]; destruct (bv c) as [|j|s' q] eqn:Ec; [tauto| | |tauto| |].
      * cbn. destruct i, j; exact H.
      * apply vzero_nfin in Zc. unfold vmul. rewrite (proj2 (vzero_nfin s' q) Zc). cbn [vzero veq num orb fst]. rewrite sign_fin by exact Zc. apply H, Zc.
      * apply vzero_nfin in Zb. unfold vmul. rewrite (proj2 (vzero_nfin s p) Zb). cbn [vzero veq num orb fst]. rewrite sign_fin by exact Zb. apply H, Zb.
      * apply vzero_nfin in Zb, Zc. unfold vmul. destruct H as (H1 & H2 & _). rewrite <- rv_mul in H1.
        pose proof (with_zero_side A rep Hd dir (xorb (sign (Fin s p)) (sign (Fin s' q))) (p * q) t H1) as K.
        cbn [vmul fst]. destruct (fst (with_zero (xorb (sign (Fin s p)) (sign (Fin s' q))) (rnd A dir (p * q)))) as [|i|w u]; try tauto. split; [tauto|]. intros G. apply K. rewrite rv_mul. destruct G as [G|[[_ G]|G]]; [left; apply H2; tauto|left; apply H2; tauto|right; exact G].
Qed.
Lemma bound_zero (dir : bool) (f : flag) : (if dir then f <> POS else f <> NEG) -> bound rep dir (mkB (num 0) f).
Proof.
  intros H. assert (R0 : rep (zq 0)) by (replace (zq 0) with 0%Qc by (apply Qc_is_canon; reflexivity); apply (rep_zero A rep Hd)).
  unfold bound, lower_bound, upper_bound. destruct dir; intros s q E; cbn in E; injection E as _ <-; split; assumption.
Qed.
Lemma with_zero_rep dir z q s p : fst (with_zero z (rnd A dir q)) = Fin s p -> rep p.
Proof. unfold with_zero. destruct (rnd A dir q) as [[|i|w u] o] eqn:E; cbn; intros H; try discriminate. injection H as _ <-. apply (rounds_to_rep A rep Hd dir q w u). rewrite E. reflexivity. Qed.
Lemma mul_b_bound dir b c : good_flag dir b -> bound rep dir b -> bound rep dir (mul_b A dir b c).
Proof.
  intros G W. unfold mul_b. destruct (vzero (bv c)) eqn:Zc.
  - apply bound_zero. unfold good_flag in G. destruct dir, (is_closed c); try exact G; discriminate.
  - destruct (vzero (bv b)) eqn:Zb; [exact W|]. apply (compute_bound rep dir b c _ true); [exact G|]. intros s0 p0 E.
    destruct (bv b) as [|i|s p] eqn:Eb, (bv c) as [|j|s' q] eqn:Ec; try discriminate.
    + apply vzero_nfin in Zc. unfold vmul in E. rewrite (proj2 (vzero_nfin s' q) Zc) in E. discriminate.
    + apply vzero_nfin in Zb. unfold vmul in E. rewrite (proj2 (vzero_nfin s p) Zb) in E. discriminate.
    + apply (with_zero_rep _ _ _ _ _ E).
Qed.
(** The signs of the values, as the code tests them. *)
Lemma ltv_true x : upper_bound rep (up x) -> ltv x (num 0) = true -> bv (up x) = Inf true \/ exists s q, bv (up x) = Fin s q /\ rv q <= 0 /\ (rv q = 0 -> is_closed (up x) = false).
Proof.
  intros W. unfold ltv, bv_lt. destruct (bv (up x)) as [|i|s q] eqn:E; cbn; [discriminate|destruct i; [left; reflexivity|discriminate]|].
  intros H. right. exists s, q. split; [reflexivity|]. destruct (qlt q (zq 0)) eqn:L; q2r; [split; [lra|lra]|]. cbn in H. destruct (qeq q (zq 0)) eqn:Z; [|discriminate]. q2r.
  split; [lra|]. intros _. unfold is_closed. destruct (bf (up x)); cbn in H; try discriminate; reflexivity.
Qed.
Lemma ltv_false x : upper_bound rep (up x) -> ltv x (num 0) = false -> bv (up x) = NaN \/ bv (up x) = Inf false \/ exists s q, bv (up x) = Fin s q /\ 0 <= rv q /\ (rv q = 0 -> is_closed (up x) = true).
Proof.
  intros W. unfold ltv, bv_lt. destruct (bv (up x)) as [|i|s q] eqn:E; cbn; [tauto|destruct i; [discriminate|tauto]|].
  intros H. right. right. exists s, q. split; [reflexivity|]. destruct (qlt q (zq 0)) eqn:L; q2r; [discriminate|]. split; [lra|]. intros Z. cbn in H.
  destruct (qeq q (zq 0)) eqn:Q; q2r; [|lra]. destruct (W _ _ E) as [F _]. unfold is_closed. destruct (bf (up x)); cbn in H; try discriminate; try reflexivity; congruence.
Qed.
Lemma gtv_true x : lower_bound rep (lo x) -> gtv x (num 0) = true -> bv (lo x) = Inf false \/ exists s q, bv (lo x) = Fin s q /\ 0 <= rv q /\ (rv q = 0 -> is_closed (lo x) = false).
Proof.
  intros W. unfold gtv, bv_gt, vgt. destruct (bv (lo x)) as [|i|s q] eqn:E; cbn; [discriminate|destruct i; [discriminate|left; reflexivity]|].
  intros H. right. exists s, q. split; [reflexivity|]. destruct (qlt (zq 0) q) eqn:L; q2r; [split; [lra|lra]|]. cbn in H. destruct (qeq q (zq 0)) eqn:Z; [|discriminate]. q2r.
  split; [lra|]. intros _. unfold is_closed. destruct (bf (lo x)); cbn in H; try discriminate; reflexivity.
Qed.
Lemma gtv_false x : lower_bound rep (lo x) -> gtv x (num 0) = false -> bv (lo x) = NaN \/ bv (lo x) = Inf true \/ exists s q, bv (lo x) = Fin s q /\ rv q <= 0 /\ (rv q = 0 -> is_closed (lo x) = true).
Proof.
  intros W. unfold gtv, bv_gt, vgt. destruct (bv (lo x)) as [|i|s q] eqn:E; cbn; [tauto|destruct i; [tauto|discriminate]|].
  intros H. right. right. exists s, q. split; [reflexivity|]. destruct (qlt (zq 0) q) eqn:L; q2r; [discriminate|]. split; [lra|]. intros Z. cbn in H.
  destruct (qeq q (zq 0)) eqn:Q; q2r; [|lra]. destruct (W _ _ E) as [F _]. unfold is_closed. destruct (bf (lo x)); cbn in H; try discriminate; try reflexivity; congruence.
Qed.
(** Everything that is known of an interval x with member a: its boundaries, and the sign the code finds. *)
Inductive pos := Neg | Pos | Mix.
Definition pos_of x : pos := if ltv x (num 0) then Neg else if gtv x (num 0) then Pos else Mix.
Definition lo_case x a (k : pos) : Prop :=
  (bv (lo x) = Inf true /\ k <> Pos) \/
  exists s p, bv (lo x) = Fin s p /\ rv p <= a /\ (is_closed (lo x) = false -> rv p < a) /\
    match k with Pos => 0 <= rv p /\ (rv p = 0 -> is_closed (lo x) = false) | Mix => rv p <= 0 /\ (rv p = 0 -> is_closed (lo x) = true) | Neg => True end.
Definition up_case x a (k : pos) : Prop :=
  (bv (up x) = Inf false /\ k <> Neg) \/
  exists s p, bv (up x) = Fin s p /\ a <= rv p /\ (is_closed (up x) = false -> a < rv p) /\
    match k with Neg => rv p <= 0 /\ (rv p = 0 -> is_closed (up x) = false) | Mix => 0 <= rv p /\ (rv p = 0 -> is_closed (up x) = true) | Pos => True end.
Lemma cases x a : formed rep x -> hull x a -> lo_case x a (pos_of x) /\ up_case x a (pos_of x) /\ (pos_of x = Neg -> a < 0) /\ (pos_of x = Pos -> 0 < a).
Proof.
  intros [WL WU] [H1 H2]. apply above_inv in H1. apply below_inv in H2. unfold pos_of, lo_case, up_case.
  destruct (ltv x (num 0)) eqn:L.
  - destruct (ltv_true x WU L) as [E|(s & q & E & B1 & B2)].
    + destruct H2 as [E'|(s & p & E' & _)]; congruence.
    + destruct H2 as [E'|(s2 & p & E' & C1 & C2)]; [congruence|]. assert (q = p) by congruence. subst p.
      assert (a < 0). { destruct (Rle_lt_or_eq_dec _ _ B1) as [K|K]; [lra|]. specialize (C2 (B2 K)). lra. }
      split; [|split; [|split; [auto|discriminate]]].
      * destruct H1 as [E1|(s1 & p1 & E1 & D1 & D2)]; [left; split; [exact E1|discriminate]|right; exists s1, p1; tauto].
      * right. exists s2, q. tauto.
  - destruct (ltv_false x WU L) as [E|E]; [destruct H2 as [E'|(s & p & E' & _)]; congruence|].
    destruct (gtv x (num 0)) eqn:G.
    + destruct (gtv_true x WL G) as [E'|(s & q & E' & B1 & B2)].
      * destruct H1 as [E1|(s & p & E1 & _)]; congruence.
      * destruct H1 as [E1|(s2 & p & E1 & C1 & C2)]; [congruence|]. assert (q = p) by congruence. subst p.
        assert (0 < a). { destruct (Rle_lt_or_eq_dec _ _ B1) as [K|K]; [lra|]. symmetry in K. specialize (C2 (B2 K)). lra. }
        split; [|split; [|split; [discriminate|auto]]].
        -- right. exists s2, q. tauto.
        -- destruct H2 as [E2|(s1 & p1 & E2 & D1 & D2)]; [left; split; [exact E2|discriminate]|right; exists s1, p1; tauto].
    + destruct (gtv_false x WL G) as [E'|E']; [destruct H1 as [E1|(s & p & E1 & _)]; congruence|].
      split; [|split; [|split; discriminate]].
      * destruct H1 as [E1|(s1 & p1 & E1 & D1 & D2)]; [left; split; [exact E1|discriminate]|]. right. exists s1, p1. destruct E' as [E'|(s & q & E' & B1 & B2)]; [congruence|].
        assert (q = p1) by congruence. subst p1. tauto.
      * destruct H2 as [E1|(s1 & p1 & E1 & D1 & D2)]; [left; split; [exact E1|discriminate]|]. right. exists s1, p1. destruct E as [E|(s & q & E & B1 & B2)]; [congruence|].
        assert (q = p1) by congruence. subst p1. tauto.
Qed.
Definition mul_lo_ok x y t :=
  match pos_of y, pos_of x with
  | Neg, Neg => mul_ok false (b_set false (up x)) (up y) t
  | Neg, _ => mul_ok false (b_set false (up x)) (lo y) t
  | Pos, Pos => mul_ok false (lo x) (lo y) t
  | Pos, _ => mul_ok false (lo x) (up y) t
  | Mix, Neg => mul_ok false (lo x) (up y) t
  | Mix, Pos => mul_ok false (b_set false (up x)) (lo y) t
  | Mix, Mix => True
  end.
Lemma mul_lower x y a b : formed rep x -> formed rep y -> hull x a -> hull y b -> mul_lo_ok x y (a * b).
Proof.
  intros W W' H H'. unfold mul_lo_ok. destruct (cases x a W H) as (XL & XU & XN & XP). destruct (cases y b W' H') as (YL & YU & YN & YP).
  destruct (pos_of y), (pos_of x); try exact Logic.I; try specialize (XN eq_refl); try specialize (XP eq_refl); try specialize (YN eq_refl); try specialize (YP eq_refl).
  - clear XL YL. destruct XU as [[E K]|(s & p & E & X)], YU as [[E' K']|(s' & q & E' & Y)]; try congruence; mul_solve.
  - clear XL YU. destruct XU as [[E K]|(s & p & E & X)], YL as [[E' K']|(s' & q & E' & Y)]; try congruence; mul_solve.
  - clear XL YU. destruct XU as [[E K]|(s & p & E & X)], YL as [[E' K']|(s' & q & E' & Y)]; try congruence; mul_solve.
  - clear XU YL. destruct XL as [[E K]|(s & p & E & X)], YU as [[E' K']|(s' & q & E' & Y)]; try congruence; mul_solve.
  - clear XU YU. destruct XL as [[E K]|(s & p & E & X)], YL as [[E' K']|(s' & q & E' & Y)]; try congruence; mul_solve.
  - clear XU YL. destruct XL as [[E K]|(s & p & E & X)], YU as [[E' K']|(s' & q & E' & Y)]; try congruence; mul_solve.
  - clear XU YL. destruct XL as [[E K]|(s & p & E & X)], YU as [[E' K']|(s' & q & E' & Y)]; try congruence; mul_solve.
  - clear XL YU. destruct XU as [[E K]|(s & p & E & X)], YL as [[E' K']|(s' & q & E' & Y)]; try congruence; mul_solve.
Qed.
Definition mul_up_ok x y t :=
  match pos_of y, pos_of x with
  | Neg, Pos => mul_ok true (b_set true (lo x)) (up y) t
  | Neg, _ => mul_ok true (b_set true (lo x)) (lo y) t
  | Pos, Neg => mul_ok true (up x) (lo y) t
  | Pos, _ => mul_ok true (up x) (up y) t
  | Mix, Neg => mul_ok true (b_set true (lo x)) (lo y) t
  | Mix, Pos => mul_ok true (up x) (up y) t
  | Mix, Mix => True
  end.
Lemma mul_upper x y a b : formed rep x -> formed rep y -> hull x a -> hull y b -> mul_up_ok x y (a * b).
Proof.
  intros W W' H H'. unfold mul_up_ok. destruct (cases x a W H) as (XL & XU & XN & XP). destruct (cases y b W' H') as (YL & YU & YN & YP).
  destruct (pos_of y), (pos_of x); try exact Logic.I; try specialize (XN eq_refl); try specialize (XP eq_refl); try specialize (YN eq_refl); try specialize (YP eq_refl).
  - clear XU YU. destruct XL as [[E K]|(s & p & E & X)], YL as [[E' K']|(s' & q & E' & Y)]; try congruence; mul_solve.
  - clear XU YL. destruct XL as [[E K]|(s & p & E & X)], YU as [[E' K']|(s' & q & E' & Y)]; try congruence; mul_solve.
  - clear XU YU. destruct XL as [[E K]|(s & p & E & X)], YL as [[E' K']|(s' & q & E' & Y)]; try congruence; mul_solve.
  - clear XL YU. destruct XU as [[E K]|(s & p & E & X)], YL as [[E' K']|(s' & q & E' & Y)]; try congruence; mul_solve.
  - clear XL YL. destruct XU as [[E K]|(s & p & E & X)], YU as [[E' K']|(s' & q & E' & Y)]; try congruence; mul_solve.
  - clear XL YL. destruct XU as [[E K]|(s & p & E & X)], YU as [[E' K']|(s' & q & E' & Y)]; try congruence; mul_solve.
  - clear XU YU. destruct XL as [[E K]|(s & p & E & X)], YL as [[E' K']|(s' & q & E' & Y)]; try congruence; mul_solve.
  - clear XL YL. destruct XU as [[E K]|(s & p & E & X)], YU as [[E' K']|(s' & q & E' & Y)]; try congruence; mul_solve.
Qed.
(** Both intervals have values on both sides of zero. *)
Lemma mix_lower x y a b t : formed rep x -> formed rep y -> hull x a -> hull y b -> pos_of x = Mix -> pos_of y = Mix -> 0 <= t \/ (t = a * b /\ a < 0 /\ 0 < b) -> mul_ok false (lo x) (up y) t.
Proof.
  intros W W' H H' PX PY T. destruct (cases x a W H) as (XL & XU & XN & XP). destruct (cases y b W' H') as (YL & YU & YN & YP). rewrite PX, PY in *. clear XU YL XN XP YN YP PX PY.
  destruct XL as [[E K]|(s & p & E & X)], YU as [[E' K']|(s' & q & E' & Y)]; try congruence; destruct T as [T|(-> & T1 & T2)]; mul_solve.
Qed.
Lemma mix_upper x y a b t : formed rep x -> formed rep y -> hull x a -> hull y b -> pos_of x = Mix -> pos_of y = Mix -> t <= 0 \/ (t = a * b /\ 0 < a /\ 0 < b) -> mul_ok true (up x) (up y) t.
Proof.
  intros W W' H H' PX PY T. destruct (cases x a W H) as (XL & XU & XN & XP). destruct (cases y b W' H') as (YL & YU & YN & YP). rewrite PX, PY in *. clear XL YL XN XP YN YP PX PY.
  destruct XU as [[E K]|(s & p & E & X)], YU as [[E' K']|(s' & q & E' & Y)]; try congruence; destruct T as [T|(-> & T1 & T2)]; mul_solve.
Qed.
Lemma mix_upper2 x y a b t : formed rep x -> formed rep y -> hull x a -> hull y b -> pos_of x = Mix -> pos_of y = Mix -> t <= 0 \/ (t = a * b /\ a < 0 /\ b < 0) -> mul_ok true (b_set true (lo x)) (lo y) t.
Proof.
  intros W W' H H' PX PY T. destruct (cases x a W H) as (XL & XU & XN & XP). destruct (cases y b W' H') as (YL & YU & YN & YP). rewrite PX, PY in *. clear XU YU XN XP YN YP PX PY.
  destruct XL as [[E K]|(s & p & E & X)], YL as [[E' K']|(s' & q & E' & Y)]; try congruence; destruct T as [T|(-> & T1 & T2)]; mul_solve.
Qed.
Lemma side_nan dir b t : side dir b t -> bv b <> NaN.
Proof. unfold side, above, below. destruct dir, (bv b); congruence. Qed.
Lemma lower_choice l1 l2 t : lower_bound rep l1 -> lower_bound rep l2 -> bv l1 <> NaN -> bv l2 <> NaN -> above l1 t \/ above l2 t -> above (if b_lt l2 l1 then l2 else l1) t.
Proof.
  intros W1 W2 N1 N2 H. rewrite b_lt_gt. destruct (b_gt l1 l2) eqn:G; destruct H as [H|H]; auto; [exact (above_gt rep _ _ _ W1 W2 G H)|exact (above_ngt rep _ _ _ W1 W2 N1 G H)].
Qed.
Lemma upper_choice u1 u2 t : upper_bound rep u1 -> upper_bound rep u2 -> bv u1 <> NaN -> bv u2 <> NaN -> below u1 t \/ below u2 t -> below (if b_gt u2 u1 then u2 else u1) t.
Proof.
  intros W1 W2 N1 N2 H. rewrite <- b_lt_gt. destruct (b_lt u1 u2) eqn:G; destruct H as [H|H]; auto; [exact (below_lt rep _ _ _ W1 W2 G H)|exact (below_nlt rep _ _ _ W1 W2 N1 G H)].
Qed.
Lemma bound_set_lo x a : formed rep x -> hull x a -> bound rep true (b_set true (lo x)).
Proof. intros [W _] _ s q E. cbn in E. split; [exact (good_set true (lo x))|]. exact (proj2 (W s q E)). Qed.
Lemma bound_set_up x a : formed rep x -> hull x a -> bound rep false (b_set false (up x)).
Proof. intros [_ W] _ s q E. cbn in E. split; [exact (good_set false (up x))|]. exact (proj2 (W s q E)). Qed.

Lemma mul_hull x y a b l u : formed rep x -> formed rep y -> typed x -> typed y -> hull x a -> hull y b -> is_one_point y = false ->
  (l, u) = (let l := lo x in let u := up x in
    let swl := b_set false u in let swu := b_set true l in
      if ltv y (num 0) then
        if ltv x (num 0) then (mul_b A false swl (up y), mul_b A true swu (lo y))
        else if gtv x (num 0) then (mul_b A false swl (lo y), mul_b A true swu (up y))
        else (mul_b A false swl (lo y), mul_b A true swu (lo y))
      else if gtv y (num 0) then
        if ltv x (num 0) then (mul_b A false l (up y), mul_b A true u (lo y))
        else if gtv x (num 0) then (mul_b A false l (lo y), mul_b A true u (up y))
        else (mul_b A false l (up y), mul_b A true u (up y))
      else
        if ltv x (num 0) then (mul_b A false l (up y), mul_b A true swu (lo y))
        else if gtv x (num 0) then (mul_b A false swl (lo y), mul_b A true u (up y))
        else
          let l1 := mul_b A false l (up y) in
          let l2 := mul_b A false (lo y) u in
          let u1 := mul_b A true u (up y) in
          let u2 := mul_b A true swu (lo y) in
          (if b_lt l2 l1 then l2 else l1, if b_gt u2 u1 then u2 else u1)) ->
  (bound rep false l /\ side false l (a * b)) /\ bound rep true u /\ side true u (a * b).
Proof.
  intros W W' T T' H H' _ E. cbv zeta in E.
  destruct (hull_flags x a T H) as [GL GU]. destruct (hull_flags y b T' H') as [GL' GU']. destruct W as [WL WU] eqn:?, W' as [WL' WU'] eqn:?.
  pose proof (mul_lower x y a b W W' H H') as ML. pose proof (mul_upper x y a b W W' H H') as MU.
  unfold mul_lo_ok, mul_up_ok, pos_of in ML, MU.
  assert (BL := bound_set_lo x a W H). assert (BU := bound_set_up x a W H).
  assert (PX : pos_of x = if ltv x (num 0) then Neg else if gtv x (num 0) then Pos else Mix) by reflexivity.
  assert (PY : pos_of y = if ltv y (num 0) then Neg else if gtv y (num 0) then Pos else Mix) by reflexivity.
  destruct (ltv y (num 0)), (gtv y (num 0)), (ltv x (num 0)), (gtv x (num 0)); injection E as -> ->;
   try (split; (split; [apply mul_b_bound; first [assumption | apply good_set]|apply mul_b_side; assumption])).
  assert (M1 := mix_lower x y a b 0 W W' H H' PX PY ltac:(left; lra)). assert (M2 := mix_lower y x b a 0 W' W H' H PY PX ltac:(left; lra)).
  assert (M3 := mix_upper x y a b 0 W W' H H' PX PY ltac:(left; lra)). assert (M4 := mix_upper2 x y a b 0 W W' H H' PX PY ltac:(left; lra)).
  apply mul_b_side in M1, M2, M3, M4. apply side_nan in M1, M2, M3, M4.
  assert (B1 : bound rep false (mul_b A false (lo x) (up y))) by (apply mul_b_bound; assumption). assert (B2 : bound rep false (mul_b A false (lo y) (up x))) by (apply mul_b_bound; assumption).
  assert (B3 : bound rep true (mul_b A true (up x) (up y))) by (apply mul_b_bound; assumption). assert (B4 : bound rep true (mul_b A true (b_set true (lo x)) (lo y))) by (apply mul_b_bound; [apply good_set|assumption]).
  split; split.
  - destruct (b_lt _ _); assumption.
  - apply lower_choice; try assumption. destruct (Rle_dec 0 (a * b)) as [K|K]; [left; apply (mul_b_side false), (mix_lower x y a b); auto|]. destruct (Rlt_dec a 0) as [K'|K'].
    + left. apply (mul_b_side false), (mix_lower x y a b); auto; right; (split; [ring|]); try apply Rnot_lt_le in K'; apply Rnot_le_lt in K; (destruct (Rtotal_order b 0) as [L|[L|L]]; [|rewrite L in K; lra|]); split; nra.
    + right. apply (mul_b_side false), (mix_lower y x b a); auto; right; (split; [ring|]); try apply Rnot_lt_le in K'; apply Rnot_le_lt in K; (destruct (Rtotal_order b 0) as [L|[L|L]]; [|rewrite L in K; lra|]); split; nra.
  - destruct (b_gt _ _); assumption.
  - apply upper_choice; try assumption. destruct (Rle_dec (a * b) 0) as [K|K]; [left; apply (mul_b_side true), (mix_upper x y a b); auto|]. destruct (Rlt_dec a 0) as [K'|K'].
    + right. apply (mul_b_side true), (mix_upper2 x y a b); auto; right; (split; [ring|]); try apply Rnot_lt_le in K'; apply Rnot_le_lt in K; (destruct (Rtotal_order b 0) as [L|[L|L]]; [|rewrite L in K; lra|]); split; nra.
    + left. apply (mul_b_side true), (mix_upper x y a b); auto; right; (split; [ring|]); try apply Rnot_lt_le in K'; apply Rnot_le_lt in K; (destruct (Rtotal_order b 0) as [L|[L|L]]; [|rewrite L in K; lra|]); split; nra.
Qed.
End Arith.
