(** Products and quotients of intervals: the results are in the result. *)
From Coq Require Import ZArith QArith Qcanon Qround Reals Qreals Lra Lia Psatz Bool.
From Verif Require Import Bool3Model Ast IvlModel IvlSpec IvlProofs IvlProofs2 IvlProofs3 RatRootProofs ExprCases.
Local Open Scope R_scope.
Set Bullet Behavior "Strict Subproofs".

Section Arith.
Variables (A : arith) (rep : Qc -> Prop).
Hypothesis Hd : directed A rep.

Lemma both_int x y a b : member a x -> member b y -> is_int (fl x) && is_int (fl y) = true -> integer a /\ integer b.
Proof. intros [_ H] [_ H'] E. apply Bool.andb_true_iff in E. destruct E as [E1 E2]. split; [apply H; destruct (fl x)|apply H'; destruct (fl y)]; cbn in *; congruence. Qed.

Lemma meet_value dir b v : meet dir b (b_value v) = b.
Proof. destruct b as [w f]. unfold meet, set_oc, is_closed. cbn. destruct f; reflexivity. Qed.
Lemma mul_v_b dir b v : mul_v A dir b v = mul_b A dir b (b_value v).
Proof. unfold mul_v, mul_b. rewrite meet_value. reflexivity. Qed.
Lemma div_v_b dir b v : div_v A dir b v = div_b A dir b (b_value v).
Proof. unfold div_v, div_b. rewrite meet_value. reflexivity. Qed.

Lemma mul_v_ok x a s q : formed rep x -> hull x a ->
  (0 <= rv q -> mul_ok false (lo x) (b_value (Fin s q)) (a * rv q) /\ mul_ok true (up x) (b_value (Fin s q)) (a * rv q)) /\
  (rv q < 0 -> mul_ok false (b_set false (up x)) (b_value (Fin s q)) (a * rv q) /\ mul_ok true (b_set true (lo x)) (b_value (Fin s q)) (a * rv q)).
Proof.
  intros W [H1 H2]. apply above_inv in H1. apply below_inv in H2. change (is_closed (b_value (Fin s q))) with true. split; intros Q; split.
  - destruct H1 as [E|(s' & p & E & X)]; unfold mul_ok; change (is_closed (b_value (Fin s q))) with true; mul_solve.
  - destruct H2 as [E|(s' & p & E & X)]; unfold mul_ok; change (is_closed (b_value (Fin s q))) with true; mul_solve.
  - destruct H2 as [E|(s' & p & E & X)]; unfold mul_ok; change (is_closed (b_value (Fin s q))) with true; mul_solve.
  - destruct H1 as [E|(s' & p & E & X)]; unfold mul_ok; change (is_closed (b_value (Fin s q))) with true; mul_solve.
Qed.
Lemma mul_v_in x a s q : formed rep x -> typed x -> member a x -> rep q -> member (a * rv q) (i_mul_v A x (Fin s q)).
Proof.
  intros W T M R. pose proof M as [H _]. destruct (hull_flags x a T H) as [GL GU]. destruct (mul_v_ok x a s q W H) as [K1 K2]. pose proof W as [WL WU].
  unfold i_mul_v.
  assert (I : is_int (fl x) && is_integer A (Fin s q) = true -> integer (a * rv q)).
  { intros E. apply Bool.andb_true_iff in E. destruct E as [E1 E2]. apply integer_mul; [|exact (integer_rep A rep Hd s q R E2)]. apply M. destruct (fl x); [discriminate|reflexivity]. }
  unfold vlt, num. cbn [Z.ltb]. destruct (qlt q (zq 0)) eqn:L; q2r; apply (set_type_in A rep Hd); cbn [lo up]; try exact I; rewrite ?mul_v_b; split; cbn [lo up].
  - apply (mul_b_bound A rep Hd false); [apply good_set|apply (bound_set_up rep x a W H)].
  - apply (mul_b_bound A rep Hd true); [apply good_set|apply (bound_set_lo rep x a W H)].
  - apply (mul_b_side A rep Hd false), K2. lra.
  - apply (mul_b_side A rep Hd true), K2. lra.
  - apply (mul_b_bound A rep Hd false); assumption.
  - apply (mul_b_bound A rep Hd true); assumption.
  - apply (mul_b_side A rep Hd false), K1. lra.
  - apply (mul_b_side A rep Hd true), K1. lra.
Qed.
Lemma mul_in x y a b : formed rep x -> formed rep y -> typed x -> typed y -> member a x -> member b y -> member (a * b) (i_mul A x y).
Proof.
  intros W W' T T' Ha Hb. unfold i_mul. destruct (is_one_point y) eqn:P.
  - destruct (one_point_val y b P (proj1 Hb)) as (s & q & E & ->). rewrite E. apply mul_v_in; auto. apply (proj1 W' _ _ E).
  - cbv zeta. match goal with |- context [let '(l', u') := ?e in _] => destruct e as [l u] eqn:E end.
    destruct (mul_hull A rep Hd x y a b l u W W' T T' (proj1 Ha) (proj1 Hb) P (eq_sym E)) as ((B1 & S1) & B2 & S2).
    apply (set_type_in A rep Hd); [split; assumption|split; assumption|]. intros K. destruct (both_int x y a b Ha Hb K). apply integer_mul; assumption.
Qed.

(** * Quotients *)
(** Zeros have the sign that makes a division by them go to the right infinity: a lower boundary 0 is +0, an upper one -0. *)
Definition div_ok (dir : bool) (b c : bnd) (t : R) : Prop :=
  match bv b, bv c with
  | Fin _ p, Fin s q =>
      (rv p = 0 -> sle dir 0 t /\ (is_closed b = false -> slt dir 0 t)) /\
      (rv p <> 0 -> rv q = 0 -> xorb (qlt p 0%Qc) s = negb dir) /\
      (rv p <> 0 -> rv q <> 0 -> sle dir (rv p / rv q) t /\ (is_closed b = false \/ is_closed c = false -> slt dir (rv p / rv q) t))
  | Inf i, Fin s q => (rv q = 0 -> xorb i s = negb dir) /\ (rv q <> 0 -> xorb i (qlt q 0%Qc) = negb dir)
  | Fin _ p, Inf i => sle dir 0 t /\ (is_closed b = false \/ is_closed c = false -> slt dir 0 t)
  | _, _ => False
  end.
Lemma sign_zero s q : rv q = 0 -> sign (Fin s q) = s.
Proof. intros H. unfold sign. destruct (qeq q 0%Qc) eqn:E; [reflexivity|]. q2r. lra. Qed.
Lemma qeq_zero q : rv q = 0 -> qeq q 0%Qc = true.
Proof. intros H. apply qeq_iff. rewrite H, rv_0. reflexivity. Qed.
Lemma qeq_nzero q : rv q <> 0 -> qeq q 0%Qc = false.
Proof. intros H. apply qeq_false. rewrite rv_0. exact H. Qed.
Lemma div_b_side dir b c t : div_ok dir b c t -> side dir (div_b A dir b c) t.
Proof.
  unfold div_ok, div_b. intros H. destruct (vzero (bv b)) eqn:Zb.
  - destruct (bv b) as [|i|s p] eqn:Eb; [discriminate|discriminate|]. apply vzero_fin in Zb. apply (side_fin dir b s p t Eb). rewrite Zb in *.
    destruct (bv c) as [|j|s' q]; [tauto| |].
    + split; [apply H|]. intros G. apply H. left. exact G.
    + destruct H as [H _]. apply H. reflexivity.
  - apply (compute_side dir b c _ true). destruct (bv b) as [|i|s p] eqn:Eb; [tauto| |]; destruct (bv c) as [|j|s' q] eqn:Ec; [tauto|tauto| |tauto| |].
    + change (xorb i (sign (Fin s' q)) = negb dir). destruct (Req_dec (rv q) 0) as [Z|Z]; [rewrite (sign_zero s' q Z); apply H, Z|rewrite (sign_fin s' q Z); apply H, Z].
    + cbn [vdiv fst snd]. change (rv 0) with (rv 0%Qc). rewrite rv_0. split; [apply H|]. intros G. apply H. destruct G as [G|[[_ G]|G]]; [left; exact G|right; exact G|discriminate].
    + apply vzero_nfin in Zb. destruct H as (_ & H2 & H3). destruct (Req_dec (rv q) 0) as [Z|Z].
      * unfold vdiv. rewrite (qeq_zero q Z), (qeq_nzero p Zb), (sign_zero s' q Z), (sign_fin s p Zb). cbn [fst]. apply H2; assumption.
      * unfold vdiv. rewrite (qeq_nzero q Z). specialize (H3 Zb Z). destruct H3 as [H3 H4]. rewrite <- rv_div in H3 by exact Z.
        pose proof (with_zero_side A rep Hd dir (xorb (sign (Fin s p)) (sign (Fin s' q))) (p / q) t H3) as K.
        destruct (fst (with_zero (xorb (sign (Fin s p)) (sign (Fin s' q))) (rnd A dir (p / q)))) as [|i|w u]; try tauto. split; [tauto|]. intros G. apply K. rewrite rv_div by exact Z.
        destruct G as [G|[[_ G]|G]]; [left; apply H4; tauto|left; apply H4; tauto|right; exact G].
Qed.
Lemma div_b_bound dir b c : good_flag dir b -> bound rep dir b -> bound rep dir (div_b A dir b c).
Proof.
  intros G W. unfold div_b. destruct (vzero (bv b)) eqn:Zb; [exact W|]. apply (compute_bound rep dir b c _ true); [exact G|]. intros s0 p0 E.
  destruct (bv b) as [|i|s p] eqn:Eb, (bv c) as [|j|s' q] eqn:Ec; try discriminate.
  - cbn in E. injection E as _ <-. apply (rep_zero A rep Hd).
  - apply vzero_nfin in Zb. unfold vdiv in E. destruct (qeq q 0%Qc); [destruct (qeq p 0%Qc); discriminate|]. apply (with_zero_rep A rep Hd _ _ _ _ _ E).
Qed.
Lemma quot_le p q a b : 0 < q * b -> p * b <= a * q -> p / q <= a / b.
Proof.
  intros H K. assert (q <> 0) by nra. assert (b <> 0) by nra. apply Rmult_le_reg_r with (q * b); [exact H|].
  replace (p / q * (q * b)) with (p * b) by (field; assumption). replace (a / b * (q * b)) with (a * q) by (field; assumption). exact K.
Qed.
Lemma quot_lt p q a b : 0 < q * b -> p * b < a * q -> p / q < a / b.
Proof.
  intros H K. assert (q <> 0) by nra. assert (b <> 0) by nra. apply Rmult_lt_reg_r with (q * b); [exact H|].
  replace (p / q * (q * b)) with (p * b) by (field; assumption). replace (a / b * (q * b)) with (a * q) by (field; assumption). exact K.
Qed.
Lemma quot_sign a b : b <> 0 -> (0 <= a * b -> 0 <= a / b) /\ (a * b <= 0 -> a / b <= 0) /\ (0 < a * b -> 0 < a / b) /\ (a * b < 0 -> a / b < 0).
Proof.
  intros N. assert (E : a / b = (a * b) * / (b * b)) by (field; exact N). assert (P : 0 < / (b * b)) by (apply Rinv_0_lt_compat; nra). rewrite E. clear E.
  repeat split; intros; nra.
Qed.
End Arith.
Ltac div_goal :=
  match goal with
  | |- _ / _ <= _ / _ => apply quot_le; nra
  | |- _ / _ < _ / _ => apply quot_lt; nra
  | |- 0 <= ?a / ?b => apply quot_sign; nra
  | |- ?a / ?b <= 0 => apply quot_sign; nra
  | |- 0 < ?a / ?b => apply quot_sign; nra
  | |- ?a / ?b < 0 => apply quot_sign; nra
  | |- @Logic.eq bool _ _ => try match goal with |- context [qlt ?u ?v] => let Q := fresh in destruct (qlt u v) eqn:Q; q2r; cbn [xorb] end; subst; try reflexivity; try (exfalso; lra); try (exfalso; nra)
  end.
Ltac use_sign :=
  repeat match goal with
  | H : forall s q, Fin ?s0 ?q0 = Fin s q -> rv q = 0 -> _ |- _ => specialize (H s0 q0 eq_refl)
  | H : forall s q, Inf ?s0 = Fin s q -> _ |- _ => clear H
  | H : rv ?q = 0 -> ?s = _, E : rv ?q = 0 |- _ => specialize (H E)
  end.
Ltac div_solve :=
  unfold div_ok; rewrite ?closed_set; unfold b_set; cbn [bv bf];
  repeat match goal with E : bv ?b = _ |- context [bv ?b] => rewrite E end;
  repeat match goal with H : _ /\ _ |- _ => destruct H end;
  repeat match goal with E : bv ?b = ?v, H : context [bv ?b] |- _ => lazymatch H with E => fail | _ => rewrite E in H end end;
  repeat match goal with E : bv ?b = _ |- _ => clear E end;
  repeat match goal with |- context [is_closed ?b] => destruct (is_closed b) end;
  repeat match goal with H : context [is_closed ?b] |- _ => destruct (is_closed b) end;
  get_closed; cbn [sle slt negb xorb]; repeat split; intros; use_sign; nonzero; try (exfalso; lra); try div_goal.
Section Arith.
Variables (A : arith) (rep : Qc -> Prop).
Hypothesis Hd : directed A rep.
Definition div_lo_ok x y t :=
  match pos_of y, pos_of x with
  | Neg, Neg => div_ok false (b_set false (up x)) (lo y) t
  | Neg, _ => div_ok false (b_set false (up x)) (up y) t
  | Pos, Pos => div_ok false (lo x) (up y) t
  | Pos, _ => div_ok false (lo x) (lo y) t
  | Mix, _ => True
  end.
Lemma div_lower x y a b : formed rep x -> formed rep y -> signed y -> hull x a -> hull y b -> div_lo_ok x y (a / b).
Proof.
  intros W W' SG H H'. unfold div_lo_ok. destruct (cases rep x a W H) as (XL & XU & XN & XP). destruct (cases rep y b W' H') as (YL & YU & YN & YP).
  destruct SG as [SL SU].
  destruct (pos_of y), (pos_of x); try exact Logic.I; try specialize (XN eq_refl); try specialize (XP eq_refl); try specialize (YN eq_refl); try specialize (YP eq_refl).
  - clear XL YU SU. destruct XU as [[E K]|(s & p & E & X)], YL as [[E' K']|(s' & q & E' & Y)]; try congruence; div_solve.
  - clear XL YL SL. destruct XU as [[E K]|(s & p & E & X)], YU as [[E' K']|(s' & q & E' & Y)]; try congruence; div_solve.
  - clear XL YL SL. destruct XU as [[E K]|(s & p & E & X)], YU as [[E' K']|(s' & q & E' & Y)]; try congruence; div_solve.
  - clear XU YU SU. destruct XL as [[E K]|(s & p & E & X)], YL as [[E' K']|(s' & q & E' & Y)]; try congruence; div_solve.
  - clear XU YL SL. destruct XL as [[E K]|(s & p & E & X)], YU as [[E' K']|(s' & q & E' & Y)]; try congruence; div_solve.
  - clear XU YU SU. destruct XL as [[E K]|(s & p & E & X)], YL as [[E' K']|(s' & q & E' & Y)]; try congruence; div_solve.
Qed.
End Arith.
Section Arith2.
Variables (A : arith) (rep : Qc -> Prop).
Hypothesis Hd : directed A rep.
Definition div_up_ok x y t :=
  match pos_of y, pos_of x with
  | Neg, Pos => div_ok true (b_set true (lo x)) (lo y) t
  | Neg, _ => div_ok true (b_set true (lo x)) (up y) t
  | Pos, Neg => div_ok true (up x) (up y) t
  | Pos, _ => div_ok true (up x) (lo y) t
  | Mix, _ => True
  end.
Lemma div_upper x y a b : formed rep x -> formed rep y -> signed y -> hull x a -> hull y b -> div_up_ok x y (a / b).
Proof.
  intros W W' SG H H'. unfold div_up_ok. destruct (cases rep x a W H) as (XL & XU & XN & XP). destruct (cases rep y b W' H') as (YL & YU & YN & YP).
  destruct SG as [SL SU].
  destruct (pos_of y), (pos_of x); try exact Logic.I; try specialize (XN eq_refl); try specialize (XP eq_refl); try specialize (YN eq_refl); try specialize (YP eq_refl).
  - clear XU YL SL. destruct XL as [[E K]|(s & p & E & X)], YU as [[E' K']|(s' & q & E' & Y)]; try congruence; div_solve.
  - clear XU YU SU. destruct XL as [[E K]|(s & p & E & X)], YL as [[E' K']|(s' & q & E' & Y)]; try congruence; div_solve.
  - clear XU YL SL. destruct XL as [[E K]|(s & p & E & X)], YU as [[E' K']|(s' & q & E' & Y)]; try congruence; div_solve.
  - clear XL YL SL. destruct XU as [[E K]|(s & p & E & X)], YU as [[E' K']|(s' & q & E' & Y)]; try congruence; div_solve.
  - clear XL YU SU. destruct XU as [[E K]|(s & p & E & X)], YL as [[E' K']|(s' & q & E' & Y)]; try congruence; div_solve.
  - clear XL YU SU. destruct XU as [[E K]|(s & p & E & X)], YL as [[E' K']|(s' & q & E' & Y)]; try congruence; div_solve.
Qed.
(** A divisor that is an integer and not zero. *)
Lemma int_lo x y a b : formed rep x -> formed rep y -> hull x a -> hull y b -> b <= -1 -> pos_of y = Mix -> 
  (pos_of x = Neg -> div_ok false (b_set false (up x)) (lo y) (a / b)) /\ (pos_of x = Pos -> div_ok true (b_set true (lo x)) (lo y) (a / b)).
Proof.
  intros W W' H H' B PY. destruct (cases rep x a W H) as (XL & XU & XN & XP). destruct (cases rep y b W' H') as (YL & YU & YN & YP). rewrite PY in *. clear YU.
  split; intros PX; rewrite PX in *; try specialize (XN eq_refl); try specialize (XP eq_refl).
  - clear XL. destruct XU as [[E K]|(s & p & E & X)], YL as [[E' K']|(s' & q & E' & Y)]; try congruence; div_solve.
  - clear XU. destruct XL as [[E K]|(s & p & E & X)], YL as [[E' K']|(s' & q & E' & Y)]; try congruence; div_solve.
Qed.
Lemma int_up x y a b : formed rep x -> formed rep y -> hull x a -> hull y b -> 1 <= b -> pos_of y = Mix -> 
  (pos_of x = Neg -> div_ok true (up x) (up y) (a / b)) /\ (pos_of x = Pos -> div_ok false (lo x) (up y) (a / b)).
Proof.
  intros W W' H H' B PY. destruct (cases rep x a W H) as (XL & XU & XN & XP). destruct (cases rep y b W' H') as (YL & YU & YN & YP). rewrite PY in *. clear YL.
  split; intros PX; rewrite PX in *; try specialize (XN eq_refl); try specialize (XP eq_refl).
  - clear XL. destruct XU as [[E K]|(s & p & E & X)], YU as [[E' K']|(s' & q & E' & Y)]; try congruence; div_solve.
  - clear XU. destruct XL as [[E K]|(s & p & E & X)], YU as [[E' K']|(s' & q & E' & Y)]; try congruence; div_solve.
Qed.
(** a / b is between -|a| and |a|. *)
Lemma quot_abs a b : 1 <= b \/ b <= -1 -> (0 <= a -> - a <= a / b <= a) /\ (a <= 0 -> a <= a / b <= - a).
Proof.
  intros H. assert (N : b <> 0) by (destruct H; lra). assert (E : a = a / b * b) by (field; exact N). set (t := a / b) in *. clearbody t. subst a.
  destruct H; split; intros K; split; nra.
Qed.
Lemma quot_pos a b : 1 <= b -> (0 <= a -> a / b <= a) /\ (a <= 0 -> a <= a / b).
Proof. intros H. destruct (quot_abs a b (or_introl H)). split; intros K; intuition lra. Qed.
Lemma quot_neg a b : b <= -1 -> (0 <= a -> - a <= a / b) /\ (a <= 0 -> a / b <= - a).
Proof. intros H. destruct (quot_abs a b (or_intror H)). split; intros K; intuition lra. Qed.

Lemma negate_side dir b t : side dir b t -> side (negb dir) (b_negate (b_set (negb dir) b)) (- t).
Proof.
  intros H. apply side_holds in H. apply side_holds. cbn [b_negate b_set bv]. replace (is_closed (b_negate (b_set (negb dir) b))) with (is_closed b) by (unfold b_negate, b_set, oc, is_closed; cbn; destruct (bf b), dir; reflexivity).
  exact (holds_neg dir _ _ _ H).
Qed.
Lemma negate_bound dir b : bound rep dir b -> bound rep (negb dir) (b_negate (b_set (negb dir) b)).
Proof.
  intros W. assert (G : good_flag (negb dir) (b_negate (b_set (negb dir) b))) by (exact (good_set (negb dir) b)).
  assert (R : forall s q, bv b = Fin s q -> rep q) by (destruct dir; intros s q E; apply (W s q E)).
  unfold bound, lower_bound, upper_bound. destruct dir; intros s q E; cbn in E; (split; [exact G|]); destruct (bv b) as [|i|s' q'] eqn:E'; cbn in E; try discriminate; injection E as _ <-; apply (rep_opp A rep Hd), (R s' q' eq_refl).
Qed.
Lemma mix_hull x a : formed rep x -> hull x a -> pos_of x = Mix -> hull x 0.
Proof.
  intros W H P. destruct (cases rep x a W H) as (XL & XU & _). rewrite P in *. split.
  - destruct XL as [[E _]|(s & p & E & _ & _ & X1 & X2)]; [unfold above; rewrite E; reflexivity|]. apply (side_fin false _ _ _ _ E). cbn. split; [exact X1|]. intros C.
    destruct (Rle_lt_or_eq_dec _ _ X1) as [L|L]; [exact L|]. rewrite (X2 L) in C. discriminate.
  - destruct XU as [[E _]|(s & p & E & _ & _ & X1 & X2)]; [unfold below; rewrite E; reflexivity|]. apply (side_fin true _ _ _ _ E). cbn. split; [exact X1|]. intros C.
    destruct (Rle_lt_or_eq_dec _ _ X1) as [L|L]; [exact L|]. rewrite (X2 (eq_sym L)) in C. discriminate.
Qed.
Lemma hull_mix x : formed rep x -> hull x 0 -> pos_of x = Mix.
Proof. intros W H. destruct (cases rep x 0 W H) as (_ & _ & X & Y). destruct (pos_of x); [specialize (X eq_refl); lra|specialize (Y eq_refl); lra|reflexivity]. Qed.
Lemma rep_num0 : rep (zq 0).
Proof. replace (zq 0) with 0%Qc by (apply Qc_is_canon; reflexivity). apply (rep_zero A rep Hd). Qed.
Lemma has_zero y b : formed rep y -> hull y b -> i_has A y (num 0) = true <-> hull y 0.
Proof.
  intros W H. unfold num. rewrite (has_iff A rep Hd y _ (zq 0) W rep_num0); [|apply (side_nan false _ b), H|apply (side_nan true _ b), H].
  rewrite rv_zq. unfold member. split; [tauto|]. intros K. split; [exact K|]. intros _. exists 0%Z. reflexivity.
Qed.
Lemma pow2_int s q a : is_pow2_inv (Fin s q) = true -> integer a -> integer (a / rv q).
Proof.
  unfold is_pow2_inv. intros H [z ->]. apply Bool.andb_true_iff in H. destruct H as [H _]. apply Z.eqb_eq in H.
  unfold rv, Q2R. destruct (this q) as [n d]. cbn in *. assert (IZR (Z.pos d) <> 0) by (apply not_0_IZR; discriminate).
  assert (K : n = 1%Z \/ n = (-1)%Z) by lia. destruct K as [-> | ->].
  - exists (z * Z.pos d)%Z. rewrite mult_IZR. field. assumption.
  - exists (- (z * Z.pos d))%Z. rewrite opp_IZR, mult_IZR. field. assumption.
Qed.
Lemma div_v_in x a s q : formed rep x -> typed x -> member a x -> rep q -> rv q <> 0 -> member (a / rv q) (i_div_v A x (Fin s q)).
Proof.
  intros W T M R N. pose proof M as [H _]. destruct (hull_flags x a T H) as [GL GU]. pose proof W as [WL WU].
  unfold i_div_v. rewrite (proj2 (vzero_nfin s q) N).
  assert (I : is_int (fl x) && is_pow2_inv (Fin s q) = true -> integer (a / rv q)).
  { intros E. apply Bool.andb_true_iff in E. destruct E as [E1 E2]. apply (pow2_int s q a E2). apply M. destruct (fl x); [discriminate|reflexivity]. }
  unfold vlt, num. cbn [Z.ltb]. destruct H as [H1 H2]. destruct (qlt q (zq 0)) eqn:L; q2r; apply (set_type_in A rep Hd); cbn [lo up]; try exact I; rewrite ?div_v_b; split; cbn [lo up].
  - apply (div_b_bound A rep Hd false); [apply good_set|apply (bound_set_up rep x a W (conj H1 H2))].
  - apply (div_b_bound A rep Hd true); [apply good_set|apply (bound_set_lo rep x a W (conj H1 H2))].
  - apply (div_b_side A rep Hd false). apply below_inv in H2. destruct H2 as [E|(s' & p & E & X)]; unfold div_ok; change (is_closed (b_value (Fin s q))) with true; div_solve.
  - apply (div_b_side A rep Hd true). apply above_inv in H1. destruct H1 as [E|(s' & p & E & X)]; unfold div_ok; change (is_closed (b_value (Fin s q))) with true; div_solve.
  - apply (div_b_bound A rep Hd false); assumption.
  - apply (div_b_bound A rep Hd true); assumption.
  - apply (div_b_side A rep Hd false). apply above_inv in H1. destruct H1 as [E|(s' & p & E & X)]; unfold div_ok; change (is_closed (b_value (Fin s q))) with true; div_solve.
  - apply (div_b_side A rep Hd true). apply below_inv in H2. destruct H2 as [E|(s' & p & E & X)]; unfold div_ok; change (is_closed (b_value (Fin s q))) with true; div_solve.
Qed.
End Arith2.
