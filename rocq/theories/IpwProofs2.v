(** Powers of intervals. *)
From Coq Require Import ZArith QArith Qcanon Qround Reals Qreals Lra Lia Psatz Bool.
From Verif Require Import Bool3Model Ast IvlModel IvlSpec IvlProofs IvlProofs2 IvlProofs3 IvlProofs4 IvlProofs5 IvlProofs6 IpwModel IpwSpec IpwProofs MonoProofs RatRootProofs.
Local Open Scope R_scope.
Set Bullet Behavior "Strict Subproofs".

Lemma full_in r : member r (i_full REAL).
Proof. split; [split; reflexivity|discriminate]. Qed.
Lemma integer_pow a n : integer a -> integer (a ^ n).
Proof. intros H. induction n as [|n IH]; [exists 1%Z; reflexivity|]. cbn. apply integer_mul; assumption. Qed.
Lemma integer_rpow a b r : integer a -> integer b -> 0 <= b -> rpow a b = Some r -> integer r.
Proof.
  intros Ha [z ->] P H. apply le_IZR in P. rewrite <- (Z2Nat.id z P) in H. rewrite <- INR_IZR_INZ in H. unfold rpow in H. rewrite INR_IZR_INZ, as_int_IZR in H.
  assert (r = powerRZ a (Z.of_nat (Z.to_nat z))) as ->. { destruct (Req_EM_T a 0); [destruct (_ <? 0)%Z; congruence|congruence]. }
  rewrite <- pow_powerRZ. apply integer_pow, Ha.
Qed.
(** The lower boundary of an interval with values is not below 0: it is a finite number. *)
Lemma gev_fin x a k : above (lo x) a -> gev x (num k) = true -> exists s q, bv (lo x) = Fin s q /\ IZR k <= rv q /\ rv q <= a /\ (is_closed (lo x) = false -> rv q < a).
Proof.
  intros H G. unfold gev, lv_ge in G. destruct (above_inv _ _ H) as [E|(s & q & E & X & Y)]; [rewrite E in G; discriminate|].
  exists s, q. repeat split; auto. rewrite E in G. cbn in G. apply Bool.negb_true_iff, qlt_false in G. rewrite rv_zq in G. exact G.
Qed.
Lemma gtv_1 x a k : lower_bound (fun _ => True) (lo x) -> above (lo x) a -> gtv x (num k) = true -> exists s q, bv (lo x) = Fin s q /\ IZR k <= rv q /\ (is_closed (lo x) = true -> IZR k < rv q).
Proof.
  intros W H G. unfold gtv, bv_gt in G. destruct (above_inv _ _ H) as [E|(s & q & E & X & Y)]; [rewrite E in G; discriminate|]. exists s, q. rewrite E in G. unfold vgt in G. cbn in G.
  apply Bool.orb_true_iff in G. destruct G as [G|G]; [apply qlt_iff in G; rewrite rv_zq in G; repeat split; auto; lra|].
  apply Bool.andb_true_iff in G. destruct G as [G1 G2]. apply qeq_iff in G1. rewrite rv_zq in G1. repeat split; auto; [lra|]. unfold is_closed. destruct (bf (lo x)); cbn in G2; try discriminate; intros; discriminate.
Qed.
Lemma gtv_0 x k s q : bv (lo x) = Fin s q -> bf (lo x) <> NEG -> gtv x (num k) = false -> rv q <= IZR k /\ (is_closed (lo x) = false -> rv q < IZR k).
Proof.
  intros E F G. unfold gtv, bv_gt, vgt in G. rewrite E in G. cbn in G. apply Bool.orb_false_iff in G. destruct G as [G1 G2]. apply qlt_false in G1. rewrite rv_zq in G1. split; [exact G1|].
  intros C. destruct (Req_dec (rv q) (IZR k)) as [D|D]; [exfalso|destruct G1; [assumption|congruence]]. apply Bool.andb_false_iff in G2. destruct G2 as [G2|G2]; [apply qeq_false in G2; rewrite rv_zq in G2; congruence|].
  unfold is_closed in C. destruct (bf (lo x)); cbn in *; congruence.
Qed.
Lemma ltv_1 x a k : below (up x) a -> ltv x (num k) = true -> exists s q, bv (up x) = Fin s q /\ rv q <= IZR k /\ (is_closed (up x) = true -> rv q < IZR k).
Proof.
  intros H G. unfold ltv, bv_lt in G. destruct (below_inv _ _ H) as [E|(s & q & E & X & Y)]; [rewrite E in G; discriminate|]. exists s, q. rewrite E in G. cbn in G.
  apply Bool.orb_true_iff in G. destruct G as [G|G]; [apply qlt_iff in G; rewrite rv_zq in G; repeat split; auto; lra|].
  apply Bool.andb_true_iff in G. destruct G as [G1 G2]. apply qeq_iff in G1. rewrite rv_zq in G1. repeat split; auto; [lra|]. unfold is_closed. destruct (bf (up x)); cbn in G2; try discriminate; intros; discriminate.
Qed.
Lemma ltv_0 x k s q : bv (up x) = Fin s q -> bf (up x) <> POS -> ltv x (num k) = false -> IZR k <= rv q /\ (is_closed (up x) = false -> IZR k < rv q).
Proof.
  intros E F G. unfold ltv, bv_lt in G. rewrite E in G. cbn in G. apply Bool.orb_false_iff in G. destruct G as [G1 G2]. apply qlt_false in G1. rewrite rv_zq in G1. split; [exact G1|].
  intros C. destruct (Req_dec (rv q) (IZR k)) as [D|D]; [exfalso|destruct G1; [assumption|congruence]]. apply Bool.andb_false_iff in G2. destruct G2 as [G2|G2]; [apply qeq_false in G2; rewrite rv_zq in G2; congruence|].
  unfold is_closed in C. destruct (bf (up x)); cbn in *; congruence.
Qed.

Section Arith.
Variables (A : arith) (rep : Qc -> Prop) (pw : power).
Hypothesis Hd : directed A rep.
Hypothesis Hf : directed_functions A rep.
Hypothesis Hp : directed_power pw rep.

(** 0 is in x, or it is not a value. *)
Lemma no_zero x a : formed rep x -> member a x -> i_has A x (num 0) = false -> a <> 0.
Proof.
  intros W M N Z. subst a. assert (NL : bv (lo x) <> NaN /\ bv (up x) <> NaN).
  { destruct M as [[H1 H2] _]. unfold above in H1. unfold below in H2. split; intros E; [rewrite E in H1|rewrite E in H2]; assumption. }
  assert (K : i_has A x (num 0) = true); [|congruence]. apply (has_iff A rep Hd x false (zq 0)); [exact W|apply (rep_zero A rep Hd)|apply NL|apply NL|]. rewrite rv_zq. exact M.
Qed.
Lemma bounds2 x y l u : typed x -> (exists a, hull x a) -> formed rep x -> l = l_pow A pw (lo x) (lo y) \/ l = l_pow A pw (lo x) (up y) -> u = u_pow A pw (up x) (lo y) \/ u = u_pow A pw (up x) (up y) ->
  forall f, formed rep (mkI l u f).
Proof.
  intros T [a H] [W1 W2] L U f. destruct (hull_flags x a T H) as [G1 G2]. split; cbn [lo up].
  - destruct L as [-> | ->]; [exact (bpow_bound A rep pw Hd Hf Hp false (lo x) (lo y) G1 W1)|exact (bpow_bound A rep pw Hd Hf Hp false (lo x) (up y) G1 W1)].
  - destruct U as [-> | ->]; [exact (bpow_bound A rep pw Hd Hf Hp true (up x) (lo y) G2 W2)|exact (bpow_bound A rep pw Hd Hf Hp true (up x) (up y) G2 W2)].
Qed.
Lemma hull2 x y a b r : formed rep x -> typed x -> hull x a -> hull y b -> gev x (num 0) = true -> gev y (num 0) = true -> pow_of a b r ->
  forall f, formed rep (let '(l', u') := if gtv x (num 1) then (l_pow A pw (lo x) (lo y), u_pow A pw (up x) (up y)) else if ltv x (num 1) then (l_pow A pw (lo x) (up y), u_pow A pw (up x) (lo y)) else (l_pow A pw (lo x) (up y), u_pow A pw (up x) (up y)) in mkI l' u' f) /\
    hull (let '(l', u') := if gtv x (num 1) then (l_pow A pw (lo x) (lo y), u_pow A pw (up x) (up y)) else if ltv x (num 1) then (l_pow A pw (lo x) (up y), u_pow A pw (up x) (lo y)) else (l_pow A pw (lo x) (up y), u_pow A pw (up x) (up y)) in mkI l' u' f) r.
Proof.
  intros W T H H' GX GY P f. pose proof H as [H1 H2]. pose proof H' as [H3 H4]. destruct (hull_flags x a T H) as [GL GU].
  destruct (gev_fin x a 0 H1 GX) as (s & q & E & Q0 & QA & SA). destruct (gev_fin y b 0 H3 GY) as (s' & c & E' & C0 & CB & SB).
  assert (W' := bounds2 x y). destruct (gtv x (num 1)) eqn:G1; [|destruct (ltv x (num 1)) eqn:L1].
  - split; [apply W'; eauto|]. assert (WT : lower_bound (fun _ => True) (lo x)) by (intros t p Et; split; [apply (proj1 W t p Et)|exact Logic.I]).
    destruct (gtv_1 x a 1 WT H1 G1) as (s1 & q1 & E1 & Q1 & Q2). assert (q1 = q) as -> by congruence.
    assert (PA : 1 < a) by (destruct (is_closed (lo x)); [specialize (Q2 eq_refl); lra|specialize (SA eq_refl); lra]).
    split; cbn [lo up].
    + apply (low_large A rep pw Hd Hf Hp (lo x) (lo y) s q s' c a b); auto.
    + apply (up_large A rep pw Hd Hf Hp (up x) (up y) a b); auto; [|lra]. intros s2 q2 E2. destruct (below_inv _ _ H2) as [K|(s3 & q3 & K & X & Y)]; [congruence|]. assert (q3 = q2) as -> by congruence. split; [lra|intros _; lra].
  - split; [apply W'; eauto|]. destruct (ltv_1 x a 1 H2 L1) as (s2 & q2 & E2 & Q2 & S2).
    destruct (below_inv _ _ H2) as [K|(s3 & q3 & K & X & Y)]; [congruence|]. assert (q3 = q2) as -> by congruence.
    assert (PA : a < 1) by (destruct (is_closed (up x)); [specialize (S2 eq_refl); lra|specialize (Y eq_refl); lra]).
    split; cbn [lo up].
    + apply (low_small A rep pw Hd Hf Hp (lo x) (up y) s q a b); auto; lra.
    + apply (up_small A rep pw Hd Hf Hp (up x) (lo y) s2 q2 s' c a b); auto; lra.
  - split; [apply W'; eauto|]. destruct (gtv_0 x 1 s q E GL G1) as [K1 K2]. split; cbn [lo up].
    + apply (low_small A rep pw Hd Hf Hp (lo x) (up y) s q a b); auto; lra.
    + apply (up_large A rep pw Hd Hf Hp (up x) (up y) a b); auto; [|lra]. intros s2 q2 E2. apply (ltv_0 x 1 s2 q2 E2 GU L1).
Qed.

Lemma pow_range x y a b r : formed rep x -> formed rep y -> typed x -> is_one_point y = false -> member a x -> member b y -> rpow a b = Some r -> member r (i_pow A pw x y).
Proof.
  intros W W' T N M M' E. unfold i_pow. rewrite N. destruct (i_has A x (num 0) && negb (gtv y (num 0))) eqn:Z; [apply full_in|].
  destruct (gev x (num 0)) eqn:GX; cbn [negb]; [|apply full_in]. destruct (gev y (num 0)) eqn:GY; cbn [negb]; [|apply full_in].
  pose proof M as [H I]. pose proof M' as [H' I']. destruct (gev_fin x a 0 (proj1 H) GX) as (s & q & E1 & Q0 & QA & SA). destruct (gev_fin y b 0 (proj1 H') GY) as (s' & c & E2 & C0 & CB & SB).
  assert (POS : 0 < a \/ 0 < b).
  { apply Bool.andb_false_iff in Z. destruct Z as [Z|Z]; [left; pose proof (no_zero x a W M Z) as K; destruct (Rdichotomy _ _ K); lra|right]. apply Bool.negb_false_iff in Z.
    assert (WT : lower_bound (fun _ => True) (lo y)) by (intros t p Et; split; [apply (proj1 W' t p Et)|exact Logic.I]).
    destruct (gtv_1 y b 0 WT (proj1 H') Z) as (s1 & q1 & E3 & Q1 & Q2). assert (q1 = c) as -> by congruence. destruct (is_closed (lo y)); [specialize (Q2 eq_refl); lra|specialize (SB eq_refl); lra]. }
  assert (PO : pow_of a b r) by (apply rpow_pow_of; [lra|exact POS|exact E]).
  destruct (hull2 x y a b r W T H H' GX GY PO (fl x)) as [W2 H2]. rewrite Bool.andb_true_r.
  set (res := mkI) in *. clearbody res.
  assert (J : is_int (fl x) && is_int (fl y) = true -> integer r).
  { intros J. apply Bool.andb_true_iff in J. destruct J as [J1 J2]. apply (integer_rpow a b r); auto; [apply I; destruct (fl x); [discriminate|reflexivity]|apply I'; destruct (fl y); [discriminate|reflexivity]|lra]. }
  destruct (gtv x (num 1)); [|destruct (ltv x (num 1))]; apply (set_type_in A rep Hd); assumption.
Qed.
End Arith.
