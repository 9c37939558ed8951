(** Boundaries and members; predicates and set operations. *)
From Coq Require Import ZArith QArith Qcanon Qround Reals Qreals Lra Lia Bool.
From Verif Require Import Bool3Model Ast IvlModel IvlSpec.
Local Open Scope R_scope.

Lemma qlt_iff p q : qlt p q = true <-> rv p < rv q.
Proof.
  unfold qlt. rewrite rv_lt. unfold Qclt, Qccompare. rewrite Qlt_alt. destruct (this p ?= this q)%Q; split; congruence.
Qed.
Lemma qeq_iff p q : qeq p q = true <-> rv p = rv q.
Proof.
  unfold qeq, Qccompare. split.
  - destruct (this p ?= this q)%Q eqn:E; try congruence. intros _. apply Qeq_alt in E. apply Qeq_eqR in E. exact E.
  - intros H. apply rv_inj in H. subst q. rewrite (proj1 (Qeq_alt (this p) (this p)) (Qeq_refl _)). reflexivity.
Qed.
Lemma qlt_false p q : qlt p q = false <-> rv q <= rv p.
Proof. rewrite <- Bool.not_true_iff_false, qlt_iff. split; lra. Qed.
Lemma qeq_false p q : qeq p q = false <-> rv p <> rv q.
Proof. rewrite <- Bool.not_true_iff_false, qeq_iff. split; lra. Qed.

Ltac rv_norm :=
  repeat match goal with
  | H : context [rv (zq _)] |- _ => rewrite rv_zq in H
  | H : context [rv (Qcopp _)] |- _ => rewrite rv_opp in H
  | H : context [rv (Qcplus _ _)] |- _ => rewrite rv_add in H
  | H : context [rv (Qcminus _ _)] |- _ => rewrite rv_sub in H
  | H : context [rv (Qcmult _ _)] |- _ => rewrite rv_mul in H
  | H : context [rv (Q2Qc 0)] |- _ => rewrite rv_0 in H
  | H : context [rv (Q2Qc 1)] |- _ => rewrite rv_1 in H
  | |- context [rv (zq _)] => rewrite rv_zq
  | |- context [rv (Qcopp _)] => rewrite rv_opp
  | |- context [rv (Qcplus _ _)] => rewrite rv_add
  | |- context [rv (Qcminus _ _)] => rewrite rv_sub
  | |- context [rv (Qcmult _ _)] => rewrite rv_mul
  | |- context [rv (Q2Qc 0)] => rewrite rv_0
  | |- context [rv (Q2Qc 1)] => rewrite rv_1
  end.
(** Turns the boolean comparisons of numbers in the hypotheses into facts about reals. *)
Ltac q2r :=
  repeat match goal with
  | H : qlt _ _ = true |- _ => apply qlt_iff in H
  | H : qlt _ _ = false |- _ => apply qlt_false in H
  | H : qeq _ _ = true |- _ => apply qeq_iff in H
  | H : qeq _ _ = false |- _ => apply qeq_false in H
  end;
  rv_norm.
(** Splits on every comparison that is left. *)
Ltac qsplit := q2r;
  repeat match goal with
  | H : context [qlt ?p ?q] |- _ => let E := fresh "Q" in destruct (qlt p q) eqn:E; [apply qlt_iff in E|apply qlt_false in E]
  | H : context [qeq ?p ?q] |- _ => let E := fresh "Q" in destruct (qeq p q) eqn:E; [apply qeq_iff in E|apply qeq_false in E]
  | |- context [qlt ?p ?q] => let E := fresh "Q" in destruct (qlt p q) eqn:E; [apply qlt_iff in E|apply qlt_false in E]
  | |- context [qeq ?p ?q] => let E := fresh "Q" in destruct (qeq p q) eqn:E; [apply qeq_iff in E|apply qeq_false in E]
  end.

Lemma floor_r q : exists z, qfloor q = zq z /\ IZR z <= rv q < IZR z + 1.
Proof.
  exists (Qfloor (this q)). split; [reflexivity|].
  pose proof (Qle_Rle _ _ (Qfloor_le (this q))) as H1. pose proof (Qlt_Rlt _ _ (Qlt_floor (this q))) as H2.
  unfold rv. assert (E : forall z, Q2R (inject_Z z) = IZR z) by (intros z; unfold Q2R, inject_Z; cbn; lra).
  rewrite E in H1, H2. rewrite plus_IZR in H2. split; assumption.
Qed.
Lemma ceil_r q : exists z, qceil q = zq z /\ IZR z - 1 < rv q <= IZR z.
Proof.
  exists (Qceiling (this q)). split; [reflexivity|].
  pose proof (Qle_Rle _ _ (Qle_ceiling (this q))) as H1. pose proof (Qlt_Rlt _ _ (Qceiling_lt (this q))) as H2.
  unfold rv. assert (E : forall z, Q2R (inject_Z z) = IZR z) by (intros z; unfold Q2R, inject_Z; cbn; lra).
  rewrite E in H1, H2. rewrite minus_IZR in H2. split; assumption.
Qed.
Lemma lt_step z w : IZR z < IZR w -> IZR z + 1 <= IZR w.
Proof. intros H. apply lt_IZR in H. rewrite <- plus_IZR. apply IZR_le. lia. Qed.
Lemma le_step z w : IZR z < IZR w + 1 -> IZR z <= IZR w.
Proof. rewrite <- plus_IZR. intros H. apply lt_IZR in H. apply IZR_le. lia. Qed.

(** * Boundaries *)
Lemma above_gt rep l1 l2 r : lower_bound rep l1 -> lower_bound rep l2 -> b_gt l1 l2 = true -> above l1 r -> above l2 r.
Proof.
  destruct l1 as [v1 f1], l2 as [v2 f2]. unfold lower_bound, b_gt, vgt, above. cbn [bv bf]. intros W1 W2.
  destruct v1 as [|s1|s1 p1]; [tauto| |].
  - intros H ->. destruct v2 as [|s2|s2 p2]; cbn in H; try discriminate. destruct s2; [reflexivity|discriminate].
  - destruct (W1 _ _ eq_refl) as [N1 _]. destruct v2 as [|s2|s2 p2]; cbn; try discriminate.
    + destruct s2; [reflexivity|discriminate].
    + destruct (W2 _ _ eq_refl) as [N2 _]. intros H G. destruct (qlt p2 p1) eqn:L; q2r.
      * destruct f1, f2; try congruence; lra.
      * cbn in H. destruct (qeq p1 p2) eqn:E; [|discriminate]. q2r. destruct f1, f2; try congruence; cbn in H; try discriminate; lra.
Qed.
Lemma above_ngt rep l1 l2 r : lower_bound rep l1 -> lower_bound rep l2 -> bv l1 <> NaN -> b_gt l1 l2 = false -> above l2 r -> above l1 r.
Proof.
  destruct l1 as [v1 f1], l2 as [v2 f2]. unfold lower_bound, b_gt, vgt, above. cbn [bv bf]. intros W1 W2 N.
  destruct v2 as [|s2|s2 p2]; [tauto| |].
  - intros H ->. destruct v1 as [|s1|s1 p1]; cbn in H; try discriminate; try congruence. destruct s1; [reflexivity|discriminate].
  - destruct (W2 _ _ eq_refl) as [N2 _]. destruct v1 as [|s1|s1 p1]; cbn; try discriminate; try congruence.
    + destruct s1; [reflexivity|discriminate].
    + destruct (W1 _ _ eq_refl) as [N1 _]. intros H G. destruct (qlt p2 p1) eqn:L; [discriminate|q2r].
      destruct (qeq p1 p2) eqn:E; q2r; destruct f1, f2; try congruence; cbn in H; try discriminate; lra.
Qed.
Lemma below_lt rep u1 u2 r : upper_bound rep u1 -> upper_bound rep u2 -> b_lt u1 u2 = true -> below u1 r -> below u2 r.
Proof.
  destruct u1 as [v1 f1], u2 as [v2 f2]. unfold upper_bound, b_lt, below. cbn [bv bf]. intros W1 W2.
  destruct v1 as [|s1|s1 p1]; [tauto| |].
  - intros H ->. destruct v2 as [|s2|s2 p2]; cbn in H; try discriminate. destruct s2; [discriminate|reflexivity].
  - destruct (W1 _ _ eq_refl) as [N1 _]. destruct v2 as [|s2|s2 p2]; cbn; try discriminate.
    + destruct s2; [discriminate|reflexivity].
    + destruct (W2 _ _ eq_refl) as [N2 _]. intros H G. destruct (qlt p1 p2) eqn:L; q2r.
      * destruct f1, f2; try congruence; lra.
      * cbn in H. destruct (qeq p1 p2) eqn:E; [|discriminate]. q2r. destruct f1, f2; try congruence; cbn in H; try discriminate; lra.
Qed.
Lemma below_nlt rep u1 u2 r : upper_bound rep u1 -> upper_bound rep u2 -> bv u1 <> NaN -> b_lt u1 u2 = false -> below u2 r -> below u1 r.
Proof.
  destruct u1 as [v1 f1], u2 as [v2 f2]. unfold upper_bound, b_lt, below. cbn [bv bf]. intros W1 W2 N.
  destruct v2 as [|s2|s2 p2]; [tauto| |].
  - intros H ->. destruct v1 as [|s1|s1 p1]; cbn in H; try discriminate; try congruence. destruct s1; [discriminate|reflexivity].
  - destruct (W2 _ _ eq_refl) as [N2 _]. destruct v1 as [|s1|s1 p1]; cbn; try discriminate; try congruence.
    + destruct s1; [discriminate|reflexivity].
    + destruct (W1 _ _ eq_refl) as [N1 _]. intros H G. destruct (qlt p1 p2) eqn:L; [discriminate|q2r].
      destruct (qeq p1 p2) eqn:E; q2r; destruct f1, f2; try congruence; cbn in H; try discriminate; lra.
Qed.
(** An interval with a member is not empty. *)
Lemma hull_ne rep l u r : lower_bound rep l -> upper_bound rep u -> above l r -> below u r -> b_gt l u = false.
Proof.
  destruct l as [v1 f1], u as [v2 f2]. unfold lower_bound, upper_bound, b_gt, vgt, above, below. cbn [bv bf]. intros W1 W2.
  destruct v1 as [|s1|s1 p1]; [tauto| |].
  - intros -> H. destruct v2 as [|s2|s2 p2]; [tauto|subst s2; reflexivity|reflexivity].
  - destruct (W1 _ _ eq_refl) as [N1 _]. intros H1. destruct v2 as [|s2|s2 p2]; [tauto|intros ->; reflexivity|].
    destruct (W2 _ _ eq_refl) as [N2 _]. intros H2. cbn. destruct (qlt p2 p1) eqn:L; q2r.
    + destruct f1, f2; try congruence; lra.
    + destruct (qeq p1 p2) eqn:E; [|reflexivity]. q2r. destruct f1, f2; try congruence; cbn; try reflexivity; lra.
Qed.
(** If the boundaries are neither infinite on the wrong side nor NaN, the converse holds. *)
Lemma ne_hull rep l u : lower_bound rep l -> upper_bound rep u -> (bv l <> Inf false /\ bv l <> NaN) -> (bv u <> Inf true /\ bv u <> NaN) ->
  b_gt l u = false -> exists r, above l r /\ below u r.
Proof.
  destruct l as [v1 f1], u as [v2 f2]. unfold lower_bound, upper_bound, b_gt, vgt, above, below. cbn [bv bf]. intros W1 W2 [A1 A2] [B1 B2] H.
  destruct v1 as [|s1|s1 p1]; [congruence| |].
  - destruct s1; [|congruence]. destruct v2 as [|s2|s2 p2]; [congruence| |].
    + destruct s2; [congruence|]. exists 0. tauto.
    + exists (rv p2 - 1). split; [reflexivity|]. destruct f2; lra.
  - destruct (W1 _ _ eq_refl) as [N1 _]. destruct v2 as [|s2|s2 p2]; [congruence| |].
    + destruct s2; [congruence|]. exists (rv p1 + 1). split; [destruct f1; lra|reflexivity].
    + destruct (W2 _ _ eq_refl) as [N2 _]. cbn in H. destruct (qlt p2 p1) eqn:L; [discriminate|]. cbn in H. q2r.
      exists ((rv p1 + rv p2) / 2). destruct (qeq p1 p2) eqn:E; q2r; destruct f1, f2; try congruence; cbn in H; try discriminate; lra.
Qed.
Lemma empty_no_hull r : ~ hull i_empty r.
Proof. intros [H _]. cbn in H. discriminate. Qed.

(** * Integers *)
Section Arith.
Variables (A : arith) (rep : Qc -> Prop).
Hypothesis Hd : directed A rep.

Lemma big_iff s q : big A (Fin s q) = true <-> rv q < - rv (fract A) \/ rv (fract A) < rv q.
Proof. unfold big, vgt. cbn. rewrite Bool.orb_true_iff, !qlt_iff, rv_opp. tauto. Qed.
Lemma in_fract_iff s q : in_fract A (Fin s q) = negb (big A (Fin s q)).
Proof.
  unfold in_fract, big, vle, vgt. cbn. qsplit; q2r; cbn; try reflexivity; lra.
Qed.
Lemma is_integer_iff s q : rep q -> is_integer A (Fin s q) = true <-> integer (rv q).
Proof.
  intros W. unfold is_integer. cbn [veq negb andb]. rewrite Bool.orb_true_iff. split.
  - intros [H|H].
    + apply big_iff in H. apply (big_integer A rep Hd q W H).
    + cbn in H. q2r. destruct (floor_r q) as (z & Ez & _). exists z. rewrite H, Ez, rv_zq. reflexivity.
  - intros [z Hz]. right. cbn. rewrite qeq_iff. destruct (floor_r q) as (w & Ew & H). rewrite Ew, rv_zq. rewrite Hz in *.
    apply Rle_antisym; [|apply H]. apply le_step, H.
Qed.
Lemma above_ceil b r : lower_bound rep b -> integer r -> above (l_ceil A b) r <-> above b r.
Proof.
  intros W [z ->]. unfold l_ceil. destruct b as [v f]. unfold lower_bound in W. cbn [bv bf] in *. unfold is_min, is_closed. cbn [bv bf].
  destruct v as [|s|s q]; [reflexivity|cbn; destruct s; cbn; reflexivity|]. cbn [veq negb andb]. rewrite in_fract_iff.
  destruct (big A (Fin s q)); cbn [negb]; [reflexivity|]. destruct (W _ _ eq_refl) as [N _].
  destruct (ceil_r q) as (c & Ec & Hc). destruct (floor_r q) as (g & Eg & Hg).
  destruct f; unfold above; cbn [bv bf vceil vfloor vplus]; [congruence| |]; rewrite ?Ec, ?Eg, ?rv_add, !rv_zq.
  - split; [lra|]. intros H. apply le_step. lra.
  - split; [lra|]. intros H. apply lt_step. lra.
Qed.
Lemma below_floor b r : upper_bound rep b -> integer r -> below (u_floor A b) r <-> below b r.
Proof.
  intros W [z ->]. unfold u_floor. destruct b as [v f]. unfold upper_bound in W. cbn [bv bf] in *. unfold is_max, is_closed. cbn [bv bf].
  destruct v as [|s|s q]; [reflexivity|cbn; destruct s; cbn; reflexivity|]. cbn [veq negb andb]. rewrite in_fract_iff.
  destruct (big A (Fin s q)); cbn [negb]; [reflexivity|]. destruct (W _ _ eq_refl) as [N _].
  destruct (ceil_r q) as (c & Ec & Hc). destruct (floor_r q) as (g & Eg & Hg).
  destruct f; unfold below; cbn [bv bf vceil vfloor vplus]; [ | |congruence]; rewrite ?Ec, ?Eg, ?rv_add, !rv_zq.
  - split; [lra|]. intros H. assert (IZR z + 1 <= IZR c); [|lra]. apply lt_step. lra.
  - split; [lra|]. intros H. apply le_step. lra.
Qed.
Lemma lower_ceil b : lower_bound rep b -> lower_bound (fun _ => True) (l_ceil A b).
Proof.
  intros W s q. unfold l_ceil. destruct (negb (is_min b) && in_fract A (bv b)).
  - unfold is_closed. destruct (bf b) eqn:F; cbn; intros E; try (split; [discriminate|exact Logic.I]). 
  - intros E. destruct (W _ _ E). tauto.
Qed.
Lemma upper_floor b : upper_bound rep b -> upper_bound (fun _ => True) (u_floor A b).
Proof.
  intros W s q. unfold u_floor. destruct (negb (is_max b) && in_fract A (bv b)).
  - unfold is_closed. destruct (bf b) eqn:F; cbn; intros E; try (split; [discriminate|exact Logic.I]). 
  - intros E. destruct (W _ _ E). tauto.
Qed.
Lemma set_integer_iff x r : formed rep x -> member r (set_integer A x) <-> hull x r /\ integer r.
Proof.
  intros [WL WU]. unfold set_integer.
  pose proof (lower_ceil _ WL) as WL'. pose proof (upper_floor _ WU) as WU'.
  destruct (b_gt (l_ceil A (lo x)) (u_floor A (up x))) eqn:G.
  - split; [intros [H _]; destruct (empty_no_hull _ H)|]. intros [[H1 H2] I].
    assert (X : b_gt (l_ceil A (lo x)) (u_floor A (up x)) = false).
    { apply (hull_ne _ _ _ r WL' WU'); [apply above_ceil|apply below_floor]; assumption. }
    congruence.
  - unfold member, hull. cbn [lo up fl]. split.
    + intros [[H1 H2] I]. specialize (I eq_refl). rewrite above_ceil in H1 by assumption. rewrite below_floor in H2 by assumption. tauto.
    + intros [[H1 H2] I]. rewrite above_ceil, below_floor by assumption. tauto.
Qed.
Lemma one_point_val x r : is_one_point x = true -> hull x r -> exists s q, bv (lo x) = Fin s q /\ r = rv q.
Proof.
  destruct x as [[v f] [w g] t]. unfold is_one_point, b_eq, hull, above, below. cbn [lo up bv bf].
  rewrite Bool.andb_true_iff. intros [E F] [H1 H2]. destruct v as [|s|s q]; [tauto| |].
  - destruct w; cbn in E; try discriminate. apply Bool.eqb_prop in E. congruence.
  - destruct w as [|t0|t0 q0]; cbn in E; try discriminate. q2r. exists s, q. split; [reflexivity|]. destruct f, g; lra.
Qed.
Lemma set_maybe_real_iff x r : formed rep x -> member r (set_maybe_real A x) <-> hull x r.
Proof.
  intros [WL WU]. unfold member, set_maybe_real. unfold hull at 1. cbn [lo up fl]. fold (hull x r). split; [tauto|]. intros H. split; [exact H|].
  destruct (is_one_point x) eqn:P; cbn [andb]; [|discriminate]. destruct (one_point_val _ _ P H) as (s & q & E & ->).
  rewrite E. destruct (is_integer A (Fin s q)) eqn:I; [|discriminate]. intros _. apply (is_integer_iff s q); [|exact I]. apply (WL _ _ E).
Qed.
Lemma set_type_in (b : bool) x r : formed rep x -> hull x r -> (b = true -> integer r) -> member r (set_type A b x).
Proof.
  intros W H I. destruct b; cbn; [apply set_integer_iff|apply set_maybe_real_iff]; auto.
Qed.

(** * Membership, emptiness, intersection, join *)
Lemma has_iff x s q : formed rep x -> rep q -> bv (lo x) <> NaN -> bv (up x) <> NaN -> i_has A x (Fin s q) = true <-> member (rv q) x.
Proof.
  intros [WL WU] Wq NL NU. unfold i_has, member, hull. rewrite !Bool.andb_true_iff, Bool.orb_true_iff, is_integer_iff by exact Wq.
  assert (E1 : bv_le (lo x) (Fin s q) = true <-> above (lo x) (rv q)).
  { destruct (lo x) as [v f]. unfold lower_bound in WL. unfold bv_le, bv_gt, vgt, above. cbn [bv bf] in *. destruct v as [|t|t p]; [congruence| |].
    - destruct t; cbn; split; congruence.
    - destruct (WL _ _ eq_refl) as [N _]. cbn. qsplit; q2r; destruct f; cbn; split; intros; try congruence; try lra; try reflexivity. }
  assert (E2 : bv_ge (up x) (Fin s q) = true <-> below (up x) (rv q)).
  { destruct (up x) as [v f]. unfold upper_bound in WU. unfold bv_ge, bv_lt, below. cbn [bv bf] in *. destruct v as [|t|t p]; [congruence| |].
    - destruct t; cbn; split; congruence.
    - destruct (WU _ _ eq_refl) as [N _]. cbn. qsplit; q2r; destruct f; cbn; split; intros; try congruence; try lra; try reflexivity. }
  rewrite E1, E2. destruct (fl x); cbn [is_int negb]; [intuition congruence|].
  split; [intros [H [H1|H1]]; [discriminate|tauto]|intros [H H1]; split; [exact H|right; apply H1; reflexivity]].
Qed.
Lemma normal_nan x : normal x -> bv (lo x) <> NaN /\ bv (up x) <> NaN.
Proof.
  intros [[-> ->]|[[r [H1 H2]] _]]; [split; discriminate|]. unfold above, below in *. split; intros E; rewrite E in *; tauto.
Qed.
Lemma normal_proper x r : hull x r -> (bv (lo x) <> Inf false /\ bv (lo x) <> NaN) /\ (bv (up x) <> Inf true /\ bv (up x) <> NaN).
Proof. intros [H1 H2]. unfold above, below in *. repeat split; intros E; rewrite E in *; try discriminate; tauto. Qed.

Lemma empty_iff x : formed rep x -> normal x -> is_empty x = true <-> no_member x.
Proof.
  intros [WL WU] N. unfold is_empty, no_member. split.
  - intros E r [[H1 H2] _]. rewrite (hull_ne _ _ _ r WL WU H1 H2) in E. discriminate.
  - intros H. destruct (b_gt (lo x) (up x)) eqn:G; [reflexivity|]. exfalso. destruct N as [[E1 E2]|[[r Hr] [L [U I]]]].
    + unfold b_gt, vgt in G. rewrite E1, E2 in G. discriminate.
    + destruct (fl x) eqn:F.
      * apply (H r). split; [exact Hr|congruence].
      * destruct (I eq_refl) as [IL IU]. destruct Hr as [H1 H2].
        destruct (lo x) as [vl f1] eqn:El. destruct (up x) as [vu f2] eqn:Eu. unfold above, below in *. unfold integral in *. cbn [bv bf] in *.
        assert (K : exists z, above (lo x) (IZR z) /\ below (up x) (IZR z)).
        { rewrite El, Eu. unfold above, below. cbn [bv bf]. destruct vl as [|s|s q]; [tauto| |].
          - destruct vu as [|t|t p]; [tauto|exists 0%Z; tauto|]. destruct (IU _ _ eq_refl) as [-> [z ->]]. exists z. rewrite rv_zq. split; [exact H1|lra].
          - destruct (IL _ _ eq_refl) as [-> [z ->]]. exists z. rewrite rv_zq in *. split; [lra|].
            destruct vu as [|t|t p]; [tauto|tauto|]. destruct (IU _ _ eq_refl) as [-> [w ->]]. rewrite rv_zq in *. lra. }
        destruct K as [z [K1 K2]]. apply (H (IZR z)). split; [split; assumption|]. intros _. exists z. reflexivity.
Qed.
Lemma and_bounds x y r : formed rep x -> formed rep y -> normal x -> normal y ->
  (above (if b_gt (lo y) (lo x) then lo y else lo x) r <-> above (lo x) r /\ above (lo y) r) /\
  (below (if b_lt (up y) (up x) then up y else up x) r <-> below (up x) r /\ below (up y) r) /\
  lower_bound rep (if b_gt (lo y) (lo x) then lo y else lo x) /\ upper_bound rep (if b_lt (up y) (up x) then up y else up x).
Proof.
  intros [WL WU] [WL' WU'] N N'. destruct (normal_nan _ N) as [N1 N2]. destruct (normal_nan _ N') as [N1' N2'].
  assert (K1 : (above (if b_gt (lo y) (lo x) then lo y else lo x) r <-> above (lo x) r /\ above (lo y) r) /\ lower_bound rep (if b_gt (lo y) (lo x) then lo y else lo x)).
  { destruct (b_gt (lo y) (lo x)) eqn:E; (split; [|assumption]); (split; [|tauto]); intros H; (split; try exact H).
    - exact (above_gt rep _ _ _ WL' WL E H).
    - exact (above_ngt rep _ _ _ WL' WL N1' E H). }
  assert (K2 : (below (if b_lt (up y) (up x) then up y else up x) r <-> below (up x) r /\ below (up y) r) /\ upper_bound rep (if b_lt (up y) (up x) then up y else up x)).
  { destruct (b_lt (up y) (up x)) eqn:E; (split; [|assumption]); (split; [|tauto]); intros H; (split; try exact H).
    - exact (below_lt rep _ _ _ WU' WU E H).
    - exact (below_nlt rep _ _ _ WU' WU N2' E H). }
  tauto.
Qed.
Lemma and_iff x y r : formed rep x -> formed rep y -> normal x -> normal y -> member r (i_and A x y) <-> member r x /\ member r y.
Proof.
  intros W W' N N'. destruct (and_bounds x y r W W' N N') as (HL & HU & BL & BU). unfold i_and.
  set (l := if b_gt (lo y) (lo x) then lo y else lo x) in *. set (u := if b_lt (up y) (up x) then up y else up x) in *. clearbody l u.
  unfold member, hull. destruct (fl x) eqn:F, (fl y) eqn:F'.
  - destruct (b_gt l u) eqn:G.
    + split; [intros [[H _] _]; discriminate|]. intros [[[A1 A2] _] [[B1 B2] _]].
      assert (X : b_gt l u = false) by (apply (hull_ne rep l u r BL BU); tauto). congruence.
    + pose proof (set_maybe_real_iff (mkI l u REAL) r (conj BL BU)) as E. unfold member, hull in E. cbn [lo up] in E. rewrite E, HL, HU.
      intuition congruence.
  - pose proof (set_integer_iff (mkI l u REAL) r (conj BL BU)) as E. unfold member, hull in E. cbn [lo up] in E. rewrite E, HL, HU.
    intuition congruence.
  - pose proof (set_integer_iff (mkI l u INTEGER) r (conj BL BU)) as E. unfold member, hull in E. cbn [lo up] in E. rewrite E, HL, HU.
    intuition congruence.
  - pose proof (set_integer_iff (mkI l u INTEGER) r (conj BL BU)) as E. unfold member, hull in E. cbn [lo up] in E. rewrite E, HL, HU.
    intuition congruence.
Qed.
Lemma b_lt_gt x y : b_lt x y = b_gt y x.
Proof.
  unfold b_lt, b_gt, vgt. f_equal. destruct (bv x) as [|s|s q], (bv y) as [|t|t p]; cbn; try reflexivity.
  - destruct (bf x), (bf y), s, t; reflexivity.
  - destruct (qeq q p) eqn:E1, (qeq p q) eqn:E2; q2r; try lra; destruct (bf x), (bf y); reflexivity.
Qed.
(** The join of two intervals with members. *)
Lemma or_bounds x y r : formed rep x -> formed rep y -> (exists a, hull x a) -> (exists b, hull y b) ->
  (above (lo (i_or x y)) r <-> above (lo x) r \/ above (lo y) r) /\ (below (up (i_or x y)) r <-> below (up x) r \/ below (up y) r).
Proof.
  intros [WL WU] [WL' WU'] [a Ha] [b Hb]. destruct (normal_proper _ _ Ha) as [[_ N1] [_ N2]]. destruct (normal_proper _ _ Hb) as [[_ N1'] [_ N2']].
  unfold i_or. cbn [lo up]. split.
  - rewrite b_lt_gt. destruct (b_gt (lo x) (lo y)) eqn:E.
    + split; [tauto|]. intros [H|H]; [exact (above_gt rep _ _ _ WL WL' E H)|exact H].
    + split; [tauto|]. intros [H|H]; [exact H|exact (above_ngt rep _ _ _ WL WL' N1 E H)].
  - rewrite <- b_lt_gt. destruct (b_lt (up x) (up y)) eqn:E.
    + split; [tauto|]. intros [H|H]; [exact (below_lt rep _ _ _ WU WU' E H)|exact H].
    + split; [tauto|]. intros [H|H]; [exact H|exact (below_nlt rep _ _ _ WU WU' N2 E H)].
Qed.
Lemma above_up b r r' : above b r -> r <= r' -> above b r'.
Proof. unfold above. destruct (bv b); try tauto. destruct (bf b); lra. Qed.
Lemma below_down b r r' : below b r -> r' <= r -> below b r'.
Proof. unfold below. destruct (bv b); try tauto. destruct (bf b); lra. Qed.
(** An interval reaches down, and up, to its boundaries. *)
Lemma low_member x r : normal x -> (exists a, member a x) -> above (lo x) r -> exists a, member a x /\ a <= r.
Proof.
  intros N [m Hm] H. destruct (Rle_dec m r) as [L|L]; [exists m; tauto|]. apply Rnot_le_lt in L.
  destruct Hm as [[M1 M2] MI]. destruct N as [[E _]|[_ [_ [_ I]]]]; [unfold above in M1; rewrite E in M1; discriminate|].
  destruct (fl x) eqn:F.
  - exists r. split; [|lra]. split; [|congruence]. split; [exact H|]. apply (below_down _ m); [exact M2|lra].
  - destruct (I eq_refl) as [IL _]. destruct (bv (lo x)) as [|s|s q] eqn:E.
    + unfold above in H. rewrite E in H. tauto.
    + exists (IZR (Int_part r)). destruct (base_Int_part r) as [B1 B2]. split; [|exact B1]. split; [|intros _; eexists; reflexivity].
      split; [unfold above in *; rewrite E in *; exact H|]. apply (below_down _ m); [exact M2|lra].
    + destruct (IL _ _ E) as [Fz [z ->]]. unfold above in H. rewrite E, Fz, rv_zq in H. exists (IZR z). split; [|exact H]. split; [|intros _; eexists; reflexivity].
      split; [unfold above; rewrite E, Fz, rv_zq; lra|]. apply (below_down _ m); [exact M2|lra].
Qed.
Lemma high_member x r : normal x -> (exists a, member a x) -> below (up x) r -> exists a, member a x /\ r <= a.
Proof.
  intros N [m Hm] H. destruct (Rle_dec r m) as [L|L]; [exists m; tauto|]. apply Rnot_le_lt in L.
  destruct Hm as [[M1 M2] MI]. destruct N as [[_ E]|[_ [_ [_ I]]]]; [unfold below in M2; rewrite E in M2; discriminate|].
  destruct (fl x) eqn:F.
  - exists r. split; [|lra]. split; [|congruence]. split; [|exact H]. apply (above_up _ m); [exact M1|lra].
  - destruct (I eq_refl) as [_ IU]. destruct (bv (up x)) as [|s|s q] eqn:E.
    + unfold below in H. rewrite E in H. tauto.
    + exists (IZR (Int_part r + 1)). destruct (base_Int_part r) as [B1 B2]. rewrite plus_IZR. split; [|lra]. split; [|intros _; exists (Int_part r + 1)%Z; rewrite plus_IZR; reflexivity].
      split; [apply (above_up _ m); [exact M1|lra]|unfold below in *; rewrite E in *; exact H].
    + destruct (IU _ _ E) as [Fz [z ->]]. unfold below in H. rewrite E, Fz, rv_zq in H. exists (IZR z). split; [|exact H]. split; [|intros _; eexists; reflexivity].
      split; [apply (above_up _ m); [exact M1|lra]|unfold below; rewrite E, Fz, rv_zq; lra].
Qed.
Lemma or_iff x y r : formed rep x -> formed rep y -> normal x -> normal y -> (exists a, member a x) -> (exists b, member b y) ->
  member r (i_or x y) <-> (exists a, (member a x \/ member a y) /\ a <= r) /\ (exists b, (member b x \/ member b y) /\ r <= b) /\ (fl x = INTEGER -> fl y = INTEGER -> integer r).
Proof.
  intros W W' N N' [a Ha] [b Hb]. destruct (or_bounds x y r W W' (ex_intro _ a (proj1 Ha)) (ex_intro _ b (proj1 Hb))) as [HL HU].
  unfold member at 1, hull. rewrite HL, HU.
  assert (EF : (fl (i_or x y) = INTEGER -> integer r) <-> (fl x = INTEGER -> fl y = INTEGER -> integer r)) by (unfold i_or; cbn; destruct (fl x), (fl y); intuition congruence).
  rewrite EF. split.
  - intros [[[H1|H1] [H2|H2]] H3]; (split; [|split; [|exact H3]]);
         match goal with
         | H : above (lo x) r |- exists _, _ /\ _ <= r => destruct (low_member x r N (ex_intro _ a Ha) H) as (c & C1 & C2)
         | H : above (lo y) r |- exists _, _ /\ _ <= r => destruct (low_member y r N' (ex_intro _ b Hb) H) as (c & C1 & C2)
         | H : below (up x) r |- _ => destruct (high_member x r N (ex_intro _ a Ha) H) as (c & C1 & C2)
         | H : below (up y) r |- _ => destruct (high_member y r N' (ex_intro _ b Hb) H) as (c & C1 & C2)
         end; exists c; tauto.
  - intros [(c & [Hc|Hc] & Lc) [(d & [He|He] & Ld) H3]]; (split; [split|exact H3]);
    destruct Hc as [[C1 C2] _], He as [[D1 D2] _];
    first [ left; apply (above_up _ c); assumption | right; apply (above_up _ c); assumption | left; apply (below_down _ d); assumption | right; apply (below_down _ d); assumption ].
Qed.

(** * Comparisons *)
Lemma lt_sound x y a b : member a x -> member b y -> lt x y = true -> a < b.
Proof.
  intros [[_ H1] _] [[H2 _] _]. unfold lt, b_lt, above, below in *. destruct (bv (up x)) as [|s|s q]; [tauto| |].
  - subst s. destruct (bv (lo y)) as [|t|t p]; cbn; [discriminate|subst t; discriminate|discriminate].
  - destruct (bv (lo y)) as [|t|t p]; cbn; [tauto|subst t; discriminate|]. intros H. destruct (qlt q p) eqn:L; q2r.
    + destruct (bf (up x)), (bf (lo y)); lra.
    + cbn in H. destruct (qeq q p) eqn:E; [|discriminate]. q2r. destruct (bf (up x)), (bf (lo y)); cbn in H; try discriminate; lra.
Qed.
Lemma le_sound x y a b : member a x -> member b y -> le x y = true -> a <= b.
Proof.
  intros [[_ H1] _] [[H2 _] _]. unfold le, ul_le, vgt, above, below in *. destruct (bv (up x)) as [|s|s q]; [tauto| |].
  - subst s. destruct (bv (lo y)) as [|t|t p]; cbn; [tauto|subst t; discriminate|discriminate].
  - destruct (bv (lo y)) as [|t|t p]; cbn; [tauto|subst t; discriminate|]. intros H. apply negb_true_iff in H. q2r. destruct (bf (up x)), (bf (lo y)); lra.
Qed.
(** The supremum and the infimum are approached. *)
Lemma near_sup x r : normal x -> (exists a, member a x) -> below (up x) r -> exists a, member a x /\ r <= a.
Proof. apply high_member. Qed.
Lemma lt_complete x y : formed rep x -> formed rep y -> normal x -> normal y -> (exists a, member a x) -> (exists b, member b y) ->
  (forall a b, member a x -> member b y -> a < b) -> lt x y = true.
Proof.
  intros [_ WU] [WL _] N N' Ea Eb H. unfold lt. destruct (b_lt (up x) (lo y)) eqn:G; [reflexivity|exfalso].
  assert (K : forall r, below (up x) r -> above (lo y) r -> False).
  { intros r B1 B2. destruct (high_member x r N Ea B1) as (a & Ha & La). destruct (low_member y r N' Eb B2) as (b & Hb & Lb). specialize (H a b Ha Hb). lra. }
  destruct Ea as [a [[_ Ha] _]], Eb as [b [[Hb _] _]].
  unfold above, below, b_lt in *. destruct (bv (up x)) as [|s|s q] eqn:E1; [tauto| |].
  - subst s. destruct (bv (lo y)) as [|t|t p] eqn:E2; [tauto|subst t; apply (K 0); reflexivity|].
    apply (K (rv p + 1)); [reflexivity|]. destruct (bf (lo y)); lra.
  - destruct (WU _ _ E1) as [F1 _]. destruct (bv (lo y)) as [|t|t p] eqn:E2; [tauto| |].
    + subst t. apply (K (rv q - 1)); [|reflexivity]. destruct (bf (up x)); lra.
    + destruct (WL _ _ E2) as [F2 _]. cbn in G. destruct (qlt q p) eqn:L; [discriminate|]. cbn in G. q2r.
      apply (K ((rv p + rv q) / 2)); destruct (qeq q p) eqn:E; q2r; destruct (bf (up x)), (bf (lo y)); try congruence; cbn in G; try discriminate; lra.
Qed.
Lemma le_complete x y : formed rep x -> formed rep y -> normal x -> normal y -> (exists a, member a x) -> (exists b, member b y) ->
  (forall a b, member a x -> member b y -> a <= b) -> le x y = true.
Proof.
  intros [_ WU] [WL _] N N' Ea Eb H. unfold le, ul_le. apply negb_true_iff. destruct (vgt (bv (up x)) (bv (lo y))) eqn:G; [exfalso|reflexivity].
  assert (K : forall r r', r' < r -> below (up x) r -> above (lo y) r' -> False).
  { intros r r' Lr B1 B2. destruct (high_member x r N Ea B1) as (a & Ha & La). destruct (low_member y r' N' Eb B2) as (b & Hb & Lb). specialize (H a b Ha Hb). lra. }
  destruct Ea as [a [[_ Ha] _]], Eb as [b [[Hb _] _]].
  unfold above, below, vgt in *. destruct (bv (up x)) as [|s|s q] eqn:E1; [tauto| |].
  - subst s. destruct (bv (lo y)) as [|t|t p] eqn:E2; [tauto|subst t; apply (K 1 0); try reflexivity; lra|].
    apply (K (rv p + 2) (rv p + 1)); [lra|reflexivity|]. destruct (bf (lo y)); lra.
  - destruct (bv (lo y)) as [|t|t p] eqn:E2; [tauto| |].
    + subst t. apply (K (rv q - 1) (rv q - 2)); [lra| |reflexivity]. destruct (bf (up x)); lra.
    + cbn in G. q2r. apply (K ((rv p + 2 * rv q) / 3) ((2 * rv p + rv q) / 3)); [lra| |]; [destruct (bf (up x))|destruct (bf (lo y))]; lra.
Qed.

(** * Inclusion *)
Lemma up_gap u1 u2 : upper_bound rep u1 -> upper_bound rep u2 -> upper_inf u1 -> upper_inf u2 -> (bv u1 <> Inf true /\ bv u1 <> NaN) -> (bv u2 <> Inf true /\ bv u2 <> NaN) ->
  b_gt u1 u2 = true -> exists r, below u1 r /\ ~ below u2 r.
Proof.
  destruct u1 as [v1 f1], u2 as [v2 f2]. unfold upper_bound, upper_inf, b_gt, vgt, below. cbn [bv bf]. intros W1 W2 I1 I2 [A1 A2] [B1 B2] H.
  destruct v1 as [|s1|s1 p1]; [congruence| |].
  - destruct s1; [congruence|]. destruct v2 as [|s2|s2 p2]; [congruence| |].
    + destruct s2; [congruence|]. rewrite (I1 eq_refl), (I2 eq_refl) in H. discriminate.
    + exists (rv p2 + 1). split; [reflexivity|]. destruct f2; lra.
  - destruct (W1 _ _ eq_refl) as [N1 _]. destruct v2 as [|s2|s2 p2]; [congruence| |].
    + destruct s2; [congruence|discriminate].
    + destruct (W2 _ _ eq_refl) as [N2 _]. cbn in H. destruct (qlt p2 p1) eqn:L; q2r.
      * exists ((rv p1 + rv p2) / 2). destruct f1, f2; lra.
      * cbn in H. destruct (qeq p1 p2) eqn:E; [|discriminate]. q2r. exists (rv p1). destruct f1, f2; try congruence; cbn in H; try discriminate; lra.
Qed.
Lemma lo_gap l1 l2 : lower_bound rep l1 -> lower_bound rep l2 -> lower_inf l1 -> lower_inf l2 -> (bv l1 <> Inf false /\ bv l1 <> NaN) -> (bv l2 <> Inf false /\ bv l2 <> NaN) ->
  b_lt l1 l2 = true -> exists r, above l1 r /\ ~ above l2 r.
Proof.
  destruct l1 as [v1 f1], l2 as [v2 f2]. unfold lower_bound, lower_inf, b_lt, above. cbn [bv bf]. intros W1 W2 I1 I2 [A1 A2] [B1 B2] H.
  destruct v1 as [|s1|s1 p1]; [congruence| |].
  - destruct s1; [|congruence]. destruct v2 as [|s2|s2 p2]; [congruence| |].
    + destruct s2; [|congruence]. rewrite (I1 eq_refl), (I2 eq_refl) in H. discriminate.
    + exists (rv p2 - 1). split; [reflexivity|]. destruct f2; lra.
  - destruct (W1 _ _ eq_refl) as [N1 _]. destruct v2 as [|s2|s2 p2]; [congruence| |].
    + destruct s2; [discriminate|congruence].
    + destruct (W2 _ _ eq_refl) as [N2 _]. cbn in H. destruct (qlt p1 p2) eqn:L; q2r.
      * exists ((rv p1 + rv p2) / 2). destruct f1, f2; lra.
      * cbn in H. destruct (qeq p1 p2) eqn:E; [|discriminate]. q2r. exists (rv p1). destruct f1, f2; try congruence; cbn in H; try discriminate; lra.
Qed.
Definition within x y := b_le (up x) (up y) && b_ge (lo x) (lo y).
Lemma within_hull x y r : formed rep x -> formed rep y -> normal y -> within x y = true -> hull x r -> hull y r.
Proof.
  intros [WL WU] [WL' WU'] N H [H1 H2]. destruct (normal_nan _ N) as [N1 N2]. unfold within, b_le, b_ge in H. apply Bool.andb_true_iff in H. destruct H as [E1 E2].
  apply negb_true_iff in E1, E2. rewrite b_lt_gt in E2. rewrite <- b_lt_gt in E1. split.
  - exact (above_ngt rep _ _ _ WL' WL N1 E2 H1).
  - exact (below_nlt rep _ _ _ WU' WU N2 E1 H2).
Qed.
Lemma members_normal x : normal x -> (exists a, member a x) -> lower_inf (lo x) /\ upper_inf (up x) /\ (bv (lo x) <> Inf false /\ bv (lo x) <> NaN) /\ (bv (up x) <> Inf true /\ bv (up x) <> NaN).
Proof.
  intros N [a [Ha _]]. pose proof (normal_proper _ _ Ha). destruct N as [[E _]|[_ [L [U _]]]]; [|tauto].
  destruct Ha as [Ha _]. unfold above in Ha. rewrite E in Ha. discriminate.
Qed.
Lemma up_out x y : formed rep x -> formed rep y -> normal x -> normal y -> (exists a, member a x) -> (exists b, member b y) ->
  b_gt (up x) (up y) = true -> exists a, member a x /\ ~ hull y a.
Proof.
  intros [WL WU] [WL' WU'] N N' E E' G. destruct (members_normal _ N E) as (_ & IU & _ & P). destruct (members_normal _ N' E') as (_ & IU' & _ & P').
  destruct (up_gap _ _ WU WU' IU IU' P P' G) as (r & R1 & R2). destruct (high_member x r N E R1) as (a & Ha & La). exists a. split; [exact Ha|].
  intros [_ K]. apply R2. exact (below_down _ _ _ K La).
Qed.
Lemma lo_out x y : formed rep x -> formed rep y -> normal x -> normal y -> (exists a, member a x) -> (exists b, member b y) ->
  b_lt (lo x) (lo y) = true -> exists a, member a x /\ ~ hull y a.
Proof.
  intros [WL WU] [WL' WU'] N N' E E' G. destruct (members_normal _ N E) as (IU & _ & P & _). destruct (members_normal _ N' E') as (IU' & _ & P' & _).
  destruct (lo_gap _ _ WL WL' IU IU' P P' G) as (r & R1 & R2). destruct (low_member x r N E R1) as (a & Ha & La). exists a. split; [exact Ha|].
  intros [K _]. apply R2. exact (above_up _ _ _ K La).
Qed.
Lemma within_iff x y : formed rep x -> formed rep y -> normal x -> normal y -> (exists a, member a x) -> (exists b, member b y) ->
  within x y = true <-> forall r, member r x -> hull y r.
Proof.
  intros W W' N N' E E'. split; [intros H r Hr; exact (within_hull x y r W W' N' H (proj1 Hr))|].
  intros H. unfold within, b_le, b_ge. apply Bool.andb_true_iff. split; apply negb_true_iff; apply Bool.not_true_iff_false; intros G.
  - destruct (up_out x y W W' N N' E E' G) as (a & Ha & K). apply K, H, Ha.
  - destruct (lo_out x y W W' N N' E E' G) as (a & Ha & K). apply K, H, Ha.
Qed.
Lemma subset_eq_iff x y : formed rep x -> formed rep y -> normal x -> normal y -> tidy x -> (exists a, member a x) -> (exists b, member b y) ->
  subset_eq x y = true <-> forall r, member r x -> member r y.
Proof.
  intros W W' N N' T E E'. pose proof (within_iff x y W W' N N' E E') as K. unfold subset_eq, within, member in *.
  destruct (fl x) eqn:F, (fl y) eqn:F'.
  - rewrite K. split; intros H r Hr; [split; [|congruence]|]; apply H; exact Hr.
  - split; [discriminate|]. intros H. exfalso. destruct (T F) as (r & R1 & R2). apply R2. apply (H r); [|reflexivity]. split; [exact R1|congruence].
  - rewrite K. split; intros H r Hr; [split; [|congruence]|]; apply H; exact Hr.
  - rewrite K. split; intros H r Hr; [split; [apply H; exact Hr|tauto]|]. apply H, Hr.
Qed.
Lemma subset_iff x y : formed rep x -> formed rep y -> normal x -> normal y -> tidy x -> tidy y -> (exists a, member a x) -> (exists b, member b y) ->
  subset x y = true <-> (forall r, member r x -> member r y) /\ exists r, member r y /\ ~ member r x.
Proof.
  intros W W' N N' T T' E E'. pose proof (subset_eq_iff x y W W' N N' T E E') as K.
  assert (S : fl x = fl y -> (b_lt (up x) (up y) && b_ge (lo x) (lo y) || b_le (up x) (up y) && b_gt (lo x) (lo y) = true <->
      within x y = true /\ exists r, member r y /\ ~ member r x)).
  { intros F. split.
    - intros H. apply Bool.orb_true_iff in H. destruct H as [H|H]; apply Bool.andb_true_iff in H; destruct H as [H1 H2]; unfold within, b_le, b_ge in *.
      + split.
        * apply Bool.andb_true_iff. split; [|exact H2]. apply negb_true_iff. destruct (b_gt (up x) (up y)) eqn:G; [|reflexivity].
          destruct (up_out x y W W' N N' E E' G) as (a & Ha & Na). exfalso. apply Na. 
          destruct W as [WL WU], W' as [WL' WU']. destruct Ha as [[A1 A2] _]. split; [|exact (below_lt rep _ _ _ WU WU' H1 A2)].
          destruct (normal_nan _ N') as [N1 _]. apply (above_ngt rep _ _ _ WL' WL N1); [|exact A1]. rewrite <- b_lt_gt. apply negb_true_iff, H2.
        * rewrite b_lt_gt in H1. destruct (up_out y x W' W N' N E' E H1) as (a & Ha & Na). exists a. split; [exact Ha|]. intros [Q _]. exact (Na Q).
      + split.
        * apply Bool.andb_true_iff. split; [exact H1|]. apply negb_true_iff. destruct (b_lt (lo x) (lo y)) eqn:G; [|reflexivity].
          destruct (lo_out x y W W' N N' E E' G) as (a & Ha & Na). exfalso. apply Na. 
          destruct W as [WL WU], W' as [WL' WU']. destruct Ha as [[A1 A2] _]. split; [exact (above_gt rep _ _ _ WL WL' H2 A1)|].
          destruct (normal_nan _ N') as [_ N2]. apply (below_nlt rep _ _ _ WU' WU N2); [|exact A2]. rewrite b_lt_gt. apply negb_true_iff, H1.
        * rewrite <- b_lt_gt in H2. destruct (lo_out y x W' W N' N E' E H2) as (a & Ha & Na). exists a. split; [exact Ha|]. intros [Q _]. exact (Na Q).
    - intros [H (r & R1 & R2)]. unfold within in H. apply Bool.andb_true_iff in H. destruct H as [H1 H2]. rewrite H1, H2, Bool.andb_true_r. cbn [andb].
      destruct (b_lt (up x) (up y)) eqn:G1; [reflexivity|]. cbn [orb]. destruct (b_gt (lo x) (lo y)) eqn:G2; [reflexivity|]. exfalso. apply R2.
      split; [|rewrite F; apply R1]. destruct R1 as [R1 _]. apply (within_hull y x r W' W N); [|exact R1].
      unfold within, b_le, b_ge. rewrite b_lt_gt in G1. rewrite <- b_lt_gt in G2. rewrite G1, G2. reflexivity. }
  unfold subset. unfold subset_eq in K. destruct (fl x) eqn:F, (fl y) eqn:F'.
  - rewrite (S eq_refl). unfold within. rewrite K. tauto.
  - split; [discriminate|]. intros [H _]. apply K in H. discriminate.
  - rewrite K. split; [|tauto]. intros H. split; [exact H|]. destruct (T' F') as (r & R1 & R2). exists r. split; [split; [exact R1|congruence]|].
    intros [_ Q]. apply R2, Q, F.
  - rewrite (S eq_refl). unfold within. rewrite K. tauto.
Qed.
Lemma ngt_nlt_eq b c : b_gt b c = false -> b_lt b c = false -> bv b <> NaN -> bv c <> NaN -> b_eq b c = true.
Proof.
  unfold b_gt, b_lt, b_eq, vgt. destruct (bv b) as [|s|s p], (bv c) as [|t|t q]; try congruence; cbn.
  - destruct s, t; cbn; try discriminate; intros; destruct (bf b), (bf c); cbn in *; congruence.
  - destruct s; discriminate.
  - destruct t; discriminate.
  - qsplit; q2r; cbn; try discriminate; try lra; intros; destruct (bf b), (bf c); cbn in *; congruence.
Qed.
Lemma eq_ngt_nlt b c : b_eq b c = true -> b_gt b c = false /\ b_lt b c = false.
Proof.
  unfold b_gt, b_lt, b_eq, vgt. intros H. apply Bool.andb_true_iff in H. destruct H as [H1 H2]. apply Z.eqb_eq in H2. rewrite H2, H1.
  assert (L : Z.gtb (flag_z (bf c)) (flag_z (bf c)) = false) by (destruct (bf c); reflexivity). rewrite Z.ltb_irrefl, L.
  destruct (bv b) as [|s|s p], (bv c) as [|t|t q]; cbn in *; try discriminate.
  - destruct s, t; cbn in *; try discriminate; tauto.
  - q2r. destruct (qlt q p) eqn:Q1, (qlt p q) eqn:Q2; q2r; try lra; tauto.
Qed.
Lemma i_eq_iff x y : formed rep x -> formed rep y -> normal x -> normal y -> tidy x -> tidy y -> (exists a, member a x) -> (exists b, member b y) ->
  i_eq x y = true <-> forall r, member r x <-> member r y.
Proof.
  intros W W' N N' T T' E E'. pose proof (subset_eq_iff x y W W' N N' T E E') as K. pose proof (subset_eq_iff y x W' W N' N T' E' E) as K'.
  destruct (normal_nan _ N) as [N1 N2]. destruct (normal_nan _ N') as [N1' N2']. unfold i_eq. split.
  - intros H. apply Bool.andb_true_iff in H. destruct H as [H F]. apply Bool.andb_true_iff in H. destruct H as [H1 H2]. 
    assert (EF : fl x = fl y) by (destruct (fl x), (fl y); cbn in F; congruence).
    destruct (eq_ngt_nlt _ _ H1) as [G1 L1]. destruct (eq_ngt_nlt _ _ H2) as [G2 L2].
    assert (B : subset_eq x y = true /\ subset_eq y x = true).
    { unfold subset_eq, b_le, b_ge. rewrite EF. rewrite (b_lt_gt (lo y)), <- (b_lt_gt (up x) (up y)), G1, L1, G2, L2. destruct (fl y); split; reflexivity. }
    destruct B as [B1 B2]. rewrite K in B1. rewrite K' in B2. intros r. split; [apply B1|apply B2].
  - intros H. assert (B1 : subset_eq x y = true) by (apply K; intros r; apply H). assert (B2 : subset_eq y x = true) by (apply K'; intros r; apply H).
    unfold subset_eq, b_le, b_ge in B1, B2. destruct (fl x), (fl y); try discriminate; apply Bool.andb_true_iff in B1, B2; destruct B1 as [P1 P2], B2 as [P3 P4];
    apply negb_true_iff in P1, P2, P3, P4; rewrite <- b_lt_gt in P3; rewrite b_lt_gt in P4; rewrite (ngt_nlt_eq _ _ P4 P2 N1 N1'), (ngt_nlt_eq _ _ P1 P3 N2 N2'); reflexivity.
Qed.
End Arith.
