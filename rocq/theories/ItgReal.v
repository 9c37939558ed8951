(** cos, sin and tan between two numbers. *)
From Coq Require Import ZArith Reals Lra Lia.
Local Open Scope R_scope.
Set Bullet Behavior "Strict Subproofs".

Lemma cos_shift_nat n r : cos (r + INR n * (2 * PI)) = cos r.
Proof. replace (r + INR n * (2 * PI)) with (r + 2 * INR n * PI) by ring. apply cos_period. Qed.
Lemma cos_shift k r : cos (r + IZR k * (2 * PI)) = cos r.
Proof.
  destruct (Z_le_gt_dec 0 k) as [H|H].
  - rewrite <- (Z2Nat.id k H), <- INR_IZR_INZ. apply cos_shift_nat.
  - rewrite <- (cos_shift_nat (Z.to_nat (- k))). f_equal. rewrite INR_IZR_INZ, Z2Nat.id by lia. rewrite opp_IZR. ring.
Qed.
(** A multiple of p in every interval of length p. *)
Lemma multiple_at a p : 0 < p -> exists k, IZR k * p - p <= a < IZR k * p.
Proof.
  intros P. destruct (archimed (a / p)) as [H1 H2]. exists (up (a / p)).
  assert (E : a = a / p * p) by (field; lra). split.
  - rewrite E at 2. assert (IZR (up (a / p)) - 1 <= a / p) by lra. nra.
  - rewrite E at 1. nra.
Qed.
Lemma cos_fall a b : 0 <= a -> a < b -> b <= PI -> cos b < cos a.
Proof. intros. apply cos_decreasing_1; lra. Qed.
Lemma cos_low a b r : a <= r <= b -> (forall k, ~ (a < PI + IZR k * (2 * PI) < b)) ->
  (cos a <= cos r /\ (a < r -> cos a < cos r)) \/ (cos b <= cos r /\ (r < b -> cos b < cos r)).
Proof.
  intros H N. pose proof PI_RGT_0 as P. destruct (multiple_at (a - PI) (2 * PI)) as [k Hk]; [lra|].
  assert (B : b <= PI + IZR k * (2 * PI)) by (destruct (Rle_or_lt b (PI + IZR k * (2 * PI))); [assumption|exfalso; apply (N k); lra]).
  rewrite <- (cos_shift (- k) a), <- (cos_shift (- k) r), <- (cos_shift (- k) b). rewrite opp_IZR. set (s := IZR k * (2 * PI)) in *.
  replace (- IZR k * (2 * PI)) with (- s) by (unfold s; ring). set (a' := a + - s). set (b' := b + - s). set (r' := r + - s).
  assert (- PI <= a' /\ a' <= r' /\ r' <= b' /\ b' <= PI) as (H1 & H2 & H3 & H4) by (unfold a', b', r'; lra).
  assert (EA : a < r -> a' < r') by (unfold a', r'; lra). assert (EB : r < b -> r' < b') by (unfold b', r'; lra). clearbody a' b' r'.
  destruct (Rle_or_lt r' 0) as [K|K].
  - left. assert (L : a' < r' -> cos a' < cos r') by (intros L; rewrite <- (cos_neg a'), <- (cos_neg r'); apply cos_fall; lra).
    split; [destruct H2 as [H2|H2]; [specialize (L H2); lra|rewrite H2; lra]|auto].
  - right. assert (L : r' < b' -> cos b' < cos r') by (intros L; apply cos_fall; lra).
    split; [destruct H3 as [H3|H3]; [specialize (L H3); lra|rewrite H3; lra]|auto].
Qed.
Lemma cos_high a b r : a <= r <= b -> (forall k, ~ (a < 0 + IZR k * (2 * PI) < b)) ->
  (cos r <= cos a /\ (a < r -> cos r < cos a)) \/ (cos r <= cos b /\ (r < b -> cos r < cos b)).
Proof.
  intros H N. destruct (cos_low (a + PI) (b + PI) (r + PI)) as [[H1 H2]|[H1 H2]]; [lra|intros k K; apply (N k); lra| |]; rewrite !neg_cos in *; [left|right]; (split; [lra|]); intros K; specialize (H2 ltac:(lra)); lra.
Qed.
Lemma sin_to_cos x : sin x = cos (x - PI / 2).
Proof. rewrite cos_sin. f_equal. lra. Qed.
Lemma sin_low a b r : a <= r <= b -> (forall k, ~ (a < - (PI / 2) + IZR k * (2 * PI) < b)) ->
  (sin a <= sin r /\ (a < r -> sin a < sin r)) \/ (sin b <= sin r /\ (r < b -> sin b < sin r)).
Proof.
  intros H N. rewrite !sin_to_cos. destruct (cos_low (a - PI / 2) (b - PI / 2) (r - PI / 2)) as [[H1 H2]|[H1 H2]]; [lra|intros k K; apply (N (k + 1)%Z); rewrite plus_IZR; lra| |]; [left|right]; (split; [lra|]); intros K; specialize (H2 ltac:(lra)); lra.
Qed.
Lemma sin_high a b r : a <= r <= b -> (forall k, ~ (a < PI / 2 + IZR k * (2 * PI) < b)) ->
  (sin r <= sin a /\ (a < r -> sin r < sin a)) \/ (sin r <= sin b /\ (r < b -> sin r < sin b)).
Proof.
  intros H N. rewrite !sin_to_cos. destruct (cos_high (a - PI / 2) (b - PI / 2) (r - PI / 2)) as [[H1 H2]|[H1 H2]]; [lra|intros k K; apply (N k); lra| |]; [left|right]; (split; [lra|]); intros K; specialize (H2 ltac:(lra)); lra.
Qed.
Lemma tan_shift1 r : tan (r + PI) = tan r.
Proof. unfold tan. rewrite neg_sin, neg_cos. unfold Rdiv. rewrite Rinv_opp. ring. Qed.
Lemma tan_shift_nat n r : tan (r + INR n * PI) = tan r.
Proof. induction n as [|n IH]; [f_equal; cbn; ring|]. rewrite S_INR. replace (r + (INR n + 1) * PI) with (r + INR n * PI + PI) by ring. rewrite tan_shift1. exact IH. Qed.
Lemma tan_shift k r : tan (r + IZR k * PI) = tan r.
Proof.
  destruct (Z_le_gt_dec 0 k) as [H|H].
  - rewrite <- (Z2Nat.id k H), <- INR_IZR_INZ. apply tan_shift_nat.
  - rewrite <- (tan_shift_nat (Z.to_nat (- k))). f_equal. rewrite INR_IZR_INZ, Z2Nat.id by lia. rewrite opp_IZR. ring.
Qed.
Lemma tan_up a b : a < b -> (forall k, ~ (a <= PI / 2 + IZR k * PI <= b)) -> tan a < tan b.
Proof.
  intros H N. pose proof PI_RGT_0 as P. destruct (multiple_at (a - PI / 2) PI P) as [k Hk].
  pose proof (N k) as N1. pose proof (N (k - 1)%Z) as N2. rewrite minus_IZR in N2.
  rewrite <- (tan_shift (- k) a), <- (tan_shift (- k) b), opp_IZR. apply tan_increasing; lra.
Qed.
