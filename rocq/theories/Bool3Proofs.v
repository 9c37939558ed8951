From Coq Require Import Setoid.
From Verif Require Import Bool3Model Bool3Spec.

Ltac b3 := intros; repeat match goal with x : bool3 |- _ => destruct x | x : bool |- _ => destruct x end;
  cbn in *; try tauto; try congruence.

Lemma lor_exact : exact_op2 lor orb.
Proof.
  intros a b v; split.
  - destruct a, b, v; cbn; intros H; try discriminate;
      try (exists true, true; cbn; tauto); try (exists true, false; cbn; tauto);
      try (exists false, true; cbn; tauto); try (exists false, false; cbn; tauto).
  - intros (va & vb & Ha & Hb & ->); destruct a, b, va, vb; cbn in *; tauto || congruence.
Qed.

Lemma land_exact : exact_op2 land andb.
Proof.
  intros a b v; split.
  - destruct a, b, v; cbn; intros H; try discriminate;
      try (exists true, true; cbn; tauto); try (exists true, false; cbn; tauto);
      try (exists false, true; cbn; tauto); try (exists false, false; cbn; tauto).
  - intros (va & vb & Ha & Hb & ->); destruct a, b, va, vb; cbn in *; tauto || congruence.
Qed.

Lemma lnot_exact : exact_op1 lnot negb.
Proof.
  intros a v; split.
  - destruct a, v; cbn; intros H; try discriminate;
      try (exists true; cbn; tauto); try (exists false; cbn; tauto).
  - intros (va & Ha & ->); destruct a, va; cbn in *; tauto || congruence.
Qed.

Lemma is_strong_spec : forall a, is_strong a = true <-> exists! v, admits a v.
Proof.
  intros a; split.
  - destruct a; cbn; intros H; try discriminate; [exists true|exists false]; split; cbn; auto.
  - intros (v & Hv & Hu); destruct a; cbn; auto.
    exfalso. assert (H1 : v = true) by (apply Hu; exact I).
    assert (H2 : v = false) by (apply Hu; exact I). congruence.
Qed.

Lemma stronger_eq_spec : forall a b, stronger_eq a b = true <-> at_least_as_informative a b.
Proof.
  intros a b; unfold at_least_as_informative; split.
  - b3.
  - intros H. destruct a, b; cbn; auto;
      try (specialize (H true); cbn in H; intuition congruence);
      try (specialize (H false); cbn in H; intuition congruence).
Qed.

Lemma stronger_spec : forall a b, stronger a b = true <->
  at_least_as_informative a b /\ ~ at_least_as_informative b a.
Proof.
  intros a b. rewrite <- !stronger_eq_spec. destruct a, b; cbn; intuition congruence.
Qed.

Lemma connectives_monotone : forall a a' b b',
  stronger_eq a a' = true -> stronger_eq b b' = true ->
  stronger_eq (lor a b) (lor a' b') = true /\
  stronger_eq (land a b) (land a' b') = true /\
  stronger_eq (lnot a) (lnot a') = true.
Proof. intros a a' b b'; destruct a, a', b, b'; cbn; intuition congruence. Qed.
