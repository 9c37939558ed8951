(** Arithmetic on intervals: every result is in the result. *)
From Coq Require Import ZArith QArith Qcanon Qround Reals Qreals Lra Lia Psatz Bool.
From Verif Require Import Bool3Model Ast IvlModel IvlSpec IvlProofs RatRootProofs.
Local Open Scope R_scope.

(** Both kinds of boundaries at once: [dir] = true for upper ones. *)
Definition side (dir : bool) (b : bnd) (t : R) : Prop := if dir then below b t else above b t.
Definition sle (dir : bool) (e t : R) : Prop := if dir then t <= e else e <= t.
Definition slt (dir : bool) (e t : R) : Prop := if dir then t < e else e < t.
Definition bound (rep : Qc -> Prop) (dir : bool) (b : bnd) : Prop := if dir then upper_bound rep b else lower_bound rep b.
Definition good_flag (dir : bool) (b : bnd) : Prop := if dir then bf b <> POS else bf b <> NEG.

Lemma side_fin dir b s q t : bv b = Fin s q -> side dir b t <-> sle dir (rv q) t /\ (is_closed b = false -> slt dir (rv q) t).
Proof. intros E. unfold side, above, below, is_closed, sle, slt. rewrite E. destruct dir, (bf b); intuition (try congruence; try lra). Qed.
Lemma side_inf dir b i t : bv b = Inf i -> side dir b t <-> i = negb dir.
Proof. intros E. unfold side, above, below. rewrite E. destruct dir, i; cbn; intuition congruence. Qed.
Lemma above_inv b r : above b r -> bv b = Inf true \/ exists s p, bv b = Fin s p /\ rv p <= r /\ (is_closed b = false -> rv p < r).
Proof.
  unfold above, is_closed. destruct (bv b) as [|i|s p]; [tauto|intros ->; left; reflexivity|]. intros H. right. exists s, p.
  destruct (bf b); intuition (try congruence; try lra).
Qed.
Lemma below_inv b r : below b r -> bv b = Inf false \/ exists s p, bv b = Fin s p /\ r <= rv p /\ (is_closed b = false -> r < rv p).
Proof.
  unfold below, is_closed. destruct (bv b) as [|i|s p]; [tauto|intros ->; left; reflexivity|]. intros H. right. exists s, p.
  destruct (bf b); intuition (try congruence; try lra).
Qed.
Lemma closed_set dir b : is_closed (b_set dir b) = is_closed b.
Proof. unfold b_set, oc, is_closed. cbn. destruct (bf b), dir; reflexivity. Qed.
Lemma good_set dir b : good_flag dir (b_set dir b).
Proof. unfold b_set, oc, good_flag. cbn. destruct (is_closed b), dir; discriminate. Qed.

Section Arith.
Variables (A : arith) (rep : Qc -> Prop).
Hypothesis Hd : directed A rep.

Lemma rnd_side dir q t : sle dir (rv q) t ->
  match fst (rnd A dir q) with
  | NaN => False
  | Inf i => i = negb dir
  | Fin _ p => rep p /\ sle dir (rv p) t /\ (slt dir (rv q) t \/ snd (rnd A dir q) = true -> slt dir (rv p) t)
  end.
Proof.
  intros H. destruct dir; cbn [sle slt negb] in *.
  - pose proof (rounds_up A rep Hd q) as U. unfold over in U. destruct (fst (rnd A true q)) as [|i|s p] eqn:E; try tauto.
    split; [exact (rounds_to_rep A rep Hd _ _ _ _ E)|]. destruct U as [U1 U2]. split; [lra|]. intros [K|K]; [lra|]. specialize (U2 K). lra.
  - pose proof (rounds_down A rep Hd q) as U. unfold under in U. destruct (fst (rnd A false q)) as [|i|s p] eqn:E; try tauto.
    split; [exact (rounds_to_rep A rep Hd _ _ _ _ E)|]. destruct U as [U1 U2]. split; [lra|]. intros [K|K]; [lra|]. specialize (U2 K). lra.
Qed.
Lemma with_zero_side dir s q t : sle dir (rv q) t ->
  match fst (with_zero s (rnd A dir q)) with
  | NaN => False
  | Inf i => i = negb dir
  | Fin _ p => rep p /\ sle dir (rv p) t /\ (slt dir (rv q) t \/ snd (with_zero s (rnd A dir q)) = true -> slt dir (rv p) t)
  end.
Proof. intros H. pose proof (rnd_side dir q t H) as K. unfold with_zero. destruct (rnd A dir q) as [[|i|s' p] b]; exact K. Qed.
(** What is stored is a bound. *)
Lemma compute_side dir b c r (m : bool) t :
  (match fst r with NaN => False | Inf i => i = negb dir | Fin _ p => sle dir (rv p) t /\ (is_closed b = false \/ (m = true /\ is_closed c = false) \/ snd r = true -> slt dir (rv p) t) end) ->
  side dir (if m then meet dir (compute dir b r) c else compute dir b r) t.
Proof.
  intros H. destruct r as [[|i|s p] w]; cbn [fst snd] in H; [tauto| |].
  - assert (E : bv (if m then meet dir (compute dir b (Inf i, w)) c else compute dir b (Inf i, w)) = Inf i) by (unfold meet; destruct m; [destruct (is_closed (compute dir b (Inf i, w)))|]; reflexivity).
    rewrite (side_inf _ _ _ _ E). exact H.
  - assert (E : bv (if m then meet dir (compute dir b (Fin s p, w)) c else compute dir b (Fin s p, w)) = Fin s p) by (unfold meet; destruct m; [destruct (is_closed (compute dir b (Fin s p, w)))|]; reflexivity).
    rewrite (side_fin _ _ _ _ _ E). split; [apply H|]. intros G. apply H.
    assert (G' : is_closed (compute dir b (Fin s p, w)) = is_closed b && negb w) by (unfold compute, is_closed; cbn; destruct (bf b), w, dir; reflexivity).
    destruct m.
    + unfold meet in G. rewrite G' in G. destruct (is_closed b) eqn:B; cbn [andb] in G; [|tauto]. destruct w; cbn [negb] in G; [tauto|].
      right. left. split; [reflexivity|]. unfold set_oc in G. destruct (is_closed c); [discriminate G|reflexivity].
    + rewrite G' in G. destruct (is_closed b), w; cbn in G; try discriminate; tauto.
Qed.
Lemma compute_bound dir b c r (m : bool) : good_flag dir b -> (forall s p, fst r = Fin s p -> rep p) -> bound rep dir (if m then meet dir (compute dir b r) c else compute dir b r).
Proof.
  intros G H. assert (K : good_flag dir (if m then meet dir (compute dir b r) c else compute dir b r) /\ bv (if m then meet dir (compute dir b r) c else compute dir b r) = fst r).
  { unfold meet, set_oc, oc, compute, is_closed, good_flag in *. destruct dir, m, (bf b), (bf c), (snd r); cbn; split; try reflexivity; try discriminate; congruence. }
  destruct K as [K1 K2]. unfold bound, lower_bound, upper_bound, good_flag in *. destruct dir; intros s q E; rewrite K2 in E; split; eauto.
Qed.

(** * Sums *)
Lemma vadd_side dir x y (e1 e2 t : R) :
  match x, y with
  | Fin _ p, Fin _ q => sle dir (rv p + rv q) t
  | Inf i, Fin _ _ | Fin _ _, Inf i => i = negb dir
  | Inf i, Inf j => i = negb dir /\ j = negb dir
  | _, _ => False
  end ->
  match fst (vadd A dir x y) with
  | NaN => False
  | Inf i => i = negb dir
  | Fin _ p => rep p /\ exists p0 q0, (exists s, x = Fin s p0) /\ (exists s, y = Fin s q0) /\ sle dir (rv p) t /\ (slt dir (rv p0 + rv q0) t \/ snd (vadd A dir x y) = true -> slt dir (rv p) t)
  end.
Proof.
  destruct x as [|i|s p], y as [|j|s' q]; try tauto; cbn [vadd fst].
  - intros [-> ->]. rewrite Bool.eqb_reflx. reflexivity.
  - intros H. match goal with |- context [with_zero ?w _] => set (z := w) end. rewrite <- rv_add in H. pose proof (with_zero_side dir z (p + q) t H) as K.
    destruct (fst (with_zero z (rnd A dir (p + q)))) as [|i|w u] eqn:E; try tauto. split; [tauto|]. exists p, q. rewrite rv_add in K. split; [eauto|]. split; [eauto|]. tauto.
Qed.
Lemma vneg_fin v : vneg v = match v with NaN => NaN | Inf i => Inf (negb i) | Fin s q => Fin (negb s) (- q)%Qc end.
Proof. reflexivity. Qed.

Definition holds (dir : bool) (v : val) (closed : bool) (r : R) : Prop :=
  match v with NaN => False | Inf i => i = negb dir | Fin _ q => sle dir (rv q) r /\ (closed = false -> slt dir (rv q) r) end.
Lemma side_holds dir b r : side dir b r <-> holds dir (bv b) (is_closed b) r.
Proof.
  destruct (bv b) as [|i|s q] eqn:E; cbn [holds].
  - unfold side, above, below. rewrite E. destruct dir; tauto.
  - apply side_inf, E.
  - apply (side_fin dir b s q r E).
Qed.
Lemma add_side dir b (v : val) (cl m : bool) c r r' : side dir b r -> holds dir v cl r' -> (m = true -> is_closed c = cl) -> (m = false -> cl = true) ->
  side dir (if m then meet dir (compute dir b (vadd A dir (bv b) v)) c else compute dir b (vadd A dir (bv b) v)) (r + r').
Proof.
  intros H H' Hm Hn. apply side_holds in H. apply compute_side.
  assert (K : match bv b, v with
    | Fin _ p, Fin _ q => sle dir (rv p + rv q) (r + r')
    | Inf i, Fin _ _ | Fin _ _, Inf i => i = negb dir
    | Inf i, Inf j => i = negb dir /\ j = negb dir
    | _, _ => False end).
  { destruct (bv b), v; cbn [holds] in *; try tauto. destruct dir; cbn [sle] in *; lra. }
  pose proof (vadd_side dir (bv b) v 0 0 (r + r') K) as L. destruct (fst (vadd A dir (bv b) v)) as [|i|s u]; try tauto.
  destruct L as (_ & p0 & q0 & [s1 E1] & [s2 E2] & L1 & L2). split; [exact L1|]. intros G. apply L2. rewrite E1 in H. rewrite E2 in H'. cbn [holds] in H, H'.
  destruct G as [G|[[G1 G2]|G]]; [left|left|right; exact G].
  - destruct H as [Ha Hb]. specialize (Hb G). destruct H' as [H' _]. destruct dir; cbn [sle slt] in *; lra.
  - rewrite (Hm G1) in G2. destruct H' as [H'a H'b]. specialize (H'b G2). destruct H as [Ha _]. destruct dir; cbn [sle slt] in *; lra.
Qed.
Lemma add_bound dir b v (m : bool) c r r' cl : good_flag dir b -> side dir b r -> holds dir v cl r' ->
  bound rep dir (if m then meet dir (compute dir b (vadd A dir (bv b) v)) c else compute dir b (vadd A dir (bv b) v)).
Proof.
  intros G H H'. apply compute_bound; [exact G|]. intros s p E. apply side_holds in H.
  assert (K : match bv b, v with
    | Fin _ p, Fin _ q => sle dir (rv p + rv q) (r + r')
    | Inf i, Fin _ _ | Fin _ _, Inf i => i = negb dir
    | Inf i, Inf j => i = negb dir /\ j = negb dir
    | _, _ => False end).
  { destruct (bv b), v; cbn [holds] in *; try tauto. destruct dir; cbn [sle] in *; lra. }
  pose proof (vadd_side dir (bv b) v 0 0 (r + r') K) as L. rewrite E in L. apply L.
Qed.
Lemma holds_neg dir v cl r : holds dir v cl r -> holds (negb dir) (vneg v) cl (- r).
Proof.
  destruct v as [|i|s q]; cbn [holds vneg]; [tauto|intros ->; reflexivity|]. rewrite rv_opp. destruct dir; cbn [negb sle slt]; intros [H1 H2]; (split; [lra|intros K; specialize (H2 K); lra]).
Qed.
Lemma hull_flags x r : typed x -> hull x r -> good_flag false (lo x) /\ good_flag true (up x).
Proof.
  intros [T1 T2] [H1 H2]. unfold good_flag. split.
  - destruct T1 as [E|E]; [|exact E]. unfold above in H1. rewrite E in H1. discriminate.
  - destruct T2 as [E|E]; [|exact E]. unfold below in H2. rewrite E in H2. discriminate.
Qed.
Lemma integer_add a b : integer a -> integer b -> integer (a + b).
Proof. intros [z ->] [w ->]. exists (z + w)%Z. rewrite plus_IZR. reflexivity. Qed.
Lemma integer_opp a : integer a -> integer (- a).
Proof. intros [z ->]. exists (- z)%Z. rewrite opp_IZR. reflexivity. Qed.
Lemma integer_mul a b : integer a -> integer b -> integer (a * b).
Proof. intros [z ->] [w ->]. exists (z * w)%Z. rewrite mult_IZR. reflexivity. Qed.
Lemma integer_rep s q : rep q -> is_integer A (Fin s q) = true -> integer (rv q).
Proof. intros W H. apply (is_integer_iff A rep Hd s q W). exact H. Qed.

Lemma add_v_in x a s q : typed x -> member a x -> rep q -> member (a + rv q) (i_add_v A x (Fin s q)).
Proof.
  intros T [H I] W. destruct (hull_flags _ _ T H) as [G1 G2]. unfold i_add_v, add_v.
  assert (Q1 : holds false (Fin s q) true (rv q)) by (cbn; split; [lra|discriminate]). assert (Q2 : holds true (Fin s q) true (rv q)) by (cbn; split; [lra|discriminate]).
  destruct H as [H1 H2]. apply (set_type_in A rep Hd).
  - split; [apply (add_bound false (lo x) (Fin s q) false (lo x) a (rv q) true); assumption|apply (add_bound true (up x) (Fin s q) false (lo x) a (rv q) true); assumption].
  - split; [apply (add_side false (lo x) (Fin s q) true false (lo x) a (rv q)); auto; congruence|apply (add_side true (up x) (Fin s q) true false (lo x) a (rv q)); auto; congruence].
  - intros E. apply Bool.andb_true_iff in E. destruct E as [E1 E2]. apply integer_add; [|exact (integer_rep s q W E2)]. apply I. destruct (fl x); [discriminate|reflexivity].
Qed.
Lemma sub_v_in x a s q : typed x -> member a x -> rep q -> member (a - rv q) (i_sub_v A x (Fin s q)).
Proof.
  intros T [H I] W. destruct (hull_flags _ _ T H) as [G1 G2]. unfold i_sub_v, sub_v, vsub.
  assert (Q1 : holds false (vneg (Fin s q)) true (- rv q)) by (cbn; rewrite rv_opp; split; [lra|discriminate]).
  assert (Q2 : holds true (vneg (Fin s q)) true (- rv q)) by (cbn; rewrite rv_opp; split; [lra|discriminate]).
  destruct H as [H1 H2]. unfold Rminus. apply (set_type_in A rep Hd).
  - split; [apply (add_bound false (lo x) _ false (lo x) a (- rv q) true); assumption|apply (add_bound true (up x) _ false (lo x) a (- rv q) true); assumption].
  - split; [apply (add_side false (lo x) _ true false (lo x) a (- rv q)); auto; congruence|apply (add_side true (up x) _ true false (lo x) a (- rv q)); auto; congruence].
  - intros E. apply Bool.andb_true_iff in E. destruct E as [E1 E2]. apply integer_add; [|apply integer_opp; exact (integer_rep s q W E2)]. apply I. destruct (fl x); [discriminate|reflexivity].
Qed.
Lemma add_in x y a b : formed rep x -> formed rep y -> typed x -> typed y -> member a x -> member b y -> member (a + b) (i_add A x y).
Proof.
  intros W W' T T' Ha Hb. unfold i_add. destruct (is_one_point y) eqn:P.
  - destruct (one_point_val y b P (proj1 Hb)) as (s & q & E & ->). rewrite E. apply add_v_in; auto. apply (proj1 W' _ _ E).
  - destruct Ha as [[A1 A2] I], Hb as [[B1 B2] I']. destruct (hull_flags x a T (conj A1 A2)) as [G1 G2].
    assert (B1' : holds false (bv (lo y)) (is_closed (lo y)) b) by (apply side_holds; exact B1). assert (B2' : holds true (bv (up y)) (is_closed (up y)) b) by (apply side_holds; exact B2).
    apply (set_type_in A rep Hd).
    + split; [apply (add_bound false (lo x) _ true (lo y) a b (is_closed (lo y))); assumption|apply (add_bound true (up x) _ true (up y) a b (is_closed (up y))); assumption].
    + split; [apply (add_side false (lo x) _ (is_closed (lo y)) true (lo y) a b); auto; congruence|apply (add_side true (up x) _ (is_closed (up y)) true (up y) a b); auto; congruence].
    + intros E. apply Bool.andb_true_iff in E. destruct E as [E1 E2]. apply integer_add; [apply I|apply I']; [destruct (fl x)|destruct (fl y)]; cbn in *; congruence.
Qed.
Lemma sub_in x y a b : formed rep x -> formed rep y -> typed x -> typed y -> member a x -> member b y -> member (a - b) (i_sub A x y).
Proof.
  intros W W' T T' Ha Hb. unfold i_sub. destruct (is_one_point y) eqn:P.
  - destruct (one_point_val y b P (proj1 Hb)) as (s & q & E & ->). rewrite E. apply sub_v_in; auto. apply (proj1 W' _ _ E).
  - destruct Ha as [[A1 A2] I], Hb as [[B1 B2] I']. destruct (hull_flags x a T (conj A1 A2)) as [G1 G2].
    assert (B1' : holds true (vneg (bv (lo y))) (is_closed (lo y)) (- b)) by (apply (holds_neg false), side_holds; exact B1).
    assert (B2' : holds false (vneg (bv (up y))) (is_closed (up y)) (- b)) by (apply (holds_neg true), side_holds; exact B2).
    unfold Rminus, sub_b, vsub. apply (set_type_in A rep Hd).
    + split; [apply (add_bound false (lo x) _ true (up y) a (- b) (is_closed (up y))); assumption|apply (add_bound true (up x) _ true (lo y) a (- b) (is_closed (lo y))); assumption].
    + split; [apply (add_side false (lo x) _ (is_closed (up y)) true (up y) a (- b)); auto; congruence|apply (add_side true (up x) _ (is_closed (lo y)) true (lo y) a (- b)); auto; congruence].
    + intros E. apply Bool.andb_true_iff in E. destruct E as [E1 E2]. apply integer_add; [apply I|apply integer_opp, I']; [destruct (fl x)|destruct (fl y)]; cbn in *; congruence.
Qed.
End Arith.
