(** Emptiness; widening of intervals of integers. *)
From Coq Require Import ZArith QArith Qcanon Qround Reals Qreals Lra Lia Bool List.
From Verif Require Import Bool3Model Ast IvlModel IvlSpec IvlProofs IvlProofs2 IvlProofs3 IvlProofs8 RatRootProofs.
Local Open Scope R_scope.
Set Bullet Behavior "Strict Subproofs".

(** * Results that are well formed *)
Section Arith.
Variables (A : arith) (rep : Qc -> Prop).
Hypothesis Hd : directed A rep.
Definition fract_bound (b : bnd) : Prop := forall s q, bv b = Fin s q -> big A (bv b) = false.

Lemma l_ceil_integral l : fract_bound l -> integral (l_ceil A l).
Proof.
  intros W s q E. unfold l_ceil in *. destruct l as [v f]. unfold is_min, fract_bound in *. cbn [bv bf] in *. destruct v as [|i|s0 q0].
  - cbn in E. discriminate.
  - destruct i; cbn in E; discriminate.
  - specialize (W _ _ eq_refl). cbn [veq negb andb] in *. rewrite in_fract_iff, W in *. cbn [negb andb] in *. unfold is_closed in *. cbn [bf] in *.
    destruct f; cbn [bv bf vceil vfloor vplus] in *.
    + split; [reflexivity|]. assert (q = (qfloor q0 + zq 1)%Qc) as -> by congruence. destruct (floor_r q0) as (w & -> & _). exists (w + 1)%Z. apply rv_inj. rewrite rv_add, !rv_zq, plus_IZR. reflexivity.
    + split; [reflexivity|]. assert (q = qceil q0) as -> by congruence. destruct (ceil_r q0) as (w & -> & _). exists w. reflexivity.
    + split; [reflexivity|]. assert (q = (qfloor q0 + zq 1)%Qc) as -> by congruence. destruct (floor_r q0) as (w & -> & _). exists (w + 1)%Z. apply rv_inj. rewrite rv_add, !rv_zq, plus_IZR. reflexivity.
Qed.
Lemma u_floor_integral u : fract_bound u -> integral (u_floor A u).
Proof.
  intros W s q E. unfold u_floor in *. destruct u as [v f]. unfold is_max, fract_bound in *. cbn [bv bf] in *. destruct v as [|i|s0 q0].
  - cbn in E. discriminate.
  - destruct i; cbn in E; discriminate.
  - specialize (W _ _ eq_refl). cbn [veq negb andb] in *. rewrite in_fract_iff, W in *. cbn [negb andb] in *. unfold is_closed in *. cbn [bf] in *.
    destruct f; cbn [bv bf vceil vfloor vplus] in *.
    + split; [reflexivity|]. assert (q = (qceil q0 + zq (-1))%Qc) as -> by congruence. destruct (ceil_r q0) as (w & -> & _). exists (w + -1)%Z. apply rv_inj. rewrite rv_add, !rv_zq, plus_IZR. reflexivity.
    + split; [reflexivity|]. assert (q = qfloor q0) as -> by congruence. destruct (floor_r q0) as (w & -> & _). exists w. reflexivity.
    + split; [reflexivity|]. assert (q = (qceil q0 + zq (-1))%Qc) as -> by congruence. destruct (ceil_r q0) as (w & -> & _). exists (w + -1)%Z. apply rv_inj. rewrite rv_add, !rv_zq, plus_IZR. reflexivity.
Qed.
Lemma l_ceil_inf l : (forall i, bv l = Inf i -> l_ceil A l = l) /\ (forall i, bv (l_ceil A l) = Inf i -> bv l = Inf i) /\ (bv (l_ceil A l) = NaN -> bv l = NaN).
Proof.
  unfold l_ceil, is_min, is_closed. destruct l as [[|i|s q] f]; cbn [bv bf veq negb andb].
  - repeat split; discriminate || (intros; reflexivity) || tauto.
  - destruct i; cbn; repeat split; intros; congruence || reflexivity.
  - destruct (in_fract A (Fin s q)); [destruct f|]; cbn; repeat split; intros; discriminate.
Qed.
Lemma u_floor_inf u : (forall i, bv u = Inf i -> u_floor A u = u) /\ (forall i, bv (u_floor A u) = Inf i -> bv u = Inf i) /\ (bv (u_floor A u) = NaN -> bv u = NaN).
Proof.
  unfold u_floor, is_max, is_closed. destruct u as [[|i|s q] f]; cbn [bv bf veq negb andb].
  - repeat split; discriminate || (intros; reflexivity) || tauto.
  - destruct i; cbn; repeat split; intros; congruence || reflexivity.
  - destruct (in_fract A (Fin s q)); [destruct f|]; cbn; repeat split; intros; discriminate.
Qed.
Lemma set_integer_normal x : (bv (lo x) <> Inf false /\ bv (lo x) <> NaN) -> (bv (up x) <> Inf true /\ bv (up x) <> NaN) -> lower_inf (lo x) -> upper_inf (up x) ->
  fract_bound (lo x) -> fract_bound (up x) -> normal (set_integer A x).
Proof.
  intros [L1 L2] [U1 U2] LI UI WL WU. unfold set_integer. cbv zeta. destruct (b_gt (l_ceil A (lo x)) (u_floor A (up x))) eqn:G; [left; split; reflexivity|].
  right. cbn [lo up fl]. destruct (l_ceil_inf (lo x)) as (A1 & A2 & A3). destruct (u_floor_inf (up x)) as (B1 & B2 & B3).
  assert (IL := l_ceil_integral _ WL). assert (IU := u_floor_integral _ WU). split; [|split; [|split]].
  - apply (ne_hull (fun _ => True) (l_ceil A (lo x)) (u_floor A (up x))); [intros s q E; split; [destruct (IL _ _ E) as [-> _]; discriminate|exact Logic.I]|intros s q E; split; [destruct (IU _ _ E) as [-> _]; discriminate|exact Logic.I]| | |exact G]; split; intros E.
    + apply L1, A2, E.
    + apply L2, A3, E.
    + apply U1, B2, E.
    + apply U2, B3, E.
  - intros E. pose proof (A2 _ E) as E'. rewrite (A1 _ E'). apply LI, E'.
  - intros E. pose proof (B2 _ E) as E'. rewrite (B1 _ E'). apply UI, E'.
  - intros _. split; assumption.
Qed.
Lemma one_point_closed x : lower_bound rep (lo x) -> upper_bound rep (up x) -> is_one_point x = true -> (forall i, bv (lo x) <> Inf i) -> bv (lo x) <> NaN ->
  exists s s' q, lo x = mkB (Fin s q) ZERO /\ up x = mkB (Fin s' q) ZERO.
Proof.
  unfold is_one_point, b_eq. destruct (lo x) as [[|i|s q] f], (up x) as [[|j|s' q'] f']; cbn [bv bf veq]; try (intros; congruence); try discriminate.
  - intros WL WU E _ _. apply Bool.andb_true_iff in E. destruct E as [E1 E2]. apply qeq_iff in E1. apply rv_inj in E1. subst q'.
    destruct (WL _ _ eq_refl) as [N _]. destruct (WU _ _ eq_refl) as [N' _]. cbn [bf] in *. exists s, s', q.
    destruct f, f'; try congruence; try discriminate. split; reflexivity.
Qed.
Lemma set_maybe_real_normal x : formed rep x -> (exists r, hull x r) -> lower_inf (lo x) -> upper_inf (up x) -> normal (set_maybe_real A x).
Proof.
  intros [WL WU] [r H] LI UI. right. unfold set_maybe_real. cbn [lo up fl]. split; [exists r; exact H|]. split; [exact LI|]. split; [exact UI|].
  destruct (is_one_point x && is_integer A (bv (lo x))) eqn:E; [intros _|discriminate]. apply Bool.andb_true_iff in E. destruct E as [E1 E2].
  destruct (normal_proper x r H) as [[P1 P2] _].
  assert (NI : forall i, bv (lo x) <> Inf i). { intros [|] E; [|congruence]. unfold is_integer in E2. rewrite E in E2. discriminate. }
  destruct (one_point_closed x WL WU E1 NI P2) as (s & s' & q & EL & EU).
  assert (Iq : integer (rv q)). { apply (is_integer_iff A rep Hd s q); [apply (WL s q); rewrite EL; reflexivity|]. rewrite EL in E2. exact E2. }
  destruct Iq as [z Ez]. assert (q = zq z) as -> by (apply rv_inj; rewrite rv_zq; exact Ez).
  rewrite EL, EU. split; intros s0 q0 E; cbn in *; (split; [reflexivity|exists z; congruence]).
Qed.
(** The constructor with two boundaries (Interval.inlines.hh:168-178). *)
Lemma make_normal l u t : formed rep (mkI l u t) -> lower_inf l -> upper_inf u -> (bv l <> Inf false /\ bv l <> NaN) -> (bv u <> Inf true /\ bv u <> NaN) ->
  (t = REAL -> b_gt l u = false) -> (t = INTEGER -> fract_bound l /\ fract_bound u) ->
  normal (i_make A l u t) /\ forall r, member r (i_make A l u t) <-> above l r /\ below u r /\ (t = INTEGER -> integer r).
Proof.
  intros W LI UI L U G Wf. unfold i_make. assert (W' : formed rep (mkI l u REAL)) by exact W. destruct t; cbn [is_int set_type].
  - split.
    + apply set_maybe_real_normal; auto. apply (ne_hull rep l u); auto; apply W.
    + intros r. rewrite (set_maybe_real_iff A rep Hd) by exact W'. unfold hull. cbn [lo up]. split; [intros [? ?]; split; [assumption|split; [assumption|discriminate]]|tauto].
  - split.
    + destruct (Wf eq_refl). apply set_integer_normal; auto.
    + intros r. rewrite (set_integer_iff A rep) by exact W'. unfold hull. cbn [lo up]. tauto.
Qed.
Lemma normal_members x : normal x -> (exists a, member a x) -> (exists r, hull x r) /\ lower_inf (lo x) /\ upper_inf (up x) /\ (fl x = INTEGER -> integral (lo x) /\ integral (up x)).
Proof. intros [[E _]|H] [a [[L _] _]]; [unfold above in L; rewrite E in L; discriminate|exact H]. Qed.
Lemma or_normal x y : formed rep x -> formed rep y -> normal x -> normal y -> (exists a, member a x) -> (exists b, member b y) -> normal (i_or x y).
Proof.
  intros W W' N N' M M'. pose proof M as [a Ha]. destruct (normal_members x N M) as (_ & L1 & U1 & I1). destruct (normal_members y N' M') as (_ & L2 & U2 & I2). right.
  assert (H : member a (i_or x y) \/ fl x = INTEGER /\ fl y = INTEGER \/ hull (i_or x y) a).
  { right. right. destruct (or_bounds rep x y a W W') as [K1 K2]; [exists a; apply Ha|destruct M' as [b Hb]; exists b; apply Hb|]. split; [apply K1|apply K2]; left; apply Ha. }
  assert (Hh : hull (i_or x y) a). { destruct (or_bounds rep x y a W W') as [K1 K2]; [exists a; apply Ha|destruct M' as [b Hb]; exists b; apply Hb|]. split; [apply K1|apply K2]; left; apply Ha. }
  split; [exists a; exact Hh|]. unfold i_or. cbn [lo up fl]. split; [destruct (b_lt (lo y) (lo x)); assumption|]. split; [destruct (b_gt (up y) (up x)); assumption|].
  destruct (fl y); [discriminate|]. intros E. destruct (I1 E), (I2 eq_refl). split; [destruct (b_lt (lo y) (lo x)); assumption|destruct (b_gt (up y) (up x)); assumption].
Qed.
Lemma and_normal x y : formed rep x -> formed rep y -> normal x -> normal y -> fract_bound (lo x) -> fract_bound (up x) -> fract_bound (lo y) -> fract_bound (up y) ->
  (exists a, member a x) -> (exists b, member b y) -> normal (i_and A x y).
Proof.
  intros W W' N N' F1 F2 F3 F4 M M'. pose proof M as [a Ha]. pose proof M' as [b Hb]. destruct (normal_members x N M) as (_ & L1 & U1 & I1). destruct (normal_members y N' M') as (_ & L2 & U2 & I2).
  destruct (normal_proper x a (proj1 Ha)) as [PL PU]. destruct (normal_proper y b (proj1 Hb)) as [PL' PU'].
  unfold i_and. set (l := if b_gt (lo y) (lo x) then lo y else lo x). set (u := if b_lt (up y) (up x) then up y else up x).
  assert (Wl : lower_bound rep l) by (unfold l; destruct (b_gt (lo y) (lo x)); [apply W'|apply W]).
  assert (Wu : upper_bound rep u) by (unfold u; destruct (b_lt (up y) (up x)); [apply W'|apply W]).
  assert (Pl : (bv l <> Inf false /\ bv l <> NaN) /\ lower_inf l /\ fract_bound l) by (unfold l; destruct (b_gt (lo y) (lo x)); tauto).
  assert (Pu : (bv u <> Inf true /\ bv u <> NaN) /\ upper_inf u /\ fract_bound u) by (unfold u; destruct (b_lt (up y) (up x)); tauto).
  destruct Pl as (Pl1 & Pl2 & Pl3). destruct Pu as (Pu1 & Pu2 & Pu3). clearbody l u.
  assert (S : forall t, normal (set_integer A (mkI l u t))) by (intros t; apply set_integer_normal; assumption).
  cbv zeta. destruct (fl x), (fl y); try apply S. destruct (b_gt l u) eqn:G; [left; split; reflexivity|]. apply set_maybe_real_normal; auto; [split; assumption|]. apply (ne_hull rep l u); assumption.
Qed.
Lemma fract_bounds x : within_fract A x -> fract_bound (lo x) /\ fract_bound (up x).
Proof.
  intros [H1 H2]. split; intros s q E; rewrite E; destruct (big A (Fin s q)) eqn:K; auto; apply (big_iff A) in K; [specialize (H1 _ _ E)|specialize (H2 _ _ E)];
    unfold Rabs in *; destruct (Rcase_abs _); lra.
Qed.
End Arith.

(** * Empty intervals that are not the canonical one *)
Lemma empty_no_member : no_member i_empty.
Proof. intros r [H _]. exact (empty_no_hull r H). Qed.
Lemma neg_empty_fails : no_member (i_neg i_empty) /\ i_eq (i_neg i_empty) i_empty = false /\ subset (i_neg i_empty) i_empty = true.
Proof. split; [|split; reflexivity]. intros r [[H _] _]. discriminate H. Qed.
Lemma mul_empty_fails A s q : rv q = 0 -> member 0 (i_mul_v A i_empty (Fin s q)).
Proof.
  intros Z. unfold i_mul_v. assert (L : vlt (Fin s q) (num 0) = false) by (unfold vlt, num; apply qlt_false; rewrite rv_zq; lra). rewrite L.
  assert (V : vzero (Fin s q) = true) by (unfold vzero, veq, num; apply qeq_iff; rewrite rv_zq; exact Z).
  unfold mul_v. rewrite V. cbn [i_empty fl is_int andb].
  assert (F : fract A = fract A) by reflexivity. unfold set_type. destruct (is_integer A (Fin s q)).
  - apply (set_integer_iff A (fun _ => True)); [split; intros s0 q0 E; cbn in *; (split; [discriminate|exact Logic.I])|]. split; [split; unfold above, below; cbn; rewrite rv_zq; lra|exists 0%Z; reflexivity].
  - split; [split; unfold above, below, set_maybe_real; cbn; rewrite rv_zq; lra|]. intros _. exists 0%Z. reflexivity.
Qed.
Definition below_five : ivl := mkI b_min (b_value (num 5)) REAL.
Lemma add_empty_fails A : no_member (i_add A i_empty below_five) /\ is_empty (i_add A i_empty below_five) = false /\ ok (i_add A i_empty below_five) = true.
Proof.
  assert (E : i_add A i_empty below_five = mkI (mkB NaN NEG) (mkB (Inf true) POS) REAL).
  { unfold i_add. change (is_one_point below_five) with false. reflexivity. }
  rewrite E. split; [|split; reflexivity]. intros r [[H _] _]. exact H.
Qed.
Lemma exp_empty_fails A rep : directed_functions A rep -> no_member (i_exp A i_empty) /\ ok (i_exp A i_empty) = false.
Proof.
  intros Hf. destruct (exp_minus_inf A rep Hf true) as [s E]. pose proof (plus_inf A rep Hf Exp false (or_introl eq_refl)) as E'.
  unfold i_exp, b_fn, i_empty, set_maybe_real. cbn [lo up fl b_max b_min bv]. rewrite E, E'. split.
  - intros r [[H _] _]. discriminate H.
  - reflexivity.
Qed.
(** Open boundaries beyond BOUNDARY_MAX_FRACT stay: (w, w + 1) has no integers, but does not become the empty interval. *)
Lemma large_open_fails A rep w : directed A rep -> rv (fract A) < IZR w -> rep (zq w) -> rep (zq (w + 1)) ->
  let x := i_make A (mkB (num w) POS) (mkB (num (w + 1)) NEG) INTEGER in no_member x /\ is_empty x = false.
Proof.
  intros Hd H R R' x.
  assert (B : forall v, (w <= v)%Z -> big A (num v) = true). { intros v K. apply (big_iff A). rewrite rv_zq. right. apply IZR_le in K. lra. }
  assert (EL : l_ceil A (mkB (num w) POS) = mkB (num w) POS). { unfold l_ceil, is_min. cbn [bv]. unfold num at 1 2. cbn [veq negb andb]. rewrite in_fract_iff. fold (num w). rewrite B by lia. reflexivity. }
  assert (EU : u_floor A (mkB (num (w + 1)) NEG) = mkB (num (w + 1)) NEG). { unfold u_floor, is_max. cbn [bv]. unfold num at 1 2. cbn [veq negb andb]. rewrite in_fract_iff. fold (num (w + 1)). rewrite B by lia. reflexivity. }
  assert (G : b_gt (mkB (num w) POS) (mkB (num (w + 1)) NEG) = false).
  { unfold b_gt, vgt. cbn [bv bf]. unfold num, vlt, veq. replace (qlt (zq (w + 1)) (zq w)) with false by (symmetry; apply qlt_false; rewrite !rv_zq; apply IZR_le; lia).
    replace (qeq (zq w) (zq (w + 1))) with false; [reflexivity|]. symmetry. apply qeq_false. rewrite !rv_zq. intros E. apply eq_IZR in E. lia. }
  assert (Ex : x = mkI (mkB (num w) POS) (mkB (num (w + 1)) NEG) INTEGER). { unfold x, i_make. cbn [is_int set_type]. unfold set_integer. cbn [lo up]. rewrite EL, EU, G. reflexivity. }
  rewrite Ex. split; [|exact G]. intros r [[K1 K2] K3]. destruct (K3 eq_refl) as [z ->]. unfold above, below in *. cbn in *. rewrite rv_zq in *. apply lt_IZR in K1. apply lt_IZR in K2. lia.
Qed.

(** * Widening of intervals of integers *)
Definition from (z : Z) : ivl := mkI (b_value (num z)) b_max INTEGER.
Lemma from_le z w : (w <= z)%Z -> subset_eq (from z) (from w) = true.
Proof.
  intros H. unfold subset_eq, from. cbn [fl up lo]. change (b_le b_max b_max) with true. cbn [andb]. unfold b_ge, b_lt, b_value. cbn [bv bf]. unfold num, vlt, veq.
  replace (qlt (zq z) (zq w)) with false by (symmetry; apply qlt_false; rewrite !rv_zq; apply IZR_le; lia). cbn. rewrite Bool.andb_false_r. reflexivity.
Qed.
Lemma from_widen A z old : rv (odd A) < IZR z -> (1 < z)%Z -> i_widen A (from z) (from old) = from z.
Proof.
  intros H Z1. unfold i_widen. change (lo (from z)) with (b_value (num z)). change (up (from z)) with b_max. change (fl (from z)) with INTEGER. change (b_gt b_max (up (from old))) with false. cbv iota.
  destruct (b_lt (b_value (num z)) (lo (from old))); [|reflexivity]. cbn [is_int widen_lower].
  assert (E : lv_ge (b_value (num z)) (num 1) = true). { unfold lv_ge, b_value, num, vlt. cbn [bv]. replace (qlt (zq z) (zq 1)) with false; [reflexivity|]. symmetry. apply qlt_false. rewrite !rv_zq. apply IZR_le. lia. }
  rewrite E. assert (E1 : bv_gt (b_value (num z)) (num 1) = true). { unfold bv_gt, vgt, b_value, num, vlt. cbn [bv]. replace (qlt (zq 1) (zq z)) with true; [reflexivity|]. symmetry. apply qlt_iff. rewrite !rv_zq. apply IZR_lt. lia. }
  rewrite E1. unfold set_gt. cbn [b_value bv]. replace (vgt (num z) (Fin false (odd A))) with true; [rewrite Bool.orb_true_r; reflexivity|]. symmetry. unfold vgt, vlt, num. apply qlt_iff. rewrite rv_zq. exact H.
Qed.
Lemma widen_integers_fail A (n : nat) : exists z x : nat -> ivl,
  (forall k, typed (z k)) /\ (forall k, lower_inf (lo (z k)) /\ upper_inf (up (z k))) /\ (forall k, no_nan (z k)) /\ no_nan (x 0%nat) /\ (forall k, fl (z k) = INTEGER) /\
  (forall k, subset_eq (x k) (z k) = true) /\ (forall k, x (S k) = i_widen A (z k) (x k)) /\ forall k, (k < n)%nat -> i_eq (x (S k)) (x k) = false.
Proof.
  destruct (ceil_r (odd A)) as (c & _ & Hc). set (M := Z.max (c + 1) 2).
  set (low := fun k => (M + Z.of_nat (n - k))%Z).
  assert (HM : rv (odd A) < IZR M /\ (1 < M)%Z). { split; [|unfold M; lia]. assert (IZR (c + 1) <= IZR M) by (apply IZR_le; unfold M; lia). rewrite plus_IZR in *. lra. }
  assert (HL : forall k, rv (odd A) < IZR (low k) /\ (1 < low k)%Z). { intros k. unfold low. split; [|lia]. assert (IZR M <= IZR (M + Z.of_nat (n - k))) by (apply IZR_le; lia). lra. }
  exists (fun k => from (low k)), (fun k => match k with O => from (low 0%nat + 1) | S j => from (low j) end).
  split; [intros k; split; right; discriminate|]. split; [intros k; split; [intros E; discriminate|intros _; reflexivity]|]. split; [intros k; split; discriminate|]. split; [split; discriminate|]. split; [reflexivity|].
  split; [|split].
  - intros [|k]; apply from_le; unfold low; lia.
  - intros k. destruct (HL k). destruct k; symmetry; apply from_widen; assumption.
  - intros k Hk. assert (N : forall a b, a <> b -> i_eq (from a) (from b) = false).
    { intros a b D. unfold i_eq, b_eq, from, b_value, num, veq. cbn [lo up fl bv bf]. replace (qeq (zq a) (zq b)) with false; [reflexivity|]. symmetry. apply qeq_false. rewrite !rv_zq. intros E. apply D, eq_IZR, E. }
    destruct k; apply N; unfold low; lia.
Qed.
