(** The circular functions of intervals. *)
From Coq Require Import ZArith QArith Qcanon Qround Reals Qreals Lra Lia Bool.
From Verif Require Import Bool3Model Ast IvlModel IvlSpec IvlProofs IvlProofs2 IvlProofs3 IvlProofs4 IvlProofs5 IvlProofs6 ItgModel ItgSpec ItgReal.
Local Open Scope R_scope.
Set Bullet Behavior "Strict Subproofs".

Ltac neq K := first [lra | destruct (Rdichotomy _ _ K); lra].

Ltac fin ORD XA XB L2 :=
  intros [K|K]; destruct ORD as [O|O]; first [neq K | congruence | specialize (L2 (XA K)); lra | specialize (L2 (XB K)); lra | destruct O as (? & ? & ? & ? & ?); first [congruence | neq K]].

Section Arith.
Variables (A : arith) (rep : Qc -> Prop).
Hypothesis Hd : directed A rep.
Hypothesis Hc : correctly_rounded A rep.

Lemma bfn_side f dir b t : (match fst (fn A f dir (bv b)) with NaN => False | Inf i => i = negb dir | Fin _ p => sle dir (rv p) t /\ (is_closed b = false \/ snd (fn A f dir (bv b)) = true -> slt dir (rv p) t) end) ->
  side dir (b_fn A f dir b) t.
Proof.
  intros H. unfold b_fn. apply (compute_side dir b b _ false). destruct (fst (fn A f dir (bv b))); try exact H.
  destruct H as [H1 H2]. split; [exact H1|]. intros [C|[[C _]|C]]; [apply H2; tauto|discriminate|apply H2; tauto].
Qed.
Lemma down_inv f b s q : circular f -> bv b = Fin s q ->
  exists s' p, bv (b_fn A f false b) = Fin s' p /\ rep p /\ rv p <= exact f (rv q) /\ (forall m, rep m -> rv m <= exact f (rv q) -> rv m <= rv p) /\
    (is_closed (b_fn A f false b) = true <-> is_closed b = true /\ rv p = exact f (rv q)) /\
    (forall t, rv p <= t -> (is_closed b = false \/ rv p <> exact f (rv q) -> rv p < t) -> above (b_fn A f false b) t).
Proof.
  intros C E. destruct (circular_down A rep Hc f s q C) as (s' & p & E1 & R & L & T & W). exists s', p. split; [unfold b_fn, compute; rewrite E; exact E1|].
  split; [exact R|]. split; [exact L|]. split; [exact T|]. split.
  - unfold b_fn, compute, is_closed. cbn [bf]. rewrite E. destruct (snd (fn A f false (Fin s q))) eqn:K.
    + destruct (bf b); cbn; split; try discriminate; intros [K1 K2]; try discriminate. apply W in K2. discriminate.
    + assert (rv p = exact f (rv q)) by (apply W; reflexivity). destruct (bf b); cbn; intuition.
  - intros t H1 H2. change (side false (b_fn A f false b) t). apply bfn_side. rewrite E, E1. cbn [sle slt]. split; [exact H1|]. intros [K|K]; apply H2; [left; exact K|right; intros D; apply W in D; congruence].
Qed.
Lemma up_inv f b s q : circular f -> bv b = Fin s q ->
  exists s' p, bv (b_fn A f true b) = Fin s' p /\ rep p /\ exact f (rv q) <= rv p /\ (forall m, rep m -> exact f (rv q) <= rv m -> rv p <= rv m) /\
    (is_closed (b_fn A f true b) = true <-> is_closed b = true /\ rv p = exact f (rv q)) /\
    (forall t, t <= rv p -> (is_closed b = false \/ rv p <> exact f (rv q) -> t < rv p) -> below (b_fn A f true b) t).
Proof.
  intros C E. destruct (circular_up A rep Hc f s q C) as (s' & p & E1 & R & L & T & W). exists s', p. split; [unfold b_fn, compute; rewrite E; exact E1|].
  split; [exact R|]. split; [exact L|]. split; [exact T|]. split.
  - unfold b_fn, compute, is_closed. cbn [bf]. rewrite E. destruct (snd (fn A f true (Fin s q))) eqn:K.
    + destruct (bf b); cbn; split; try discriminate; intros [K1 K2]; try discriminate. apply W in K2. discriminate.
    + assert (rv p = exact f (rv q)) by (apply W; reflexivity). destruct (bf b); cbn; intuition.
  - intros t H1 H2. change (side true (b_fn A f true b) t). apply bfn_side. rewrite E, E1. cbn [sle slt]. split; [exact H1|]. intros [K|K]; apply H2; [left; exact K|right; intros D; apply W in D; congruence].
Qed.
Lemma fn_good f dir b : good_flag dir b -> good_flag dir (b_fn A f dir b).
Proof. unfold b_fn, compute, good_flag, oc, is_closed. destruct dir, (bf b), (snd _); cbn; intros; congruence. Qed.
Lemma fn_bnd f dir b s q : circular f -> good_flag dir b -> bv b = Fin s q -> bound rep dir (b_fn A f dir b).
Proof.
  intros C G E. apply (compute_bound rep dir b b _ false); [exact G|]. intros s1 p1 E1. rewrite E in E1. destruct dir.
  - destruct (circular_up A rep Hc f s q C) as (s' & p & E2 & R & _). assert (p1 = p) by congruence. subst p1. exact R.
  - destruct (circular_down A rep Hc f s q C) as (s' & p & E2 & R & _). assert (p1 = p) by congruence. subst p1. exact R.
Qed.
Lemma gt_flags l u : good_flag false l -> good_flag true u -> forall s p s' q, bv l = Fin s p -> bv u = Fin s' q ->
  (b_gt l u = true <-> rv q < rv p \/ (rv p = rv q /\ ~ (is_closed l = true /\ is_closed u = true))).
Proof.
  intros G1 G2 s p s' q E1 E2. unfold b_gt, vgt. rewrite E1, E2. cbn [vlt veq]. rewrite Bool.orb_true_iff, Bool.andb_true_iff, qlt_iff, qeq_iff.
  unfold good_flag, is_closed in *. destruct (bf l), (bf u); try congruence; cbn; intuition congruence.
Qed.

(** A function with minima at [mins] and maxima at [maxs]. *)
Variable f : func.
Hypothesis Cf : circular f.
Variables (omin omax : R).
Let g := exact f.
Hypothesis bounded : forall r, -1 <= g r <= 1.
Hypothesis low : forall a b r, a <= r <= b -> (forall k, ~ (a < omin + IZR k * (2 * PI) < b)) -> (g a <= g r /\ (a < r -> g a < g r)) \/ (g b <= g r /\ (r < b -> g b < g r)).
Hypothesis high : forall a b r, a <= r <= b -> (forall k, ~ (a < omax + IZR k * (2 * PI) < b)) -> (g r <= g a /\ (a < r -> g r < g a)) \/ (g r <= g b /\ (r < b -> g r < g b)).

Lemma unbounded_finds x o r : (bv (lo x) = Inf true \/ bv (up x) = Inf false) -> hull x r -> exists k, hull x (o + IZR k * (2 * PI)).
Proof.
  intros I [H1 H2]. pose proof PI_RGT_0 as P. destruct I as [E|E].
  - destruct (multiple_at (r - o) (2 * PI)) as [k Hk]; [lra|]. exists (k - 1)%Z. rewrite minus_IZR. split; [unfold above; rewrite E; reflexivity|apply below_down with r; [exact H2|lra]].
  - destruct (multiple_at (r - o) (2 * PI)) as [k Hk]; [lra|]. exists k. split; [apply above_up with r; [exact H1|lra]|unfold below; rewrite E; reflexivity].
Qed.

Lemma wave_in x a tomin tomax : formed rep x -> typed x -> no_tie rep f x -> finds x omin (2 * PI) tomin -> finds x omax (2 * PI) tomax -> hull x a ->
  formed rep (wave A f tomin tomax x) /\ hull (wave A f tomin tomax x) (g a).
Proof.
  intros W T NT FN FX H. destruct (hull_flags x a T H) as [G1 G2]. pose proof H as [H1 H2]. pose proof (bounded a) as BD.
  assert (B1 : lower_bound rep (b_value (num (-1)))).
  { intros s q E. split; [discriminate|]. unfold b_value, num in E. cbn [bv] in E. assert (q = zq (-1)) as -> by congruence.
    apply (rep_integer A rep Hd). pose proof (fract_positive A rep Hd). unfold Rabs. destruct (Rcase_abs _); lra. }
  assert (B2 : upper_bound rep (b_value (num 1))).
  { intros s q E. split; [discriminate|]. unfold b_value, num in E. cbn [bv] in E. assert (q = zq 1) as -> by congruence.
    apply (rep_integer A rep Hd). pose proof (fract_positive A rep Hd). unfold Rabs. destruct (Rcase_abs _); lra. }
  assert (S1 : above (b_value (num (-1))) (g a)) by (unfold above, b_value, num; cbn [bv bf]; rewrite rv_zq; lra).
  assert (S2 : below (b_value (num 1)) (g a)) by (unfold below, b_value, num; cbn [bv bf]; rewrite rv_zq; lra).
  unfold wave. destruct (tomin && tomax) eqn:TT; [split; split; assumption|].
  assert (FIN : exists s p s' q, bv (lo x) = Fin s p /\ bv (up x) = Fin s' q /\ rv p <= a <= rv q /\ (is_closed (lo x) = false -> rv p < a) /\ (is_closed (up x) = false -> a < rv q)).
  { destruct (above_inv _ _ H1) as [E|(s & p & E & X1 & X2)]; [|destruct (below_inv _ _ H2) as [E'|(s' & q & E' & Y1 & Y2)]; [|exists s, p, s', q; repeat split; assumption]].
    - destruct (unbounded_finds x omin a (or_introl E) H) as [k Hk]. destruct (unbounded_finds x omax a (or_introl E) H) as [k' Hk']. apply FN in Hk. apply FX in Hk'. subst. discriminate.
    - destruct (unbounded_finds x omin a (or_intror E') H) as [k Hk]. destruct (unbounded_finds x omax a (or_intror E') H) as [k' Hk']. apply FN in Hk. apply FX in Hk'. subst. discriminate. }
  destruct FIN as (s & q1 & s' & q2 & E1 & E2 & [HA HB] & XA & XB).
  assert (IN : forall m, rv q1 < m < rv q2 -> hull x m). { intros m Hm. split; [unfold above; rewrite E1; destruct (bf (lo x)); lra|unfold below; rewrite E2; destruct (bf (up x)); lra]. }
  assert (LOW : tomin = false -> (g (rv q1) <= g a /\ (rv q1 < a -> g (rv q1) < g a)) \/ (g (rv q2) <= g a /\ (a < rv q2 -> g (rv q2) < g a))).
  { intros Z. apply low; [lra|]. intros k K. apply IN, FN in K. congruence. }
  assert (HIGH : tomax = false -> (g a <= g (rv q1) /\ (rv q1 < a -> g a < g (rv q1))) \/ (g a <= g (rv q2) /\ (a < rv q2 -> g a < g (rv q2)))).
  { intros Z. apply high; [lra|]. intros k K. apply IN, FX in K. congruence. }
  destruct (down_inv f (lo x) s q1 Cf E1) as (sl & l & EL & RL & LL & TL & CL & AL). destruct (up_inv f (up x) s' q2 Cf E2) as (su & u & EU & RU & LU & TU & CU & BU).
  assert (GF : b_gt (b_fn A f false (lo x)) (b_fn A f true (up x)) = true <-> rv u < rv l \/ (rv l = rv u /\ ~ (is_closed (b_fn A f false (lo x)) = true /\ is_closed (b_fn A f true (up x)) = true))).
  { apply gt_flags with sl su; auto; apply fn_good; assumption. }
  fold g in LL, TL, CL, AL, LU, TU, CU, BU.
  destruct (b_gt (b_fn A f false (lo x)) (b_fn A f true (up x))) eqn:GT.
  - assert (GT' := proj1 GF eq_refl). clear GF.
    (* the value at the upper boundary is smaller, or the same and both boundaries are open *)
    assert (ORD : g (rv q2) < g (rv q1) \/ (g (rv q2) = g (rv q1) /\ rv q1 < a /\ a < rv q2)).
    { destruct GT' as [K|[K1 K2]]; [left; lra|]. destruct (Rtotal_order (g (rv q2)) (g (rv q1))) as [D|[D|D]]; [left; exact D|right|lra]. split; [exact D|].
      destruct (is_closed (lo x)) eqn:O1, (is_closed (up x)) eqn:O2; [exfalso|exfalso|exfalso|split; auto].
      - apply K2. rewrite CL, CU. split; split; [reflexivity|lra|reflexivity|lra].
      - apply (NT s q1 s' q2 l E1 E2); [congruence|fold g; lra|fold g; lra|exact RL].
      - apply (NT s q1 s' q2 l E1 E2); [congruence|fold g; lra|fold g; lra|exact RL]. }
    assert (OLE : g (rv q2) <= g (rv q1)) by (destruct ORD as [O|[O _]]; lra).
    destruct (down_inv f (b_set false (up x)) s' q2 Cf E2) as (sl' & l' & EL' & RL' & LL' & TL' & CL' & AL'). destruct (up_inv f (b_set true (lo x)) s q1 Cf E1) as (su' & u' & EU' & RU' & LU' & TU' & CU' & BU').
    rewrite closed_set in *. fold g in LL', AL', LU', BU'. split.
    + split; cbn [lo up].
      * destruct tomin; [exact B1|]. change (bound rep false (b_fn A f false (b_set false (up x)))). apply fn_bnd with s' q2; auto. apply good_set.
      * destruct tomax; [exact B2|]. change (bound rep true (b_fn A f true (b_set true (lo x)))). apply fn_bnd with s q1; auto. apply good_set.
    + split; cbn [lo up].
      * destruct tomin; [exact S1|]. destruct (LOW eq_refl) as [[L1 L2]|[L1 L2]]; apply AL'; try lra; fin ORD XA XB L2.
      * destruct tomax; [exact S2|]. destruct (HIGH eq_refl) as [[L1 L2]|[L1 L2]]; apply BU'; try lra; fin ORD XA XB L2.
  - assert (NGT : ~ (rv u < rv l \/ (rv l = rv u /\ ~ (is_closed (b_fn A f false (lo x)) = true /\ is_closed (b_fn A f true (up x)) = true)))) by (intros K; apply GF in K; discriminate). clear GF.
    assert (ORD : (rv l < g (rv q2) /\ g (rv q1) < rv u) \/ (is_closed (lo x) = true /\ is_closed (up x) = true /\ rv l = rv u /\ rv l = g (rv q1) /\ rv u = g (rv q2))).
    { destruct (Rtotal_order (rv l) (rv u)) as [D|[D|D]]; [left|right|exfalso; apply NGT; left; exact D].
      - split; [destruct (Rlt_or_le (rv l) (g (rv q2))) as [K|K]; [exact K|specialize (TU l RL K); lra]|destruct (Rlt_or_le (g (rv q1)) (rv u)) as [K|K]; [exact K|specialize (TL u RU K); lra]].
      - destruct (is_closed (b_fn A f false (lo x))) eqn:O1; [|exfalso; apply NGT; right; split; [exact D|intros [? _]; discriminate]].
        destruct (is_closed (b_fn A f true (up x))) eqn:O2; [|exfalso; apply NGT; right; split; [exact D|intros [_ ?]; discriminate]].
        destruct (proj1 CL eq_refl). destruct (proj1 CU eq_refl). repeat split; assumption. }
    split.
    + split; cbn [lo up].
      * destruct tomin; [exact B1|]. change (bound rep false (b_fn A f false (lo x))). apply fn_bnd with s q1; auto.
      * destruct tomax; [exact B2|]. change (bound rep true (b_fn A f true (up x))). apply fn_bnd with s' q2; auto.
    + split; cbn [lo up].
      * destruct tomin; [exact S1|]. destruct (LOW eq_refl) as [[L1 L2]|[L1 L2]]; apply AL; try lra; fin ORD XA XB L2.
      * destruct tomax; [exact S2|]. destruct (HIGH eq_refl) as [[L1 L2]|[L1 L2]]; apply BU; try lra; fin ORD XA XB L2.
Qed.
End Arith.

Section Results.
Variables (A : arith) (rep : Qc -> Prop).
Hypothesis Hd : directed A rep.
Hypothesis Hc : correctly_rounded A rep.

Lemma cos_in pi2 x a : formed rep x -> typed x -> no_tie rep Cos x ->
  finds x PI (2 * PI) (contains_multiple A x (half_pi pi2 2) (half_pi pi2 4)) -> finds x 0 (2 * PI) (contains_multiple A x (num 0) (half_pi pi2 4)) ->
  member a x -> member (cos a) (i_cos A pi2 x).
Proof.
  intros W T NT F1 F2 [H _]. unfold i_cos. cbv zeta.
  destruct (wave_in A rep Hd Hc Cos (or_intror (or_introl eq_refl)) PI 0 COS_bound cos_low cos_high x a _ _ W T NT F1 F2 H) as [W' H'].
  apply (set_maybe_real_iff A rep Hd); assumption.
Qed.
Lemma sin_in pi2 x a : formed rep x -> typed x -> no_tie rep Sin x ->
  finds x (- (PI / 2)) (2 * PI) (contains_multiple A x (half_pi pi2 (-1)) (half_pi pi2 4)) -> finds x (PI / 2) (2 * PI) (contains_multiple A x (half_pi pi2 1) (half_pi pi2 4)) ->
  member a x -> member (sin a) (i_sin A pi2 x).
Proof.
  intros W T NT F1 F2 [H _]. unfold i_sin. cbv zeta.
  destruct (wave_in A rep Hd Hc Sin (or_introl eq_refl) (- (PI / 2)) (PI / 2) SIN_bound sin_low sin_high x a _ _ W T NT F1 F2 H) as [W' H'].
  apply (set_maybe_real_iff A rep Hd); assumption.
Qed.
Lemma tan_in pi2 x a : formed rep x -> typed x ->
  (forall k, touches x (PI / 2 + IZR k * PI) -> contains_multiple A x (half_pi pi2 1) (half_pi pi2 2) = true) ->
  member a x -> member (tan a) (i_tan A pi2 x).
Proof.
  intros W T F [H _]. unfold i_tan. apply (set_maybe_real_iff A rep Hd); (destruct (contains_multiple A x (half_pi pi2 1) (half_pi pi2 2)) eqn:CM; [split; try reflexivity; intros s q E; discriminate|]).
  all: assert (NP : forall k, ~ touches x (PI / 2 + IZR k * PI)) by (intros k K; apply F in K; discriminate).
  all: destruct (hull_flags x a T H) as [G1 G2]; pose proof H as [H1 H2]; pose proof PI_RGT_0 as P.
  all: assert (FIN : exists s p s' q, bv (lo x) = Fin s p /\ bv (up x) = Fin s' q /\ rv p <= a <= rv q /\ (is_closed (lo x) = false -> rv p < a) /\ (is_closed (up x) = false -> a < rv q)).
  1, 3: (destruct (multiple_at (a - PI / 2) PI P) as [k Hk]; pose proof (NP k) as N1; pose proof (NP (k - 1)%Z) as N2; rewrite minus_IZR in N2;
    destruct (above_inv _ _ H1) as [E|(s & p & E & X1 & X2)];
    [exfalso; apply N2; split; [unfold above; cbn [lo bv]; rewrite E; reflexivity|unfold below; cbn [up bv]; unfold below in H2; destruct (bv (up x)); [exact H2|exact H2|destruct (bf (up x)); cbn [bf] in *; lra]]|];
    destruct (below_inv _ _ H2) as [E'|(s' & q & E' & Y1 & Y2)];
    [exfalso; apply N1; split; [unfold above; cbn [lo bv bf]; rewrite E; cbn [bf]; lra|unfold below; cbn [up bv]; rewrite E'; reflexivity]|];
    exists s, p, s', q; repeat split; assumption).
  all: destruct FIN as (s & p & s' & q & E1 & E2 & [HA HB] & XA & XB).
  - split; cbn [lo up]; [change (bound rep false (b_fn A Tan false (lo x)))|change (bound rep true (b_fn A Tan true (up x)))]; eapply (fn_bnd A rep Hc); eauto; right; right; reflexivity.
  - assert (MON : forall c d, rv p <= c -> d <= rv q -> c < d -> tan c < tan d).
    { intros c d K1 K2 K3. apply tan_up; [exact K3|]. intros k K. apply (NP k). split; [unfold above; cbn [lo bv]; rewrite E1; cbn [bf]; lra|unfold below; cbn [up bv]; rewrite E2; cbn [bf]; lra]. }
    destruct (down_inv A rep Hc Tan (lo x) s p (or_intror (or_intror eq_refl)) E1) as (sl & l & EL & RL & LL & TL & CL & AL).
    destruct (up_inv A rep Hc Tan (up x) s' q (or_intror (or_intror eq_refl)) E2) as (su & u & EU & RU & LU & TU & CU & BU). cbn [exact] in *.
    split; cbn [lo up].
    + apply AL; [destruct HA as [K|K]; [specialize (MON (rv p) a ltac:(lra) HB K); lra|rewrite <- K; exact LL]|]. intros K. destruct HA as [D|D]; [specialize (MON (rv p) a ltac:(lra) HB D); lra|].
      destruct K as [K|K]; [specialize (XA K); lra|rewrite <- D; neq K].
    + apply BU; [destruct HB as [K|K]; [specialize (MON a (rv q) HA ltac:(lra) K); lra|rewrite K; exact LU]|]. intros K. destruct HB as [D|D]; [specialize (MON a (rv q) HA ltac:(lra) D); lra|].
      destruct K as [K|K]; [specialize (XB K); lra|rewrite D; neq K].
Qed.
End Results.
