(** Results are well formed; the remainder; widening and narrowing. *)
From Coq Require Import ZArith QArith Qcanon Qround Reals Qreals Lra Lia Psatz Bool List.
From Verif Require Import Bool3Model Ast IvlModel IvlSpec IvlProofs IvlProofs2 IvlProofs3 IvlProofs4 IvlProofs5 IvlProofs6 RatRootProofs ExprCases.
Local Open Scope R_scope.
Set Bullet Behavior "Strict Subproofs".

Section Arith.
Variables (A : arith) (rep : Qc -> Prop).
Hypothesis Hd : directed A rep.
Definition wf (x : ivl) : Prop := formed rep x /\ typed x.
Definition proper (dir : bool) (b : bnd) : Prop := good_flag dir b /\ bound rep dir b.
Lemma proper_val dir b : proper dir b -> forall s q, bv b = Fin s q -> rep q.
Proof. intros [_ H] s q E. destruct dir; apply (H s q E). Qed.
Lemma proper_intro dir b : good_flag dir b -> (forall s q, bv b = Fin s q -> rep q) -> proper dir b.
Proof. intros G H. split; [exact G|]. apply bound_flag; assumption. Qed.
Lemma wf_proper x a : wf x -> hull x a -> proper false (lo x) /\ proper true (up x).
Proof. intros [[WL WU] T] H. destruct (hull_flags x a T H) as [G G2]. exact (conj (conj G WL) (conj G2 WU)). Qed.
Lemma proper_wf x : proper false (lo x) -> proper true (up x) -> wf x.
Proof. intros [G W] [G' W']. split; split; auto; right; assumption. Qed.
Lemma wf_empty : wf i_empty.
Proof. split; split; try (intros s q E; discriminate); left; reflexivity. Qed.

Lemma rep_near z q : rv q < - rv (fract A) \/ rv (fract A) < rv q \/ (rv q - 1 <= IZR z <= rv q + 1) -> big A (Fin true q) = false -> rep (zq z).
Proof.
  intros H B. assert (~ (rv q < - rv (fract A) \/ rv (fract A) < rv q)) by (intros K; apply (big_iff A true) in K; congruence).
  apply (rep_integer A rep Hd). unfold Rabs. destruct (Rcase_abs (IZR z)); destruct H as [H|[H|H]]; try tauto; lra.
Qed.
Lemma big_sign s q : big A (Fin s q) = big A (Fin true q).
Proof. reflexivity. Qed.
Lemma proper_l_ceil b : proper false b -> proper false (l_ceil A b).
Proof.
  intros P. pose proof (proper_val _ _ P) as R. destruct P as [G _]. unfold l_ceil. destruct (negb (is_min b) && in_fract A (bv b)) eqn:C; [|apply proper_intro; assumption].
  apply Bool.andb_true_iff in C. destruct C as [_ C]. unfold good_flag in G.
  destruct (is_closed b) eqn:F; apply proper_intro; cbn [bf bv good_flag]; try assumption; try discriminate; intros s q E;
    (destruct (bv b) as [|i|s' p] eqn:V; [discriminate|discriminate|]); rewrite (in_fract_iff A), big_sign in C; apply Bool.negb_true_iff in C; injection E as _ <-.
  - destruct (ceil_r p) as (z & -> & Hz). apply (rep_near z p); [lra|exact C].
  - destruct (floor_r p) as (z & -> & Hz). replace (zq z + zq 1)%Qc with (zq (z + 1)) by (apply rv_inj; rewrite rv_add, !rv_zq, plus_IZR; reflexivity).
    apply (rep_near (z + 1) p); [rewrite plus_IZR; lra|exact C].
Qed.
Lemma proper_u_floor b : proper true b -> proper true (u_floor A b).
Proof.
  intros P. pose proof (proper_val _ _ P) as R. destruct P as [G _]. unfold u_floor. destruct (negb (is_max b) && in_fract A (bv b)) eqn:C; [|apply proper_intro; assumption].
  apply Bool.andb_true_iff in C. destruct C as [_ C]. unfold good_flag in G.
  destruct (is_closed b) eqn:F; apply proper_intro; cbn [bf bv good_flag]; try assumption; try discriminate; intros s q E;
    (destruct (bv b) as [|i|s' p] eqn:V; [discriminate|discriminate|]); rewrite (in_fract_iff A), big_sign in C; apply Bool.negb_true_iff in C; injection E as _ <-.
  - destruct (floor_r p) as (z & -> & Hz). apply (rep_near z p); [lra|exact C].
  - destruct (ceil_r p) as (z & -> & Hz). replace (zq z + zq (-1))%Qc with (zq (z + -1)) by (apply rv_inj; rewrite rv_add, !rv_zq, plus_IZR; reflexivity).
    apply (rep_near (z + -1) p); [rewrite plus_IZR; lra|exact C].
Qed.
Lemma my_floor_rep s p s' q : rep p -> my_floor A (Fin s p) = Fin s' q -> rep q.
Proof.
  unfold my_floor. intros R. destruct (big A (Fin s p)) eqn:B; [intros [= _ <-]; exact R|]. cbn. destruct (floor_r p) as (z & -> & Hz). intros [= _ <-]. apply (rep_near z p); [lra|exact B].
Qed.
Lemma my_ceil_rep s p s' q : rep p -> my_ceil A (Fin s p) = Fin s' q -> rep q.
Proof.
  unfold my_ceil. intros R. destruct (big A (Fin s p)) eqn:B; [intros [= _ <-]; exact R|]. cbn. destruct (ceil_r p) as (z & -> & Hz). intros [= _ <-]. apply (rep_near z p); [lra|exact B].
Qed.
Lemma proper_l_floor b : proper false b -> proper false (l_floor A b).
Proof.
  intros P. pose proof (proper_val _ _ P) as R. unfold l_floor. destruct (negb (is_min b)); [|exact P]. apply proper_intro; [discriminate|]. cbn [bv]. intros s q E.
  destruct (bv b) as [|i|s' p] eqn:V; [unfold my_floor in E; destruct (big A NaN); discriminate|unfold my_floor in E; destruct (big A _); discriminate|]. exact (my_floor_rep _ _ _ _ (R _ _ eq_refl) E).
Qed.
Lemma proper_u_ceil b : proper true b -> proper true (u_ceil A b).
Proof.
  intros P. pose proof (proper_val _ _ P) as R. unfold u_ceil. destruct (negb (is_max b)); [|exact P]. apply proper_intro; [discriminate|]. cbn [bv]. intros s q E.
  destruct (bv b) as [|i|s' p] eqn:V; [unfold my_ceil in E; destruct (big A NaN); discriminate|unfold my_ceil in E; destruct (big A _); discriminate|]. exact (my_ceil_rep _ _ _ _ (R _ _ eq_refl) E).
Qed.
Lemma set_type_wf b x : proper false (lo x) -> proper true (up x) -> wf (set_type A b x).
Proof.
  intros P P'. destruct b; cbn [set_type].
  - unfold set_integer. destruct (b_gt _ _); [apply wf_empty|]. apply proper_wf; [apply proper_l_ceil, P|apply proper_u_floor, P'].
  - apply proper_wf; assumption.
Qed.
Lemma proper_compute dir b c r (m : bool) : proper dir b -> (forall s p, fst r = Fin s p -> rep p) -> proper dir (if m then meet dir (compute dir b r) c else compute dir b r).
Proof.
  intros [G _] H. apply proper_intro.
  - unfold meet, set_oc, oc, compute, is_closed, good_flag in *. destruct dir, m, (bf b), (bf c), (snd r); cbn; try discriminate; congruence.
  - intros s q E. apply (H s q). rewrite <- E. unfold meet, set_oc, compute. destruct m; [destruct (is_closed _)|]; reflexivity.
Qed.
Lemma vadd_rep dir v w s p : fst (vadd A dir v w) = Fin s p -> rep p.
Proof.
  destruct v as [|i|s1 p1], w as [|j|s2 p2]; cbn [vadd fst]; try discriminate.
  - destruct (Bool.eqb i j); discriminate.
  - apply (with_zero_rep A rep Hd).
Qed.
Lemma proper_set_lo x : proper false (lo x) -> proper true (b_set true (lo x)).
Proof. intros P. apply proper_intro; [apply good_set|]. exact (proper_val _ _ P). Qed.
Lemma proper_set_up x : proper true (up x) -> proper false (b_set false (up x)).
Proof. intros P. apply proper_intro; [apply good_set|]. exact (proper_val _ _ P). Qed.
Lemma proper_neg dir b : proper dir b -> proper (negb dir) (b_negate (b_set (negb dir) b)).
Proof. intros [G W]. split; [exact (good_set (negb dir) b)|apply (negate_bound A rep Hd dir b W)]. Qed.
Lemma proper_mul dir b c : proper dir b -> proper dir (mul_b A dir b c).
Proof.
  intros [G W]. split; [|apply (mul_b_bound A rep Hd); assumption]. unfold mul_b. destruct (vzero (bv c)).
  - unfold good_flag in *. cbn [bf]. destruct dir, (is_closed c); try discriminate; exact G.
  - destruct (vzero (bv b)); [exact G|]. unfold meet, set_oc, oc, compute, is_closed, good_flag in *. destruct dir, (bf b), (bf c), (snd _); cbn; try discriminate; congruence.
Qed.
Lemma proper_div dir b c : proper dir b -> proper dir (div_b A dir b c).
Proof.
  intros [G W]. split; [|apply (div_b_bound A rep Hd); assumption]. unfold div_b. destruct (vzero (bv b)); [exact G|].
  unfold meet, set_oc, oc, compute, is_closed, good_flag in *. destruct dir, (bf b), (bf c), (snd _); cbn; try discriminate; congruence.
Qed.
Lemma add_v_wf x v : proper false (lo x) -> proper true (up x) -> wf (i_add_v A x v).
Proof. intros P P'. apply set_type_wf; [apply (proper_compute false (lo x) (lo x) _ false P)|apply (proper_compute true (up x) (up x) _ false P')]; intros s p; apply vadd_rep. Qed.
Lemma add_wf x y a : wf x -> hull x a -> wf (i_add A x y).
Proof.
  intros W H. destruct (wf_proper x a W H) as [P P']. unfold i_add. destruct (is_one_point y); [apply add_v_wf; assumption|].
  apply set_type_wf; [apply (proper_compute false (lo x) (lo y) _ true P)|apply (proper_compute true (up x) (up y) _ true P')]; intros s p; apply vadd_rep.
Qed.
Lemma sub_wf x y a : wf x -> hull x a -> wf (i_sub A x y).
Proof.
  intros W H. destruct (wf_proper x a W H) as [P P']. unfold i_sub. destruct (is_one_point y).
  - apply set_type_wf; [apply (proper_compute false (lo x) (lo x) _ false P)|apply (proper_compute true (up x) (up x) _ false P')]; intros s p; apply vadd_rep.
  - apply set_type_wf; [apply (proper_compute false (lo x) (up y) _ true P)|apply (proper_compute true (up x) (lo y) _ true P')]; intros s p; apply vadd_rep.
Qed.
Lemma mul_wf x y a b : wf x -> wf y -> hull x a -> hull y b -> wf (i_mul A x y).
Proof.
  intros W W' H H'. destruct (wf_proper x a W H) as [P P']. destruct (wf_proper y b W' H') as [Q Q']. pose proof (proper_set_lo x P) as R. pose proof (proper_set_up x P') as R'. unfold i_mul. destruct (is_one_point y).
  - unfold i_mul_v. destruct (vlt _ _); apply set_type_wf; cbn [lo up]; rewrite mul_v_b; apply proper_mul; assumption.
  - cbv zeta. destruct (ltv y (num 0)), (gtv y (num 0)), (ltv x (num 0)), (gtv x (num 0)); apply set_type_wf; cbn [lo up]; try (apply proper_mul; assumption).
    + destruct (b_lt _ _); apply proper_mul; assumption.
    + destruct (b_gt _ _); apply proper_mul; assumption.
Qed.
Lemma div_wf x y a b : wf x -> wf y -> hull x a -> hull y b -> wf (i_div A x y).
Proof.
  intros W W' H H'. destruct (wf_proper x a W H) as [P P']. destruct (wf_proper y b W' H') as [Q Q']. pose proof (proper_set_lo x P) as R. pose proof (proper_set_up x P') as R'.
  pose proof (proper_neg false _ P) as N. pose proof (proper_neg true _ P') as N'. cbn [negb] in N, N'. unfold i_div. destruct (is_one_point y).
  - unfold i_div_v. destruct (vzero _); [apply wf_empty|]. destruct (vlt _ _); apply set_type_wf; cbn [lo up]; rewrite div_v_b; apply proper_div; assumption.
  - cbv zeta. destruct (i_has A y (num 0)); [destruct (is_int (fl y))|].
    + destruct (lev y (num 0)), (gev y (num 0)), (ltv x (num 0)), (gtv x (num 0)); apply (set_type_wf false); cbn [lo up]; try assumption; try (apply proper_div; assumption).
      * destruct (b_lt _ _); assumption.
      * destruct (b_gt _ _); assumption.
    + apply proper_wf; (split; [discriminate|intros s q E; discriminate]).
    + destruct (ltv y (num 0)), (ltv x (num 0)), (gtv x (num 0)); apply (set_type_wf false); cbn [lo up]; try (apply proper_div; assumption).
Qed.
Lemma trunc_wf x a : wf x -> hull x a -> wf (i_integer A x).
Proof.
  intros W H. destruct (wf_proper x a W H) as [P P']. apply proper_wf; cbn [i_integer lo up].
  - unfold l_integer. destruct (lv_ge _ _); [apply proper_l_floor|apply proper_l_ceil]; exact P.
  - unfold u_integer. destruct (uv_gt _ _); [apply proper_u_floor|apply proper_u_ceil]; exact P'.
Qed.
Lemma floor_wf x a : wf x -> hull x a -> wf (i_floor A x) /\ wf (i_ceil A x).
Proof.
  intros W H. destruct (wf_proper x a W H) as [P P']. split; apply proper_wf; cbn [i_floor i_ceil lo up].
  - apply proper_l_floor, P.
  - apply proper_u_floor, P'.
  - apply proper_l_ceil, P.
  - apply proper_u_ceil, P'.
Qed.
Lemma neg_wf x a : wf x -> hull x a -> wf (i_neg x).
Proof. intros W H. destruct (wf_proper x a W H) as [P P']. apply proper_wf; [apply (proper_neg true _ P')|apply (proper_neg false _ P)]. Qed.
Lemma abs_wf x a : wf x -> hull x a -> wf (i_abs x).
Proof.
  intros W H. unfold i_abs. destruct (ltv x (num 0)); [apply (neg_wf x a); assumption|]. destruct (gtv x (num 0)); [exact W|].
  destruct (wf_proper x a W H) as [P P']. apply proper_wf; cbn [lo up].
  - split; [discriminate|apply (bound_zero A rep Hd false ZERO); discriminate].
  - destruct (b_gt _ _); [apply (proper_neg false _ P)|exact P'].
Qed.
(** The remainder of the division that truncates. *)
Lemma quo_in x y a b z : wf x -> wf y -> normal y -> signed y -> member a x -> member b y -> b <> 0 -> (fl y = INTEGER -> one_signed y \/ member 0 x) ->
  (0 <= a / b -> IZR z <= a / b < IZR z + 1) -> (a / b <= 0 -> a / b <= IZR z < a / b + 1) -> member (IZR z) (i_quo A x y) /\ wf (i_quo A x y).
Proof.
  intros W W' N S Ha Hb NB ONE Z1 Z2. unfold i_quo. pose proof (div_wf x y a b W W' (proj1 Ha) (proj1 Hb)) as WD.
  pose proof (div_in A rep Hd x y a b (proj1 W) (proj1 W') (proj2 W) (proj2 W') N S Ha Hb NB ONE) as D. split.
  - apply (trunc_in A rep Hd (i_div A x y) (a / b)); auto. apply WD.
  - apply (trunc_wf _ (a / b)); [exact WD|apply D].
Qed.
Lemma mod_in x y a b z : wf x -> wf y -> normal y -> signed y -> member a x -> member b y -> b <> 0 -> (fl y = INTEGER -> one_signed y \/ member 0 x) ->
  (0 <= a / b -> IZR z <= a / b < IZR z + 1) -> (a / b <= 0 -> a / b <= IZR z < a / b + 1) -> member (a - IZR z * b) (i_mod A x y) /\ wf (i_mod A x y).
Proof.
  intros W W' N S Ha Hb NB ONE Z1 Z2. destruct (quo_in x y a b z W W' N S Ha Hb NB ONE Z1 Z2) as [Q WQ]. unfold i_mod.
  assert (M := mul_in A rep Hd _ y _ b (proj1 WQ) (proj1 W') (proj2 WQ) (proj2 W') Q Hb). assert (WM := mul_wf _ y _ b WQ W' (proj1 Q) (proj1 Hb)). split.
  - apply (sub_in A rep Hd); auto; first [apply W|apply WM].
  - apply (sub_wf _ _ a); [exact W|apply Ha].
Qed.
End Arith.

(** * Widening and narrowing *)
Section Widen.
Variables (A : arith) (rep : Qc -> Prop).
Hypothesis Hd : directed A rep.
Lemma set_gt_above l s t (k : Z) r : lower_bound rep l -> (t = true -> integral l) -> s = num k -> lv_ge l s = true -> bv_gt l s = true -> above l r -> above (set_gt A l s t) r.
Proof.
  intros W I -> _ G H. unfold set_gt, num. unfold bv_gt, vgt, num in G.
  assert (LE : IZR k <= r /\ (t = false -> IZR k < r)).
  { pose proof H as H'. apply above_inv in H'. destruct H' as [E|(s & p & E & X & X')]; rewrite E in G; cbn in G; [discriminate|]. destruct (W _ _ E) as [F _]. unfold is_closed in X'.
    destruct (qlt (zq k) p) eqn:Q; q2r; cbn [orb] in G; [split; lra|]. destruct (qeq p (zq k)) eqn:Q'; q2r; [|discriminate]. destruct (bf l); cbn in G; try discriminate. specialize (X' eq_refl). split; lra. }
  assert (IE : t = true -> IZR k + 1 <= r).
  { intros T. pose proof H as H'. apply above_inv in H'. destruct H' as [E|(s & p & E & X & X')]; rewrite E in G; cbn in G; [discriminate|]. destruct (I T _ _ E) as [F [w ->]]. rewrite F in G. cbn in G.
    rewrite Bool.andb_false_r, Bool.orb_false_r in G. q2r. apply lt_step in G. lra. }
  destruct t; cbn [andb veq negb].
  - destruct (vlt (bv l) _ || vgt (bv l) _); [exact H|]. specialize (IE eq_refl). destruct (veq (bv l) (Fin false (fract A))) eqn:V.
    + destruct (bv l) as [|i|s p] eqn:E; [discriminate|discriminate|]. destruct (I eq_refl _ _ E) as [F [w ->]]. unfold above in *. rewrite E, F in H. cbn [bv bf vceil]. destruct (ceil_r (zq w)) as (c & -> & Hc).
      rewrite rv_zq in *. assert (IZR c <= IZR w) by (apply le_step; lra). lra.
    + unfold above. cbn [bv bf vplus vfloor]. destruct (floor_r (zq k + zq 1)) as (c & -> & Hc). rewrite rv_add, !rv_zq in *. lra.
  - unfold above. cbn. rewrite rv_zq. apply LE. reflexivity.
Qed.
Lemma set_lt_below u s t (k : Z) r : upper_bound rep u -> (t = true -> integral u) -> s = num k -> -10 <= IZR k <= 10 -> 1000 <= rv (fract A) -> bv_lt u s = true -> below u r -> below (set_lt A u s t) r.
Proof.
  intros W I -> K BF G H. unfold set_lt, num. unfold bv_lt, num in G.
  assert (LE : t = false -> r < IZR k).
  { intros T. pose proof H as H'. apply below_inv in H'. destruct H' as [E|(s & p & E & X & X')]; rewrite E in G; cbn in G; [discriminate|]. destruct (W _ _ E) as [F _]. unfold is_closed in X'.
    destruct (qlt p (zq k)) eqn:Q; q2r; cbn [orb] in G; [lra|]. destruct (qeq p (zq k)) eqn:Q'; q2r; [|discriminate]. destruct (bf u); cbn in G; try discriminate. specialize (X' eq_refl). lra. }
  assert (IE : t = true -> r <= IZR k - 1).
  { intros T. pose proof H as H'. apply below_inv in H'. destruct H' as [E|(s & p & E & X & X')]; rewrite E in G; cbn in G; [discriminate|]. destruct (I T _ _ E) as [F [w ->]]. rewrite F in G. cbn in G.
    rewrite Bool.andb_false_r, Bool.orb_false_r in G. q2r. apply lt_step in G. lra. }
  destruct t; cbn [andb veq negb].
  - destruct (vlt (bv u) _ || vgt (bv u) _); [exact H|]. specialize (IE eq_refl). destruct (veq (bv u) (Fin true (- fract A))) eqn:V.
    + destruct (bv u) as [|i|s p] eqn:E; [discriminate|discriminate|]. destruct (I eq_refl _ _ E) as [F [w ->]]. unfold below in *. rewrite E, F in H. cbn [bv bf vfloor]. destruct (floor_r (zq w)) as (c & -> & Hc).
      rewrite rv_zq in *. assert (IZR w <= IZR c) by (apply le_step; lra). lra.
    + unfold below, my_ceil. cbn [bv bf vplus]. destruct (big A _) eqn:B.
      * apply (big_iff A) in B. rewrite rv_add, !rv_zq in B. lra.
      * cbn [vceil]. destruct (ceil_r (zq k + zq (-1))) as (c & -> & Hc). rewrite rv_add, !rv_zq in *. lra.
  - unfold below. cbn. rewrite rv_zq. apply LE. reflexivity.
Qed.
Lemma widen_above ks l t r : lower_bound rep l -> (t = true -> integral l) -> above l r -> above (widen_lower A t l (map num ks)) r.
Proof.
  intros W I H. induction ks as [|k ks IH]; cbn [map widen_lower]; [reflexivity|]. destruct (lv_ge l (num k)) eqn:G; [|exact IH].
  destruct (bv_gt l (num k)) eqn:G'; [|exact H]. apply (set_gt_above l (num k) t k r); auto.
Qed.
Lemma widen_below ks u t r : upper_bound rep u -> (t = true -> integral u) -> Forall (fun k => -10 <= IZR k <= 10) ks -> 1000 <= rv (fract A) -> below u r -> below (widen_upper A t u (map num ks)) r.
Proof.
  intros W I F B H. induction ks as [|k ks IH]; cbn [map widen_upper]; [reflexivity|]. inversion F as [|? ? F1 F2]; subst. destruct (uv_le u (num k)) eqn:G; [|exact (IH F2)].
  destruct (bv_lt u (num k)) eqn:G'; [|exact H]. apply (set_lt_below u (num k) t k r); auto.
Qed.
Lemma widen_in x old r : formed rep x -> normal x -> 1000 <= rv (fract A) -> member r x -> member r (i_widen A x old).
Proof.
  intros [WL WU] N B [[H1 H2] I]. assert (IN : is_int (fl x) = true -> integral (lo x) /\ integral (up x)).
  { intros T. destruct N as [[E _]|(_ & _ & _ & N)]; [unfold above in H1; rewrite E in H1; discriminate|]. apply N. destruct (fl x); [discriminate|reflexivity]. }
  split; [|exact I]. split; cbn [i_widen lo up].
  - destruct (b_lt _ _); [|exact H1]. apply (widen_above (1 :: 0 :: -1 :: nil)%Z); auto. intros T. apply IN, T.
  - destruct (b_gt _ _); [|exact H2]. apply (widen_below (-1 :: 0 :: 1 :: nil)%Z); auto; [intros T; apply IN, T|]. repeat constructor; cbn; lra.
Qed.
End Widen.
