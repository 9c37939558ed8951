(** Two small arithmetic units, the range of the circular functions, and the places where the code fails. *)
From Coq Require Import ZArith QArith Qcanon Qround Reals Qreals Lra Lia Bool.
From Verif Require Import Bool3Model Ast IvlModel IvlSpec IvlProofs IvlProofs2 IvlProofs3 IvlProofs4 IvlProofs5 IvlProofs6 IvlMult IvlCases IvlFinal ItgModel ItgSpec ItgReal ItgProofs RatRootProofs.
Local Open Scope R_scope.
Set Bullet Behavior "Strict Subproofs".

(** * The results are between -1 and 1 *)
Section Range.
Variables (A : arith) (rep : Qc -> Prop).
Hypothesis Hd : directed A rep.
Hypothesis Hc : correctly_rounded A rep.
Lemma rep_one z : (Z.abs z <= 1)%Z -> rep (zq z).
Proof. intros H. apply (rep_integer A rep Hd). pose proof (fract_positive A rep Hd). rewrite <- abs_IZR. apply IZR_le in H. lra. Qed.
Lemma bfn_low f b s q t : circular f -> -1 <= exact f (rv q) -> bv b = Fin s q -> above (b_fn A f false b) t -> -1 <= t.
Proof.
  intros C B E H. destruct (circular_down A rep Hc f s q C) as (s' & p & E1 & R & L & T & _).
  assert (K : rv (zq (-1)) <= rv p) by (apply T; [apply rep_one; lia|rewrite rv_zq; lra]). rewrite rv_zq in K.
  unfold above, b_fn, compute in H. cbn [bv] in H. rewrite E, E1 in H. destruct (bf _) in H; lra.
Qed.
Lemma bfn_high f b s q t : circular f -> exact f (rv q) <= 1 -> bv b = Fin s q -> below (b_fn A f true b) t -> t <= 1.
Proof.
  intros C B E H. destruct (circular_up A rep Hc f s q C) as (s' & p & E1 & R & L & T & _).
  assert (K : rv p <= rv (zq 1)) by (apply T; [apply rep_one; lia|rewrite rv_zq; lra]). rewrite rv_zq in K.
  unfold below, b_fn, compute in H. cbn [bv] in H. rewrite E, E1 in H. destruct (bf _) in H; lra.
Qed.
Lemma wave_range f x a tomin tomax r : circular f -> (forall q, -1 <= exact f q <= 1) -> hull x a -> ((bv (lo x) = Inf true \/ bv (up x) = Inf false) -> tomin = true /\ tomax = true) ->
  hull (wave A f tomin tomax x) r -> -1 <= r <= 1.
Proof.
  intros C B [H1 H2] I [K1 K2]. assert (V1 : forall t, above (b_value (num (-1))) t -> -1 <= t) by (intros t H; unfold above, b_value, num in H; cbn [bv bf] in H; rewrite rv_zq in H; exact H).
  assert (V2 : forall t, below (b_value (num 1)) t -> t <= 1) by (intros t H; unfold below, b_value, num in H; cbn [bv bf] in H; rewrite rv_zq in H; exact H).
  unfold wave in K1, K2. destruct (tomin && tomax) eqn:TT; [split; [apply V1, K1|apply V2, K2]|].
  destruct (above_inv _ _ H1) as [E|(s & p & E & _)]; [destruct (I (or_introl E)); subst; discriminate|].
  destruct (below_inv _ _ H2) as [E'|(s' & q & E' & _)]; [destruct (I (or_intror E')); subst; discriminate|].
  pose proof (B (rv p)). pose proof (B (rv q)).
  destruct (b_gt (b_fn A f false (lo x)) (b_fn A f true (up x))); cbn [lo up] in K1, K2; (split; [destruct tomin; [apply V1, K1|]|destruct tomax; [apply V2, K2|]]).
  - apply (bfn_low f (b_set false (up x)) s' q); auto; lra.
  - apply (bfn_high f (b_set true (lo x)) s p); auto; lra.
  - apply (bfn_low f (lo x) s p); auto; lra.
  - apply (bfn_high f (up x) s' q); auto; lra.
Qed.
Lemma unbounded_found x a s o t p : typed x -> 0 < rv p -> hull x a -> (bv (lo x) = Inf true \/ bv (up x) = Inf false) -> contains_multiple A x (Fin s o) (Fin t p) = true.
Proof.
  intros T P H I. assert (exists k, hull x (rv o + IZR k * rv p)) as [k Hk].
  { destruct H as [H1 H2]. destruct (multiple_at (a - rv o) (rv p) P) as [k Hk]. destruct I as [E|E].
    - exists (k - 1)%Z. rewrite minus_IZR. split; [unfold above; rewrite E; reflexivity|apply below_down with a; [exact H2|lra]].
    - exists k. split; [apply above_up with a; [exact H1|lra]|unfold below; rewrite E; reflexivity]. }
  apply (multiple_found A rep Hd x s o t p k); assumption.
Qed.
Lemma cos_range pi2 x r : formed rep x -> typed x -> 0 < rv pi2 -> (exists a, member a x) -> member r (i_cos A pi2 x) -> -1 <= r <= 1.
Proof.
  intros W T P [a [H _]] [M _]. unfold i_cos in M. cbv zeta in M. cbn [lo up set_maybe_real hull] in M.
  apply (wave_range Cos x a (contains_multiple A x (half_pi pi2 2) (half_pi pi2 4)) (contains_multiple A x (num 0) (half_pi pi2 4)) r); auto.
  - right; left; reflexivity.
  - intros q. exact (COS_bound q).
  - intros I. split; (apply (unbounded_found x a); auto; rewrite rv_mul, rv_zq; lra).
Qed.
Lemma sin_range pi2 x r : formed rep x -> typed x -> 0 < rv pi2 -> (exists a, member a x) -> member r (i_sin A pi2 x) -> -1 <= r <= 1.
Proof.
  intros W T P [a [H _]] [M _]. unfold i_sin in M. cbv zeta in M. cbn [lo up set_maybe_real hull] in M.
  apply (wave_range Sin x a (contains_multiple A x (half_pi pi2 (-1)) (half_pi pi2 4)) (contains_multiple A x (half_pi pi2 1) (half_pi pi2 4)) r); auto.
  - left; reflexivity.
  - intros q. exact (SIN_bound q).
  - intros I. split; (apply (unbounded_found x a); auto; rewrite rv_mul, rv_zq; lra).
Qed.
End Range.

(** * A unit whose numbers are the integers *)
Definition rfloor (r : R) : Z := (Rdefinitions.up r - 1)%Z.
Definition rceil (r : R) : Z := (- rfloor (- r))%Z.
Lemma rfloor_spec r : IZR (rfloor r) <= r < IZR (rfloor r) + 1.
Proof. unfold rfloor. rewrite minus_IZR. pose proof (archimed r). lra. Qed.
Lemma rceil_spec r : r <= IZR (rceil r) < r + 1.
Proof. unfold rceil. rewrite opp_IZR. pose proof (rfloor_spec (- r)). lra. Qed.
Definition whole_fn (marks : bool) (f : func) (up : bool) (v : val) : val * bool :=
  match v with
  | Fin _ q => let z := if up then rceil (exact f (rv q)) else rfloor (exact f (rv q)) in
      (Fin (Z.ltb z 0) (zq z), if marks then if Req_EM_T (IZR z) (exact f (rv q)) then false else true else false)
  | _ => (NaN, false)
  end.
Definition whole (marks : bool) : arith :=
  mkArith (fun up q => let v := if up then qceil q else qfloor q in (Fin (qlt v 0%Qc) v, negb (qeq v q))) (whole_fn marks) (zq 1000) (zq 2000).
Definition whole_rep (q : Qc) : Prop := integer (rv q).
Lemma whole_directed marks : directed (whole marks) whole_rep.
Proof.
  constructor.
  - intros q. cbn. destruct (floor_r q) as (z & -> & H). rewrite rv_zq. split; [lra|]. intros K. apply Bool.negb_true_iff, qeq_false in K. rewrite rv_zq in K. destruct (Rdichotomy _ _ K); lra.
  - intros q. cbn. destruct (ceil_r q) as (z & -> & H). rewrite rv_zq. split; [lra|]. intros K. apply Bool.negb_true_iff, qeq_false in K. rewrite rv_zq in K. destruct (Rdichotomy _ _ K); lra.
  - intros dir q s p E. cbn in E. destruct dir; [destruct (ceil_r q) as (z & F & _)|destruct (floor_r q) as (z & F & _)]; rewrite F in E; assert (p = zq z) as -> by congruence; exists z; apply rv_zq.
  - exists 0%Z. apply rv_0.
  - intros q H. unfold whole_rep. rewrite rv_opp. apply integer_opp, H.
  - intros z _. exists z. apply rv_zq.
  - cbn [fract whole]. rewrite rv_zq. lra.
  - intros q H _. exact H.
Qed.
Lemma whole_rounded : correctly_rounded (whole true) whole_rep.
Proof.
  constructor; intros f s q _; cbn [fn whole whole_fn]; set (t := exact f (rv q)); clearbody t.
  - exists (rfloor t <? 0)%Z, (zq (rfloor t)). rewrite rv_zq. pose proof (rfloor_spec t). split; [reflexivity|]. split; [exists (rfloor t); apply rv_zq|]. split; [lra|]. split.
    + intros m [z Ez] L. rewrite Ez in *. apply IZR_le. assert (z < rfloor t + 1)%Z; [|lia]. apply lt_IZR. rewrite plus_IZR. lra.
    + cbn [snd]. destruct (Req_EM_T _ _); split; congruence.
  - exists (rceil t <? 0)%Z, (zq (rceil t)). rewrite rv_zq. pose proof (rceil_spec t). split; [reflexivity|]. split; [exists (rceil t); apply rv_zq|]. split; [lra|]. split.
    + intros m [z Ez] L. rewrite Ez in *. apply IZR_le. assert (rceil t < z + 1)%Z; [|lia]. apply lt_IZR. rewrite plus_IZR. lra.
    + cbn [snd]. destruct (Req_EM_T _ _); split; congruence.
Qed.
(** The same values as [whole true] gives, without remarks. *)
Lemma whole_values f dir v : fst (fn (whole false) f dir v) = fst (fn (whole true) f dir v).
Proof. destruct v; reflexivity. Qed.
Lemma whole_unmarked f dir v : snd (fn (whole false) f dir v) = false.
Proof. destruct v; reflexivity. Qed.

Lemma PI_3 : 3 < PI.
Proof. pose proof PI2_3_2. lra. Qed.
Lemma no_odd k : ~ (1 <= PI + IZR k * (2 * PI) <= 3).
Proof.
  pose proof PI_3. destruct (Z_le_gt_dec 0 k) as [K|K]; [apply IZR_le in K; nra|]. assert (L : (k <= -1)%Z) by lia. apply IZR_le in L. nra.
Qed.
Lemma no_even k : ~ (1 <= 0 + IZR k * (2 * PI) <= 3).
Proof.
  pose proof PI_3. destruct (Z_le_gt_dec 1 k) as [K|K]; [apply IZR_le in K; nra|]. assert (L : (k <= 0)%Z) by lia. apply IZR_le in L. nra.
Qed.
Lemma no_half k : ~ (1 <= - (PI / 2) + IZR k * (2 * PI) <= 3).
Proof.
  pose proof PI_3. destruct (Z_le_gt_dec 1 k) as [K|K]; [apply IZR_le in K; nra|]. assert (L : (k <= 0)%Z) by lia. apply IZR_le in L. nra.
Qed.
Lemma no_pole k : ~ (-1 <= PI / 2 + IZR k * PI <= 1).
Proof.
  pose proof PI_3. destruct (Z_le_gt_dec 0 k) as [K|K]; [apply IZR_le in K; nra|]. assert (L : (k <= -1)%Z) by lia. apply IZR_le in L. nra.
Qed.
Lemma closed_hull z w t r : hull (closed z w t) r <-> IZR z <= r <= IZR w.
Proof. unfold hull, above, below, closed, point, b_value, num. cbn [lo up bv bf]. rewrite !rv_zq. tauto. Qed.
Lemma closed_tie z w t f rep : no_tie rep f (closed z w t).
Proof. intros s p s' q m _ _ N. exfalso. apply N. reflexivity. Qed.

Lemma unmarked_cos : ~ member (cos 1) (i_cos (whole false) (zq 2) (closed 1 3 REAL)).
Proof.
  pose proof PI_3 as P. intros [M _]. unfold i_cos in M. cbv zeta in M.
  replace (contains_multiple (whole false) (closed 1 3 REAL) (half_pi (zq 2) 2) (half_pi (zq 2) 4)) with false in M by (vm_compute; reflexivity).
  replace (contains_multiple (whole false) (closed 1 3 REAL) (num 0) (half_pi (zq 2) 4)) with false in M by (vm_compute; reflexivity).
  assert (L : rfloor (cos 1) = 0%Z).
  { pose proof (rfloor_spec (cos 1)). assert (0 < cos 1) by (apply cos_gt_0; lra). assert (cos 1 < cos 0) by (apply cos_fall; lra). rewrite cos_0 in *.
    assert (-1 < rfloor (cos 1))%Z by (apply lt_IZR; lra). assert (rfloor (cos 1) < 1)%Z by (apply lt_IZR; lra). lia. }
  assert (U : rceil (cos 3) = 0%Z).
  { pose proof (rceil_spec (cos 3)). pose proof PI_4. assert (cos 3 < 0) by (apply cos_lt_0; lra). assert (cos PI < cos 3) by (apply cos_fall; lra). rewrite cos_PI in *.
    assert (-1 < rceil (cos 3))%Z by (apply lt_IZR; lra). assert (rceil (cos 3) < 1)%Z by (apply lt_IZR; lra). lia. }
  unfold wave in M. cbn [andb] in M. unfold b_fn, closed, point, b_value, num in M. cbn [lo up bv fn whole whole_fn exact] in M. rewrite !rv_zq, L, U in M. cbn in M.
  destruct M as [_ M]. unfold below in M. cbn in M. rewrite rv_zq in M.
  assert (0 < cos 1) by (apply cos_gt_0; lra). lra.
Qed.

(** * No number stands for pi *)
(** Numbers are the integers, and all rational numbers up to 2000. *)
Definition dense : arith :=
  mkArith (fun up q => if toy_big q then (let v := if up then qceil q else qfloor q in (Fin (qlt v 0%Qc) v, negb (qeq v q))) else (Fin (qlt q 0%Qc) q, false)) toy_fn (zq 2000) (zq 4000).
Definition dense_rep (q : Qc) : Prop := integer (rv q) \/ -2000 <= rv q <= 2000.
Lemma dense_directed : directed dense dense_rep.
Proof.
  constructor.
  - intros q. cbn. destruct (toy_big q); [|cbn; split; [lra|discriminate]]. cbn. destruct (floor_r q) as (z & -> & H). rewrite rv_zq. split; [lra|]. intros K. apply Bool.negb_true_iff, qeq_false in K. rewrite rv_zq in K. destruct (Rdichotomy _ _ K); lra.
  - intros q. cbn. destruct (toy_big q); [|cbn; split; [lra|discriminate]]. cbn. destruct (ceil_r q) as (z & -> & H). rewrite rv_zq. split; [lra|]. intros K. apply Bool.negb_true_iff, qeq_false in K. rewrite rv_zq in K. destruct (Rdichotomy _ _ K); lra.
  - intros dir q s p E. cbn in E. destruct (toy_big q) eqn:B.
    + left. destruct dir; [destruct (ceil_r q) as (z & F & _)|destruct (floor_r q) as (z & F & _)]; rewrite F in E; cbn in E; assert (p = zq z) as -> by congruence; exists z; apply rv_zq.
    + right. cbn in E. assert (p = q) as -> by congruence. assert (~ (rv q < -2000 \/ 2000 < rv q)) by (intros K; apply toy_big_iff in K; congruence). lra.
  - right. rewrite rv_0. lra.
  - intros q [H|H]; [left; rewrite rv_opp; apply integer_opp, H|right; rewrite rv_opp; lra].
  - intros z _. left. exists z. apply rv_zq.
  - cbn [fract dense]. rewrite rv_zq. lra.
  - intros q [H|H]; [intros _; exact H|]. cbn [fract dense]. rewrite rv_zq. lra.
Qed.
Lemma rat_between a b : a < b -> exists q : Qc, a < rv q < b.
Proof.
  intros H. destruct (archimed (/ (b - a))) as [N1 _]. set (n := Rdefinitions.up (/ (b - a))) in *. assert (P : 0 < / (b - a)) by (apply Rinv_0_lt_compat; lra).
  assert (Pn : 0 < IZR n) by lra. destruct (multiple_at a (/ IZR n)) as [k Hk]; [apply Rinv_0_lt_compat; exact Pn|].
  assert (S : / IZR n < b - a). { rewrite <- (Rinv_inv (b - a)). apply Rinv_lt_contravar; [apply Rmult_lt_0_compat; assumption|exact N1]. }
  exists (zq k / zq n)%Qc. rewrite rv_div by (rewrite rv_zq; lra). rewrite !rv_zq. unfold Rdiv. lra.
Qed.
Lemma dense_exact q : -2000 <= rv q <= 2000 -> rnd dense false q = (Fin (qlt q 0%Qc) q, false) /\ rnd dense true q = (Fin (qlt q 0%Qc) q, false).
Proof. intros H. cbn. destruct (toy_big q) eqn:B; [apply toy_big_iff in B; lra|split; reflexivity]. Qed.
Lemma pi_missed pi2 : 3 <= 2 * rv pi2 <= 4 -> 2 * rv pi2 <> PI ->
  exists x, formed dense_rep x /\ typed x /\ normal x /\ hull x PI /\ contains_multiple dense x (half_pi pi2 2) (half_pi pi2 4) = false.
Proof.
  intros H N. pose proof PI_3 as P3. pose proof PI_4 as P4. set (p := 2 * rv pi2) in *.
  assert (exists a b : Qc, PI - 1 < rv a < PI /\ PI < rv b < PI + 1 /\ ~ (rv a <= p <= rv b)) as (a & b & Ha & Hb & Hp).
  { destruct (Rdichotomy _ _ N) as [D|D].
    - destruct (rat_between (Rmax (PI - 1) p) PI) as [a Ha]; [unfold Rmax; destruct (Rle_dec _ _); lra|]. destruct (rat_between PI (PI + 1)) as [b Hb]; [lra|].
      exists a, b. pose proof (Rmax_l (PI - 1) p). pose proof (Rmax_r (PI - 1) p). repeat split; lra.
    - destruct (rat_between (PI - 1) PI) as [a Ha]; [lra|]. destruct (rat_between PI (Rmin (PI + 1) p)) as [b Hb]; [unfold Rmin; destruct (Rle_dec _ _); lra|].
      exists a, b. pose proof (Rmin_l (PI + 1) p). pose proof (Rmin_r (PI + 1) p). repeat split; lra. }
  set (x := mkI (b_value (Fin false a)) (b_value (Fin false b)) REAL). exists x.
  assert (HP : hull x PI) by (split; unfold above, below, x; cbn; lra).
  assert (Q1 : rv (zq 2 * pi2) = p) by (rewrite rv_mul, rv_zq; reflexivity). assert (Q2 : rv (zq 4 * pi2) = 2 * p) by (rewrite rv_mul, rv_zq; unfold p; lra).
  assert (W : formed dense_rep x) by (split; intros s q E; (split; [discriminate|right]); cbn in E; [assert (q = a) as -> by congruence|assert (q = b) as -> by congruence]; lra).
  assert (T : typed x) by (split; right; discriminate).
  split; [exact W|]. split; [exact T|]. split; [right; split; [exists PI; exact HP|split; [discriminate|split; discriminate]]|]. split; [exact HP|].
  destruct (contains_multiple dense x (half_pi pi2 2) (half_pi pi2 4)) eqn:CM; [exfalso|reflexivity].
  assert (EQ : forall dir c, PI - 1 < rv c < PI + 1 -> exact_quotient dense dir (b_value (Fin false c)) (zq 2 * pi2)%Qc (zq 4 * pi2)%Qc).
  { intros dir c Hq s q E. cbn in E. assert (q = c) as -> by congruence. assert (V1 : rv (c - zq 2 * pi2) = rv c - p) by (rewrite rv_sub, Q1; reflexivity).
    assert (V2 : rv ((c - zq 2 * pi2) / (zq 4 * pi2)) = (rv c - p) / (2 * p)) by (rewrite rv_div by (rewrite Q2; lra); rewrite V1, Q2; reflexivity).
    assert (V3 : -1 <= (rv c - p) / (2 * p) <= 1). { split; [apply Rmult_le_reg_r with (2 * p)|apply Rmult_le_reg_r with (2 * p)]; try lra; unfold Rdiv; rewrite Rmult_assoc, Rinv_l by lra; lra. }
    split; [|split].
    - destruct (dense_exact (c - zq 2 * pi2)) as [K1 K2]; [rewrite V1; lra|]. eexists. destruct dir; eassumption.
    - destruct (dense_exact ((c - zq 2 * pi2) / (zq 4 * pi2))) as [K1 K2]; [rewrite V2; lra|]. eexists. destruct dir; eassumption.
    - rewrite V2. cbn [fract dense]. rewrite rv_zq. unfold Rabs. destruct (Rcase_abs _); lra. }
  destruct (multiple_found_only dense dense_rep x _ _ _ _ T W ltac:(rewrite Q2; lra) (ex_intro _ PI HP) (EQ false a ltac:(lra)) (EQ true b ltac:(lra)) CM) as [k [K1 K2]].
  unfold above in K1. unfold below in K2. cbn [x lo up b_value bv bf] in K1, K2. rewrite Q1, Q2 in K1, K2.
  destruct (Z.lt_trichotomy k 0) as [D|[D|D]].
  - assert (L : (k <= -1)%Z) by lia. apply IZR_le in L. nra.
  - subst k. lra.
  - assert (L : (1 <= k)%Z) by lia. apply IZR_le in L. nra.
Qed.
