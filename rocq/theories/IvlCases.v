(** A small arithmetic unit, and the places where the code fails. *)
From Coq Require Import ZArith QArith Qcanon Qround Reals Qreals Lra Lia Psatz Bool.
From Verif Require Import Bool3Model Ast IvlModel IvlSpec IvlProofs IvlProofs2 IvlProofs3 IvlProofs4 IvlProofs5 IvlProofs6 IvlProofs7 IvlProofs8 RatRootProofs ExprCases.
Local Open Scope R_scope.
Set Bullet Behavior "Strict Subproofs".

(** Numbers are the multiples of 1/2 up to 2000 and the integers. *)
Definition half_down (q : Qc) : Qc := (zq (Qfloor (this (zq 2 * q)%Qc)) * (/ zq 2))%Qc.
Definition toy_big (q : Qc) : bool := qlt q (zq (-2000)) || qlt (zq 2000) q.
Definition toy_down (q : Qc) : Qc := if toy_big q then qfloor q else half_down q.
Definition toy_round (up : bool) (q : Qc) : Qc := if up then (- toy_down (- q))%Qc else toy_down q.
Definition toy_fn (f : func) (up : bool) (v : val) : val * bool :=
  match f, v with
  | Exp, Inf true => (Fin false 0%Qc, false)
  | _, Inf false => (Inf false, false)
  | Log, Fin s q => (if qeq q 0%Qc then Inf true else Inf (negb up), false)
  | Exp, Fin _ _ => if up then (Inf false, false) else (Fin false 0%Qc, true)
  | Sqrt, Fin _ _ => if up then (Inf false, false) else (Fin false 0%Qc, false)
  | _, Fin _ _ => (Inf (negb up), false)
  | _, _ => (NaN, false)
  end.
Definition toy : arith := mkArith (fun up q => (Fin (qlt (toy_round up q) 0%Qc) (toy_round up q), negb (qeq (toy_round up q) q))) toy_fn (zq 2000) (zq 4000).
Definition toy_rep (q : Qc) : Prop := integer (rv q) \/ (integer (2 * rv q) /\ -2000 <= rv q <= 2000).

Lemma zq2_inv : rv (/ zq 2) = / 2.
Proof. rewrite rv_inv, rv_zq. lra. Qed.
Lemma half_r q : exists z, rv (half_down q) = IZR z / 2 /\ IZR z <= 2 * rv q < IZR z + 1.
Proof.
  destruct (floor_r (zq 2 * q)) as (z & E & H). exists z. split.
  - unfold half_down. unfold qfloor in E. rewrite E, rv_mul, rv_zq, zq2_inv. lra.
  - rewrite rv_mul, rv_zq in H. exact H.
Qed.
Lemma toy_big_iff q : toy_big q = true <-> rv q < -2000 \/ 2000 < rv q.
Proof. unfold toy_big. rewrite Bool.orb_true_iff, !qlt_iff, !rv_zq. tauto. Qed.
Lemma toy_down_le q : rv (toy_down q) <= rv q /\ toy_rep (toy_down q) /\ (forall z, rv q = IZR z -> rv (toy_down q) = IZR z).
Proof.
  unfold toy_down. destruct (toy_big q) eqn:B.
  - destruct (floor_r q) as (z & -> & H). rewrite rv_zq. split; [lra|]. split; [left; exists z; apply rv_zq|]. intros w E. rewrite E in H. f_equal. assert (K1 := le_step z w ltac:(lra)). assert (K2 := le_step w z ltac:(lra)). apply eq_IZR. lra.
  - assert (NB : ~ (rv q < -2000 \/ 2000 < rv q)) by (intros K; apply toy_big_iff in K; congruence).
    destruct (half_r q) as (z & E & H). rewrite E. split; [lra|]. split.
    + right. rewrite E. split; [exists z; lra|]. assert (-4000 <= IZR z) by (apply (le_step (-4000)); lra). lra.
    + intros w Ew. rewrite Ew in H. assert (K1 := le_step z (2 * w)). rewrite mult_IZR in K1. specialize (K1 ltac:(lra)). assert (K2 := le_step (2 * w) z). rewrite mult_IZR in K2. specialize (K2 ltac:(lra)). lra.
Qed.
Lemma toy_rep_opp q : toy_rep q -> toy_rep (- q).
Proof.
  intros [H|[[z E] H]]; [left; rewrite rv_opp; apply integer_opp, H|right]. rewrite rv_opp. split; [|lra]. exists (- z)%Z. rewrite opp_IZR. lra.
Qed.
Lemma toy_up_ge q : rv q <= rv (toy_round true q) /\ toy_rep (toy_round true q) /\ (forall z, rv q = IZR z -> rv (toy_round true q) = IZR z).
Proof.
  unfold toy_round. destruct (toy_down_le (- q)) as (H1 & H2 & H3). rewrite rv_opp in *. split; [lra|]. split; [apply toy_rep_opp, H2|].
  intros z E. rewrite (H3 (- z)%Z); rewrite opp_IZR; lra.
Qed.
Lemma toy_strict up q : negb (qeq (toy_round up q) q) = true -> rv (toy_round up q) <> rv q.
Proof. destruct (qeq (toy_round up q) q) eqn:E; [discriminate|]. q2r. auto. Qed.
Lemma toy_directed : directed toy toy_rep.
Proof.
  constructor.
  - intros q. unfold under, toy, rnd, fst, snd. destruct (toy_down_le q) as (H & _). split; [exact H|]. intros K. apply toy_strict in K. cbn [toy_round] in K |- *. lra.
  - intros q. unfold over, toy, rnd, fst, snd. destruct (toy_up_ge q) as (H & _). split; [exact H|]. intros K. apply toy_strict in K. lra.
  - intros dir q s p E. unfold toy, rnd, fst in E. assert (toy_round dir q = p) as <- by congruence. destruct dir; [apply toy_up_ge|apply toy_down_le].
  - left. exists 0%Z. apply rv_0.
  - exact toy_rep_opp.
  - intros z _. left. exists z. apply rv_zq.
  - cbn [fract toy]. rewrite rv_zq. lra.
  - intros q [H|[_ H]]; [intros _; exact H|]. cbn [fract toy]. rewrite rv_zq. lra.
Qed.
Lemma toy_functions : directed_functions toy toy_rep.
Proof.
  constructor.
  - intros [] s q D; cbn in *; try exact Logic.I; try reflexivity; try (rewrite rv_0; split; [|intros; try discriminate]; first [apply sqrt_pos|pose proof (exp_pos (rv q)); lra]).
    destruct (qeq q 0%Qc) eqn:Z; cbn; reflexivity.
  - intros [] s q D; cbn in *; try exact Logic.I; try reflexivity. destruct (qeq q 0%Qc) eqn:Z; [|reflexivity]. q2r. lra.
  - assert (R0 : toy_rep 0%Qc) by (left; exists 0%Z; apply rv_0).
    intros f dir v s p E. unfold toy, fn, toy_fn in E. destruct f, v as [|[]|s0 q0], dir; cbn [fst] in E; try discriminate; try (destruct (qeq q0 0%Qc); discriminate); injection E as _ <-; exact R0.
  - intros dir s. reflexivity.
  - intros dir. exists false. reflexivity.
  - intros f dir [-> | [-> | ->]]; reflexivity.
Qed.
Lemma toy_exact : exact_integers toy.
Proof.
  constructor.
  - intros dir z Hz. assert (E : toy_round dir (zq z) = zq z).
    { apply rv_inj. rewrite rv_zq. destruct dir; [apply toy_up_ge|apply toy_down_le]; apply rv_zq. }
    unfold toy, rnd. rewrite E. eexists. rewrite (proj2 (qeq_iff (zq z) (zq z)) eq_refl). reflexivity.
  - cbn [fract toy]. rewrite rv_zq. lra.
Qed.

(** * Where the code fails *)
Definition point (z : Z) : bnd := b_value (num z).
Definition closed (z w : Z) (t : ty) : ivl := mkI (point z) (point w) t.
Definition open (z w : Z) : ivl := mkI (mkB (num z) POS) (mkB (num w) NEG) REAL.
Lemma zq_mul z w : (zq z * zq w)%Qc = zq (z * w).
Proof. apply rv_inj. rewrite rv_mul, !rv_zq, mult_IZR. reflexivity. Qed.
Lemma closed_member z w t r : IZR z <= r <= IZR w -> (t = INTEGER -> integer r) -> member r (closed z w t).
Proof. intros [H1 H2] I. split; [split|exact I]; unfold above, below, closed, point, b_value, num; cbn; rewrite rv_zq; assumption. Qed.
Section Fail.
Variables (A : arith) (rep : Qc -> Prop).
Hypothesis Hd : directed A rep.
Hypothesis Hx : exact_integers A.
Lemma rep_small z : (Z.abs z <= 1000)%Z -> rep (zq z).
Proof.
  intros H. apply (rep_integer A rep Hd). pose proof (fract_large A Hx). rewrite <- abs_IZR. assert (IZR (Z.abs z) <= 1000) by (apply IZR_le; exact H). lra.
Qed.
Lemma nz_num z s : z <> 0%Z -> vzero (Fin s (zq z)) = false.
Proof. intros H. apply vzero_nfin. rewrite rv_zq. intros K. apply H, eq_IZR, K. Qed.
Lemma mul_small dir s s' a b : a <> 0%Z -> b <> 0%Z -> (Z.abs (a * b) <= 1000)%Z ->
  exists s'', mul_b A dir (mkB (Fin s (zq a)) ZERO) (mkB (Fin s' (zq b)) ZERO) = mkB (Fin s'' (zq (a * b))) ZERO.
Proof.
  intros NA NB H. unfold mul_b. cbn [bv bf]. rewrite (nz_num b s' NB), (nz_num a s NA). unfold vmul, compute. rewrite zq_mul.
  destruct (small_exact A Hx dir (a * b) H) as [w ->]. eexists. unfold meet, set_oc, is_closed, oc. cbn. reflexivity.
Qed.
Lemma div_small dir s s' a b : (a <> 0)%Z -> (b <> 0)%Z -> (Z.abs a <= 1000)%Z ->
  exists s'', div_b A dir (mkB (Fin s (zq (a * b))) ZERO) (mkB (Fin s' (zq b)) ZERO) = mkB (Fin s'' (zq a)) ZERO.
Proof.
  intros NA NB H. unfold div_b. cbn [bv bf]. rewrite nz_num by lia. unfold vdiv, compute.
  assert (Z : rv (zq b) <> 0) by (rewrite rv_zq; intros K; apply NB, eq_IZR, K). rewrite (qeq_nzero (zq b) Z).
  assert (E : (zq (a * b) / zq b)%Qc = zq a) by (apply rv_inj; rewrite rv_div by exact Z; rewrite !rv_zq in *; rewrite mult_IZR; field; exact Z). rewrite E.
  destruct (small_exact A Hx dir a H) as [w ->]. eexists. unfold meet, set_oc, is_closed, oc. cbn. reflexivity.
Qed.
Lemma formed_small l u t : (exists s z, l = mkB (Fin s (zq z)) ZERO /\ (Z.abs z <= 1000)%Z) -> (exists s z, u = mkB (Fin s (zq z)) ZERO /\ (Z.abs z <= 1000)%Z) -> formed rep (mkI l u t).
Proof.
  intros (s & z & -> & H) (s' & z' & -> & H'). split; intros s0 q0 E; cbn in *; injection E as _ <-; (split; [discriminate|apply rep_small; assumption]).
Qed.
(** [-3..-2] squared has no values. *)
Lemma sqr_fails t : no_member (i_sqr A (closed (-3) (-2) t)).
Proof.
  intros r. unfold i_sqr. assert (L : ltv (closed (-3) (-2) t) (num 0) = true) by reflexivity. rewrite L. cbn [closed lo up].
  change (b_set false (point (-2))) with (mkB (Fin true (zq (-2))) ZERO). change (b_set true (point (-3))) with (mkB (Fin true (zq (-3))) ZERO).
  destruct (mul_small false true true (-2) (-2)) as [s E]; try lia. rewrite E. change (-2 * -2)%Z with 4%Z in *.
  destruct (mul_small true true s (-3) 4) as [s' E']; try lia. rewrite E'. change (-3 * 4)%Z with (-12)%Z in *.
  assert (W : formed rep (mkI (mkB (Fin s (zq 4)) ZERO) (mkB (Fin s' (zq (-12))) ZERO) t)) by (apply formed_small; [exists s, 4%Z|exists s', (-12)%Z]; (split; [reflexivity|lia])).
  cbn [fl]. intros M. assert (H : hull (mkI (mkB (Fin s (zq 4)) ZERO) (mkB (Fin s' (zq (-12))) ZERO) t) r).
  { destruct t; cbn [is_int set_type] in M; [apply (set_maybe_real_iff A rep Hd) in M; [|exact W]|apply (set_integer_iff A rep) in M; [|exact W]]; tauto. }
  destruct H as [H1 H2]. unfold above, below in *. cbn in *. rewrite rv_zq in *. lra.
Qed.
(** 6 = -6 / -1 is not in [-6] / [-1..2]. *)
Lemma div_fails : ~ member 6 (i_div A (closed (-6) (-6) INTEGER) (closed (-1) 2 INTEGER)).
Proof.
  unfold i_div. change (is_one_point (closed (-1) 2 INTEGER)) with false. cbv iota zeta.
  assert (Hz : i_has A (closed (-1) 2 INTEGER) (num 0) = true).
  { apply (has_zero A rep Hd _ 0); [apply formed_small; [exists true, (-1)%Z|exists false, 2%Z]; (split; [reflexivity|lia])| |]; apply (closed_member (-1) 2 INTEGER 0); try lra; intros _; exists 0%Z; reflexivity. }
  rewrite Hz. change (is_int (fl (closed (-1) 2 INTEGER))) with true. change (lev (closed (-1) 2 INTEGER) (num 0)) with false. change (gev (closed (-1) 2 INTEGER) (num 0)) with false.
  change (ltv (closed (-6) (-6) INTEGER) (num 0)) with true. cbv iota. unfold closed. cbn [lo up fl].
  change (point (-6)) with (mkB (Fin true (zq (-3 * 2))) ZERO). change (point 2) with (mkB (Fin false (zq 2)) ZERO).
  destruct (div_small true true false (-3) 2) as [s E]; try lia. rewrite E. intros M. apply (set_maybe_real_iff A rep Hd) in M.
  - destruct M as [_ M]. unfold below in M. cbn in M. rewrite rv_zq in M. lra.
  - apply formed_small; [exists true, (-6)%Z|exists s, (-3)%Z]; (split; [reflexivity|lia]).
Qed.
End Fail.
(** [1, 2] / (-5, 0) is (+inf, ...) when the zero is +0, as in Interval(LBoundary(-5, OPEN), UBoundary(0, OPEN)). *)
Lemma div_zero_fails A r : ~ member r (i_div A (closed 1 2 REAL) (open (-5) 0)).
Proof.
  unfold i_div. change (is_one_point (open (-5) 0)) with false. cbv iota zeta. change (i_has A (open (-5) 0) (num 0)) with false. cbv iota.
  change (ltv (open (-5) 0) (num 0)) with true. change (ltv (closed 1 2 REAL) (num 0)) with false. change (gtv (closed 1 2 REAL) (num 0)) with true. cbv iota. cbn [closed open lo up].
  change (b_set false (point 2)) with (mkB (Fin false (zq 2)) ZERO). unfold div_b at 1. cbn [bv]. change (vzero (Fin false (zq 2))) with false. cbv iota.
  intros [[H _] _]. unfold set_maybe_real, above in H. cbn [lo] in H.
  change (bv (meet false (compute false (mkB (Fin false (zq 2)) ZERO) (vdiv A false (Fin false (zq 2)) (num 0))) (mkB (num 0) NEG))) with (Inf false) in H. discriminate.
Qed.
(** 3/2 is the smaller one of 3/2 and 5. *)
Lemma min_fails : member (3/2) (closed 1 10 REAL) /\ member 5 (closed 0 5 INTEGER) /\ ~ member (Rmin (3/2) 5) (i_min (closed 1 10 REAL) (closed 0 5 INTEGER)).
Proof.
  split; [apply closed_member; [lra|discriminate]|]. split; [apply closed_member; [lra|intros _; exists 5%Z; reflexivity]|].
  rewrite Rmin_left by lra. change (i_min (closed 1 10 REAL) (closed 0 5 INTEGER)) with (closed 0 5 INTEGER). intros [_ H]. destruct (H eq_refl) as [z E].
  assert (K1 := lt_step 1 z ltac:(lra)). lra.
Qed.
(** Without directed rounding the sum of two numbers is missed. *)
Lemma undirected_fails A s s' p q v w : (forall dir, rnd A dir (p + q)%Qc = (Fin w v, false)) -> rv v <> rv p + rv q -> rv p <> 0 -> 
  ~ member (rv p + rv q) (i_add A (mkI (b_value (Fin s p)) (b_value (Fin s p)) REAL) (mkI (b_value (Fin s' q)) (b_value (Fin s' q)) REAL)).
Proof.
  intros E N _. unfold i_add, is_one_point, b_eq. cbn [lo up b_value bv bf flag_z veq]. rewrite (proj2 (qeq_iff q q) eq_refl). cbn [andb Z.eqb].
  unfold i_add_v, add_v, compute. cbn [lo up fl b_value bv bf is_int andb set_type]. unfold vadd. rewrite !E. intros [[H1 H2] _]. unfold set_maybe_real, above, below in H1, H2. cbn in H1, H2. lra.
Qed.
