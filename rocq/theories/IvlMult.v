(** Interval::contains_multiple. *)
From Coq Require Import ZArith QArith Qcanon Qround Reals Qreals Lra Lia Bool.
From Verif Require Import Bool3Model Ast IvlModel IvlSpec IvlProofs IvlProofs2 IvlProofs3 IvlProofs4 IvlProofs6 RatRootProofs.
Local Open Scope R_scope.
Set Bullet Behavior "Strict Subproofs".

Section Multiple.
Variables (A : arith) (rep : Qc -> Prop).
Hypothesis Hd : directed A rep.

Lemma sub_v_good dir b v : good_flag dir b -> good_flag dir (sub_v A dir b v).
Proof. unfold good_flag, sub_v, compute. destruct dir; cbn [bf]; destruct (is_closed b && _); cbn; auto; discriminate. Qed.
Lemma sub_v_side dir b r s o : side dir b r -> side dir (sub_v A dir b (Fin s o)) (r - rv o).
Proof.
  intros H. unfold sub_v, vsub, Rminus. apply (add_side A rep Hd dir b (vneg (Fin s o)) true false b r (- rv o)); auto; try congruence.
  cbn. rewrite rv_opp. unfold sle. destruct dir; split; try lra; discriminate.
Qed.
Lemma sub_v_bound dir b r s o : good_flag dir b -> side dir b r -> bound rep dir (sub_v A dir b (Fin s o)).
Proof.
  intros G H. unfold sub_v, vsub. apply (add_bound A rep Hd dir b (vneg (Fin s o)) false b r (- rv o) true); auto.
  cbn. rewrite rv_opp. unfold sle. destruct dir; split; try lra; discriminate.
Qed.
Lemma quot_side dir b r s o t p : 0 < rv p -> side dir b r -> side dir (div_v A dir (sub_v A dir b (Fin s o)) (Fin t p)) ((r - rv o) / rv p).
Proof.
  intros P H. rewrite div_v_b. apply (div_b_side A rep Hd). apply (sub_v_side dir b r s o) in H. set (b' := sub_v A dir b (Fin s o)) in *. clearbody b'.
  destruct dir; cbn [side] in H; [apply below_inv in H|apply above_inv in H]; destruct H as [E|(s' & q & E & X)]; unfold div_ok; change (is_closed (b_value (Fin t p))) with true; div_solve.
Qed.
Lemma quot_bound dir b r s o t p : good_flag dir b -> side dir b r -> bound rep dir (div_v A dir (sub_v A dir b (Fin s o)) (Fin t p)).
Proof.
  intros G H. rewrite div_v_b. apply (div_b_bound A rep Hd); [apply sub_v_good, G|apply sub_v_bound with r; assumption].
Qed.
Lemma multiple_found x s o t p k : typed x -> 0 < rv p -> hull x (rv o + IZR k * rv p) -> contains_multiple A x (Fin s o) (Fin t p) = true.
Proof.
  intros T P H. destruct (hull_flags _ _ T H) as [G1 G2]. destruct H as [H1 H2]. unfold contains_multiple. cbv zeta.
  assert (E : (rv o + IZR k * rv p - rv o) / rv p = IZR k) by (field; lra).
  pose proof (quot_side false _ _ s o t p P H1) as L. pose proof (quot_side true _ _ s o t p P H2) as U. rewrite E in L, U.
  pose proof (quot_bound false _ _ s o t p G1 H1) as BL. pose proof (quot_bound true _ _ s o t p G2 H2) as BU. cbn [side bound] in *.
  set (lb := div_v A false (sub_v A false (lo x) (Fin s o)) (Fin t p)) in *. set (ub := div_v A true (sub_v A true (up x) (Fin s o)) (Fin t p)) in *. clearbody lb ub.
  destruct (is_closed lb && is_integer A (bv lb)) eqn:C; [reflexivity|].
  assert (U' : below (u_floor A ub) (IZR k)) by (apply (below_floor A rep); [exact BU|exists k; reflexivity|exact U]).
  unfold lu_lt. apply above_inv in L. apply below_inv in U'. destruct L as [EL|(sl & q & EL & X & Y)].
  - unfold l_floor, is_min. rewrite EL. cbn [veq negb Bool.eqb]. rewrite EL. destruct U' as [EU|(su & u & EU & _)]; rewrite EU; reflexivity.
  - assert (F : exists w, bv (l_floor A lb) = Fin sl w /\ rv w < IZR k).
    { unfold l_floor, is_min. rewrite EL. cbn [veq negb bv]. unfold my_floor. destruct (big A (Fin sl q)) eqn:B.
      - exists q. split; [reflexivity|]. apply Y. destruct (is_closed lb) eqn:K; [|reflexivity]. cbn [andb] in C.
        assert (is_integer A (bv lb) = true) by (rewrite EL; unfold is_integer; rewrite B; reflexivity). congruence.
      - exists (qfloor q). split; [reflexivity|]. destruct (floor_r q) as (w & Ew & Hw). rewrite Ew, rv_zq. destruct (is_closed lb) eqn:K; [|specialize (Y eq_refl); lra].
        cbn [andb] in C. destruct (Req_dec (rv q) (IZR w)) as [D|D]; [|lra].
        assert (is_integer A (bv lb) = true); [|congruence]. rewrite EL. apply (is_integer_iff A rep Hd); [apply (BL _ _ EL)|exists w; exact D]. }
    destruct F as (w & EF & HF). rewrite EF. destruct U' as [EU|(su & u & EU & HU & _)]; rewrite EU; cbn; [reflexivity|]. apply qlt_iff. lra.
Qed.

Lemma quot_exact dir b s o t p s' q : rv p <> 0 -> bv b = Fin s' q -> exact_quotient A dir b o p ->
  exists s'', div_v A dir (sub_v A dir b (Fin s o)) (Fin t p) = mkB (Fin s'' ((q - o) / p)%Qc) (bf b).
Proof.
  intros P E X. destruct (X _ _ E) as ((s1 & E1) & (s2 & E2) & _). unfold sub_v, vsub, vneg, vadd, compute. rewrite E. cbv iota. change (q + - o)%Qc with (q - o)%Qc. rewrite E1. cbn [with_zero fst snd]. rewrite Bool.andb_false_r.
  unfold div_v. cbn [bv]. set (s3 := if qeq (q - o)%Qc 0%Qc then _ else _). clearbody s3. destruct (vzero (Fin s3 (q - o)%Qc)) eqn:Z.
  - apply vzero_fin in Z. exists s3. f_equal. f_equal. apply rv_inj. rewrite rv_div by exact P. rewrite Z. field. exact P.
  - unfold vdiv, compute. cbn [bv]. rewrite (qeq_nzero p P), E2. cbn [with_zero fst snd]. rewrite Bool.andb_false_r. eexists. reflexivity.
Qed.
Lemma multiple_found_only x s o t p : typed x -> formed rep x -> 0 < rv p -> (exists a, hull x a) -> exact_quotient A false (lo x) o p -> exact_quotient A true (up x) o p ->
  contains_multiple A x (Fin s o) (Fin t p) = true -> exists k, hull x (rv o + IZR k * rv p).
Proof.
  intros T W P [a H] XL XU. destruct (hull_flags _ _ T H) as [G1 G2]. pose proof H as [H1 H2]. unfold contains_multiple. cbv zeta.
  assert (NP : rv p <> 0) by lra.
  assert (QE : forall q, rv ((q - o) / p) = (rv q - rv o) / rv p) by (intros q; rewrite rv_div by exact NP; rewrite rv_sub; reflexivity).
  assert (UP : forall s0 q, bv (up x) = Fin s0 q -> exists w v, bv (u_floor A (div_v A true (sub_v A true (up x) (Fin s o)) (Fin t p))) = Fin v (zq w) /\ below (up x) (rv o + IZR w * rv p)).
  { intros s0 q E. destruct (quot_exact true _ s o t p _ _ NP E XU) as [s1 E1]. rewrite E1. destruct (XU _ _ E) as (_ & _ & B).
    assert (NB : big A (Fin s1 ((q - o) / p)%Qc) = false). { destruct (big A (Fin s1 ((q - o) / p)%Qc)) eqn:K; [|reflexivity]. apply (big_iff A) in K. unfold Rabs in B. destruct (Rcase_abs _) in B; lra. }
    unfold u_floor, is_max. cbn [bv bf]. cbn [veq negb]. rewrite in_fract_iff, NB. cbn [negb andb]. unfold is_closed. cbn [bf].
    destruct (floor_r ((q - o) / p)) as (w & Ew & Hw). destruct (ceil_r ((q - o) / p)) as (c & Ec & Hc). rewrite QE in *.
    assert (D : forall z, IZR z <= (rv q - rv o) / rv p -> rv o + IZR z * rv p <= rv q).
    { intros z K. apply Rmult_le_compat_r with (r := rv p) in K; [|lra]. unfold Rdiv in K. rewrite Rmult_assoc, Rinv_l in K by exact NP. lra. }
    assert (D' : forall z, IZR z < (rv q - rv o) / rv p -> rv o + IZR z * rv p < rv q).
    { intros z K. apply Rmult_lt_compat_r with (r := rv p) in K; [|lra]. unfold Rdiv in K. rewrite Rmult_assoc, Rinv_l in K by exact NP. lra. }
    unfold below. rewrite E. destruct (bf (up x)) eqn:F; cbn [bv vfloor vceil vplus].
    - rewrite Ec. exists (c - 1)%Z. eexists. split; [f_equal; apply rv_inj; rewrite rv_add, !rv_zq, minus_IZR; lra|]. apply D'. rewrite minus_IZR. lra.
    - rewrite Ew. exists w. eexists. split; [reflexivity|]. apply D. lra.
    - rewrite Ec. exists (c - 1)%Z. eexists. split; [f_equal; apply rv_inj; rewrite rv_add, !rv_zq, minus_IZR; lra|]. apply D'. rewrite minus_IZR. lra. }
  assert (LO : forall s0 q z, bv (lo x) = Fin s0 q -> (rv q - rv o) / rv p < IZR z -> above (lo x) (rv o + IZR z * rv p)).
  { intros s0 q z E K. apply Rmult_lt_compat_r with (r := rv p) in K; [|lra]. unfold Rdiv in K. rewrite Rmult_assoc, Rinv_l in K by exact NP. unfold above. rewrite E. destruct (bf (lo x)); lra. }
  destruct (above_inv _ _ H1) as [EL|(sl & q & EL & X & Y)]; destruct (below_inv _ _ H2) as [EU|(su & u & EU & X' & Y')].
  - intros _. exists 0%Z. split; [unfold above; rewrite EL; reflexivity|unfold below; rewrite EU; reflexivity].
  - intros _. destruct (UP _ _ EU) as (w & v & _ & B). exists w. split; [unfold above; rewrite EL; reflexivity|exact B].
  - intros _. destruct (floor_r ((q - o) / p)) as (w & _ & Hw). rewrite QE in Hw. exists (w + 1)%Z. split; [apply (LO _ _ _ EL); rewrite plus_IZR; lra|unfold below; rewrite EU; reflexivity].
  - destruct (quot_exact false _ s o t p _ _ NP EL XL) as [s1 E1]. rewrite E1. destruct (XL _ _ EL) as (_ & _ & B).
    assert (NB : big A (Fin s1 ((q - o) / p)%Qc) = false). { destruct (big A (Fin s1 ((q - o) / p)%Qc)) eqn:K; [|reflexivity]. apply (big_iff A) in K. unfold Rabs in B. destruct (Rcase_abs _) in B; lra. }
    destruct (floor_r ((q - o) / p)) as (z & Ez & Hz).
    unfold is_closed at 1. unfold is_integer. cbn [bv bf veq negb andb vfloor]. rewrite NB. cbn [orb].
    destruct ((match bf (lo x) with ZERO => true | _ => false end) && qeq ((q - o) / p) (qfloor ((q - o) / p))) eqn:C.
    + intros _. apply Bool.andb_true_iff in C. destruct C as [C1 C2]. apply qeq_iff in C2. rewrite Ez, rv_zq, QE in C2. exists z.
      assert (Q : rv o + IZR z * rv p = rv q) by (rewrite <- C2; field; exact NP). rewrite Q. split; [unfold above; rewrite EL; destruct (bf (lo x)); try discriminate; lra|].
      apply below_down with a; [exact H2|exact X].
    + unfold lu_lt, l_floor, is_min. cbn [bv veq negb]. unfold my_floor. rewrite NB. cbn [vfloor]. destruct (UP _ _ EU) as (w & v & Ew & Bw). rewrite Ew, Ez. cbn [vlt]. intros K. apply qlt_iff in K. rewrite !rv_zq in K.
      exists w. split; [|exact Bw]. apply (LO _ _ _ EL). rewrite QE in Hz. apply lt_step in K. lra.
Qed.
End Multiple.
