(** A power function that rounds to integers, and the places where the power of intervals fails. *)
From Coq Require Import ZArith QArith Qcanon Qround Reals Qreals Lra Lia Bool.
From Verif Require Import Bool3Model Ast IvlModel IvlSpec IvlProofs IvlProofs2 IvlProofs3 IvlProofs4 IvlProofs5 IvlCases IvlFinal ItgCases IpwModel IpwSpec IpwProofs IpwProofs2 IpwProofs3 MonoProofs RatRootProofs.
Local Open Scope R_scope.
Set Bullet Behavior "Strict Subproofs".

Definition toy_pw (up : bool) (v w : val) : val * bool :=
  match v, w with
  | Fin _ q, Fin _ c =>
      match rpow (rv q) (rv c) with
      | Some t => let z := if up then rceil t else rfloor t in (Fin (Z.ltb z 0) (zq z), if Req_EM_T (IZR z) t then false else true)
      | None => (NaN, false)
      end
  | Inf false, Fin _ c => if qlt c 0%Qc then (Fin false 0%Qc, false) else (Inf false, false)
  | Inf true, Fin _ c => (Inf true, false)
  | Inf false, Inf false => (Inf false, false)
  | Fin _ q, Inf false => if qlt (zq 1) q then (Inf false, false) else (Fin false 0%Qc, false)
  | _, _ => (NaN, false)
  end.
Lemma toy_power : directed_power toy_pw toy_rep.
Proof.
  constructor.
  - intros s q s' c t E. unfold toy_pw. rewrite E. cbv zeta. cbn [fst snd under]. rewrite rv_zq. pose proof (rfloor_spec t). split; [lra|]. destruct (Req_EM_T _ t); [discriminate|]. intros _. destruct (Rdichotomy _ _ n); lra.
  - intros s q s' c t E. unfold toy_pw. rewrite E. cbv zeta. cbn [fst snd over]. rewrite rv_zq. pose proof (rceil_spec t). split; [lra|]. destruct (Req_EM_T _ t); [discriminate|]. intros _. destruct (Rdichotomy _ _ n); lra.
  - assert (R0 : toy_rep 0%Qc) by (left; exists 0%Z; apply rv_0).
    intros dir v w s p E. unfold toy_pw in E. destruct v as [|[]|s0 q0], w as [|[]|s1 q1]; cbn [fst] in E; try discriminate.
    + destruct (qlt q1 0%Qc); cbn [fst] in E; [injection E as _ <-; exact R0|discriminate].
    + destruct (qlt (zq 1) q0); cbn [fst] in E; [discriminate|injection E as _ <-; exact R0].
    + destruct (rpow (rv q0) (rv q1)); cbn [fst] in E; [|discriminate]. assert (p = zq (if dir then rceil r else rfloor r)) as -> by congruence. left. eexists. apply rv_zq.
  - intros dir s c P. cbn. destruct (qlt c 0%Qc) eqn:L; [apply qlt_iff in L; rewrite rv_0 in L; lra|reflexivity].
  - intros dir s c P. exists false. cbn. destruct (qlt c 0%Qc) eqn:L; [reflexivity|apply qlt_false in L; rewrite rv_0 in L; lra].
  - reflexivity.
  - intros dir s q P. cbn. destruct (qlt (zq 1) q) eqn:L; [reflexivity|apply qlt_false in L; rewrite rv_zq in L; lra].
  - intros dir s q P. exists false. cbn. destruct (qlt (zq 1) q) eqn:L; [apply qlt_iff in L; rewrite rv_zq in L; lra|reflexivity].
  - reflexivity.
Qed.

Definition half_point (s : bool) : ivl := mkI (b_value (Fin s (if s then - / zq 2 else / zq 2)%Qc)) (b_value (Fin s (if s then - / zq 2 else / zq 2)%Qc)) REAL.
Lemma half_point_good s : formed toy_rep (half_point s) /\ typed (half_point s) /\ is_one_point (half_point s) = true /\ member (if s then - / 2 else / 2) (half_point s).
Proof.
  assert (V : rv (if s then - / zq 2 else / zq 2)%Qc = if s then - / 2 else / 2) by (destruct s; [rewrite rv_opp|]; rewrite half_rv; reflexivity).
  assert (R0 : toy_rep (if s then - / zq 2 else / zq 2)%Qc).
  { right. rewrite V. split; [exists (if s then (-1)%Z else 1%Z); destruct s; lra|destruct s; lra]. }
  split; [split; intros w q E; cbn in E; injection E as _ <-; (split; [discriminate|exact R0])|]. split; [split; right; discriminate|].
  split; [destruct s; vm_compute; reflexivity|]. split; [|discriminate]. split; unfold above, below, half_point, b_value; cbn [lo up bv bf]; rewrite V; lra.
Qed.
Lemma half_frac : ~ integer (/ 2) /\ ~ integer (- / 2).
Proof.
  split; intros [z E].
  - assert (K : IZR (2 * z) = IZR 1) by (rewrite mult_IZR; lra). apply eq_IZR in K. lia.
  - assert (K : IZR (2 * z) = IZR (-1)) by (rewrite mult_IZR; lra). apply eq_IZR in K. lia.
Qed.

(** [1..2]^-1 does not go below 1. *)
Lemma inverse_fails A pw t : rpow 2 (-1) = Some (/ 2) /\ ~ member (/ 2) (i_pow A pw (closed 1 2 t) (closed (-1) (-1) INTEGER)).
Proof.
  split.
  - unfold rpow. rewrite (as_int_IZR (-1)). destruct (Req_EM_T 2 0); [lra|]. f_equal. unfold powerRZ. change (Pos.to_nat 1) with 1%nat. rewrite pow_1. reflexivity.
  - unfold i_pow. assert (Z : i_has A (closed 1 2 t) (num 0) = false) by (destruct t; reflexivity). rewrite Z. cbn [andb].
    change (is_one_point (closed (-1) (-1) INTEGER)) with true. change (is_int (fl (closed (-1) (-1) INTEGER))) with true. change (v_even (bv (lo (closed (-1) (-1) INTEGER)))) with false. cbv iota zeta.
    intros [[H _] _]. cbn [lo] in H. change (l_pow A pw (lo (closed 1 2 t)) (lo (closed (-1) (-1) INTEGER))) with (point 1) in H. unfold above, point, b_value, num in H. cbn [bv bf] in H. rewrite rv_zq in H. lra.
Qed.
(** (0..1]^(-1/2) is (1..0). *)
Lemma zero_fails A pw : rpow 1 (- / 2) = Some 1 /\ member 1 (mkI (mkB (num 0) POS) (point 1) REAL) /\ no_member (i_pow A pw (mkI (mkB (num 0) POS) (point 1) REAL) (half_point true)).
Proof.
  split; [rewrite rpow_positive by lra; unfold Rpower; rewrite ln_1, Rmult_0_r, exp_0; reflexivity|]. split.
  - split; [|discriminate]. split; unfold above, below, point, b_value, num; cbn [lo up bv bf]; rewrite rv_zq; lra.
  - intros r. unfold i_pow. change (i_has A (mkI (mkB (num 0) POS) (point 1) REAL) (num 0)) with false. cbn [andb].
    assert (O : is_one_point (half_point true) = true) by (vm_compute; reflexivity). rewrite O. change (is_int (fl (half_point true))) with false. cbv iota zeta.
    change (lv_lt (lo (mkI (mkB (num 0) POS) (point 1) REAL)) (num 0)) with false. cbn [andb]. assert (N : lv_lt (lo (half_point true)) (num 0) = true) by (vm_compute; reflexivity). rewrite N. cbv iota.
    assert (E1 : l_pow A pw (b_set false (point 1)) (lo (half_point true)) = point 1) by (unfold l_pow; assert (V : vzero (bv (lo (half_point true))) = false) by (vm_compute; reflexivity); rewrite V; reflexivity).
    assert (E2 : u_pow A pw (b_set true (mkB (num 0) POS)) (lo (half_point true)) = mkB (num 0) NEG) by (unfold u_pow; assert (V : vzero (bv (lo (half_point true))) = false) by (vm_compute; reflexivity); rewrite V; reflexivity).
    intros [[H1 H2] _]. cbn [lo up] in H1, H2. rewrite E1 in H1. rewrite E2 in H2. unfold above, point, b_value, num in H1. unfold below, num in H2. cbn [bv bf] in H1, H2. rewrite rv_zq in H1, H2. lra.
Qed.
(** [2..2]^(1/2), marked as an interval of integers, does not have the square root of 2. *)
Lemma root_fails A pw : rpow 2 (/ 2) = Some (sqrt 2) /\ ~ member (sqrt 2) (i_pow A pw (closed 2 2 INTEGER) (half_point false)).
Proof.
  split; [rewrite rpow_positive by lra; rewrite Rpower_sqrt by lra; reflexivity|].
  assert (F : fl (i_pow A pw (closed 2 2 INTEGER) (half_point false)) = INTEGER).
  { unfold i_pow. change (i_has A (closed 2 2 INTEGER) (num 0)) with false. cbn [andb].
    assert (O : is_one_point (half_point false) = true) by (vm_compute; reflexivity). rewrite O. change (is_int (fl (half_point false))) with false. cbv iota zeta.
    change (lv_lt (lo (closed 2 2 INTEGER)) (num 0)) with false. cbn [andb]. assert (N : lv_lt (lo (half_point false)) (num 0) = false) by (vm_compute; reflexivity). rewrite N. reflexivity. }
  intros [_ I]. destruct (I F) as [z E].
  assert (K1 : 1 < sqrt 2) by (rewrite <- sqrt_1 at 1; apply sqrt_lt_1; lra). assert (K2 : sqrt 2 < 2). { pose proof (sqrt_sqrt 2). pose proof (sqrt_pos 2). nra. }
  rewrite E in K1, K2. apply lt_IZR in K1. apply lt_IZR in K2. lia.
Qed.
Lemma small_formed z w t : (Z.abs z <= 1000)%Z -> (Z.abs w <= 1000)%Z -> formed toy_rep (closed z w t).
Proof. intros Z W. apply (formed_small toy toy_rep toy_directed toy_exact); [exists (z <? 0)%Z, z|exists (w <? 0)%Z, w]; (split; [reflexivity|assumption]). Qed.
