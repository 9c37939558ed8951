From Coq Require Import ZArith QArith Qcanon Reals List String Bool Lia Lra.
From Verif Require Import Ast ExprModel ExprSpec ExprProofs1 ExprProofs2 NumFormProofs LogModel.
Import ListNotations.
Local Open Scope list_scope.
Local Open Scope R_scope.

(** * Perfect powers *)
Section Perfect.
Context (a c : Qc).
Notation A := (rv a). Notation C := (rv c).
Context (Ha : 0 < A) (Hc : 0 < C).
Definition idx (up : bool) (i : nat) : Z := if up then Z.of_nat i else (- Z.of_nat i)%Z.
Definition B (up : bool) : R := if up then A else / A.
Lemma B_pos up : 0 < B up. Proof. destruct up; cbn; auto. now apply Rinv_0_lt_compat. Qed.
Lemma idx_pow up i : rv (qpow a (idx up i)) = B up ^ i.
Proof.
  destruct up; cbn [idx B].
  - unfold qpow. destruct i; [cbn; apply rv_1|]. cbn [Z.of_nat]. change (Z.pos (Pos.of_succ_nat i)) with (Z.of_nat (S i)). rewrite Nat2Z.id. apply rv_pow.
  - unfold qpow. destruct i; [cbn; apply rv_1|]. cbn [Z.of_nat Z.opp]. rewrite SuccNat2Pos.id_succ, rv_inv, rv_pow; [symmetry; apply pow_inv|]. rewrite rv_pow. apply pow_nonzero. lra.
Qed.
Lemma idx_powerRZ up i : powerRZ A (idx up i) = B up ^ i.
Proof. destruct up; cbn [idx B]; [now rewrite <- pow_powerRZ|]. rewrite powerRZ_neg', <- pow_powerRZ by lra. symmetry. apply pow_inv. Qed.
(** Once the powers have passed c, they stay there. *)
Definition passed (up : bool) (i : nat) : Prop := (1 < B up /\ C < B up ^ i) \/ (B up < 1 /\ B up ^ i < C).
Lemma passed_ne up i j : passed up i -> (i <= j)%nat -> B up ^ j <> C.
Proof.
  pose proof (B_pos up) as P. intros [[H1 H2]|[H1 H2]] L E.
  - pose proof (Rle_pow (B up) i j ltac:(lra) L). lra.
  - replace j with (i + (j - i))%nat in E by lia. rewrite pow_add in E. assert (B up ^ (j - i) <= 1) by (rewrite <- (pow1 (j - i)); apply pow_incr; lra). assert (0 < B up ^ i) by now apply pow_lt. nra.
Qed.
Lemma one_cmp : (q_lt 1 a = true <-> 1 < A) /\ (q_lt a 1 = true <-> A < 1).
Proof. rewrite !q_lt_spec, rv_1. tauto. Qed.
Lemma loop_step up i fuel : pp_loop (S fuel) up a c (idx up i) = Some (Some (idx up i)) /\ B up ^ i = C \/
  B up ^ i <> C /\ (pp_loop (S fuel) up a c (idx up i) = Some None /\ passed up i \/ pp_loop (S fuel) up a c (idx up i) = pp_loop fuel up a c (idx up (S i)) /\ ~ passed up i).
Proof.
  pose proof (idx_pow up i) as Ep. cbn [pp_loop]. set (p := qpow a (idx up i)) in *. clearbody p. destruct (Qc_eqb p c) eqn:E.
  { apply Qc_eqb_eq in E. subst p. left. split; auto. }
  right. assert (Ne : B up ^ i <> C) by (rewrite <- Ep; intros Q; apply rv_inj in Q; apply Qc_eqb_eq in Q; congruence). split; auto.
  assert (Inv : (1 < / A <-> A < 1) /\ (/ A < 1 <-> 1 < A)).
  { split; split; intros H.
    - apply Rinv_lt_contravar in H; [rewrite Rinv_1, Rinv_inv in H; lra|]. rewrite Rmult_1_l. now apply Rinv_0_lt_compat.
    - rewrite <- Rinv_1. apply Rinv_lt_contravar; lra.
    - apply Rinv_lt_contravar in H; [rewrite Rinv_1, Rinv_inv in H; lra|]. rewrite Rmult_1_r. now apply Rinv_0_lt_compat.
    - rewrite <- Rinv_1. apply Rinv_lt_contravar; lra. }
  assert (Nx : (if up then idx up i + 1 else idx up i - 1)%Z = idx up (S i)) by (destruct up; cbn [idx]; lia). rewrite Nx.
  destruct one_cmp as [L1 L2].
  set (c1 := (q_lt 1 a && (if up then q_lt c p else q_lt p c))%bool). set (c2 := (q_lt a 1 && (if up then q_lt p c else q_lt c p))%bool).
  assert (K1 : c1 = true -> passed up i).
  { unfold c1, passed. rewrite <- Ep. intros H. apply andb_true_iff in H as [X Y]. apply L1 in X. destruct up; cbn [B]; apply q_lt_spec in Y; [now left|right]. tauto. }
  assert (K2 : c2 = true -> passed up i).
  { unfold c2, passed. rewrite <- Ep. intros H. apply andb_true_iff in H as [X Y]. apply L2 in X. destruct up; cbn [B]; apply q_lt_spec in Y; [now right|left]. tauto. }
  assert (K3 : passed up i -> c1 = true \/ c2 = true).
  { unfold c1, c2, passed. rewrite <- Ep, !andb_true_iff, L1, L2. destruct up; cbn [B]; rewrite !q_lt_spec; tauto. }
  destruct c1; [left; auto|]. destruct c2; [left; auto|]. right. split; auto. intros P. destruct (K3 P); discriminate.
Qed.
Lemma loop_ok up N : passed up N -> forall k i fuel, (i + k = N)%nat -> (k < fuel)%nat ->
  exists r, pp_loop fuel up a c (idx up i) = Some r /\ match r with Some z => exists j, z = idx up j /\ (i <= j)%nat /\ B up ^ j = C | None => forall j, (i <= j)%nat -> B up ^ j <> C end.
Proof.
  intros PN. induction k as [|k IH]; intros i fuel Hk Hf; (destruct fuel as [|fuel]; [lia|]); destruct (loop_step up i fuel) as [[E Q]|[Ne [[E P]|[E P]]]].
  - exists (Some (idx up i)). split; auto. exists i. auto.
  - exists None. split; auto. intros j Hj. now apply (passed_ne up i j).
  - exfalso. apply P. now replace i with N by lia.
  - exists (Some (idx up i)). split; auto. exists i. auto.
  - exists None. split; auto. intros j Hj. now apply (passed_ne up i j).
  - destruct (IH (S i) fuel ltac:(lia) ltac:(lia)) as (r & Er & Hr). exists r. rewrite E. split; auto. destruct r as [z|].
    + destruct Hr as (j & Hz & Hj & Hq). exists j. split; auto. split; auto. lia.
    + intros j Hj. destruct (Nat.eq_dec j i) as [->|]; auto. apply Hr. lia.
Qed.
Lemma passes up : B up <> 1 -> exists N, passed up (S N).
Proof.
  intros Ne. pose proof (B_pos up) as P. destruct (Rtotal_order (B up) 1) as [L|[E|L]]; [|contradiction|].
  - destruct (pow_lt_1_zero (B up) ltac:(rewrite Rabs_pos_eq; lra) C Hc) as [N HN]. exists N. right. split; auto. specialize (HN (S N) ltac:(lia)). rewrite Rabs_pos_eq in HN; auto. apply pow_le. lra.
  - destruct (Pow_x_infinity (B up) ltac:(rewrite Rabs_pos_eq; lra) (C + 1)) as [N HN]. exists N. left. split; auto. specialize (HN (S N) ltac:(lia)). rewrite Rabs_pos_eq in HN; [lra|]. apply pow_le. lra.
Qed.
Theorem perfect_power_ok : exists f, forall fuel, (f <= fuel)%nat ->
  exists r, is_perfect_power fuel c a = Some r /\ match r with Some z => powerRZ A z = C | None => forall z, (z <> 0)%Z -> powerRZ A z <> C end.
Proof.
  assert (Pa : q_lt 0 a = true) by (apply q_lt_spec; now rewrite rv_0). assert (Pc : q_lt 0 c = true) by (apply q_lt_spec; now rewrite rv_0).
  destruct (Req_EM_T A 1) as [E1|N1].
  - assert (Ea : a = 1%Qc) by (apply rv_inj; now rewrite rv_1). exists 1%nat. intros [|fuel] Hf; [lia|]. unfold is_perfect_power. rewrite Pa, Pc. cbn [andb].
    destruct (Qc_eqb c 1) eqn:Ec.
    + apply Qc_eqb_eq in Ec. rewrite andb_false_r. exists (Some 1%Z). split; [|rewrite powerRZ_1, E1, Ec; now rewrite rv_1].
      destruct (loop_step true 1 fuel) as [[X _]|[X _]]; [change (idx true 1) with 1%Z in X; now rewrite X|]. exfalso. apply X. cbn [B]. rewrite E1, pow1, Ec. now rewrite rv_1.
    + assert (Qc_eqb a 1 = true) as -> by now apply Qc_eqb_eq. cbn [andb negb]. exists None. split; auto. intros z _ Q. rewrite E1, powerRZ_R1 in Q. assert (c = 1%Qc) by (apply rv_inj; rewrite rv_1; auto). apply Qc_eqb_eq in H. congruence.
  - assert (N2 : B false <> 1) by (cbn; intros Q; apply N1; apply (f_equal Rinv) in Q; rewrite Rinv_inv, Rinv_1 in Q; auto).
    destruct (passes true N1) as [M1 P1], (passes false N2) as [M2 P2]. exists (S (M1 + M2)). intros fuel Hf. unfold is_perfect_power. rewrite Pa, Pc. cbn [andb].
    assert (Qc_eqb a 1 = false) as -> by (destruct (Qc_eqb a 1) eqn:Q; auto; apply Qc_eqb_eq in Q; exfalso; apply N1; rewrite Q; apply rv_1). cbn [andb].
    destruct (loop_ok true _ P1 M1 1 fuel ltac:(lia) ltac:(lia)) as (r & Er & Hr). change (idx true 1) with 1%Z in Er. rewrite Er. destruct r as [z|].
    + exists (Some z). split; auto. destruct Hr as (j & -> & _ & Hj). now rewrite idx_powerRZ.
    + destruct (loop_ok false _ P2 M2 1 fuel ltac:(lia) ltac:(lia)) as (r & Er' & Hr'). change (idx false 1) with (-1)%Z in Er'. rewrite Er'. exists r. split; auto. destruct r as [z|].
      * destruct Hr' as (j & -> & _ & Hj). now rewrite idx_powerRZ.
      * intros z Hz. destruct (Z_lt_le_dec 0 z) as [L|L].
        -- replace z with (idx true (Z.to_nat z)) by (cbn [idx]; lia). rewrite idx_powerRZ. apply Hr. lia.
        -- replace z with (idx false (Z.to_nat (- z))) by (cbn [idx]; lia). rewrite idx_powerRZ. apply Hr'. lia.
Qed.
(** Whatever the fuel, a power found is one. *)
Lemma loop_sound up fuel : forall i z, pp_loop fuel up a c (idx up i) = Some (Some z) -> powerRZ A z = C.
Proof.
  induction fuel as [|fuel IH]; intros i z H; [discriminate|]. destruct (loop_step up i fuel) as [[E Q]|[Ne [[E P]|[E P]]]]; rewrite E in H; try discriminate.
  - injection H as <-. now rewrite idx_powerRZ.
  - now apply (IH (S i)).
Qed.
End Perfect.
Theorem perfect_power_sound fuel c a z : is_perfect_power fuel c a = Some (Some z) -> 0 < rv a /\ 0 < rv c /\ powerRZ (rv a) z = rv c.
Proof.
  unfold is_perfect_power. destruct (q_lt 0 a) eqn:Pa; [|discriminate]. destruct (q_lt 0 c) eqn:Pc; [|discriminate]. apply q_lt_spec in Pa, Pc. rewrite rv_0 in *. cbn [andb]. intros H. split; auto. split; auto.
  destruct (_ && _)%bool; [discriminate|]. destruct (pp_loop fuel true a c 1) as [[y|]|] eqn:E; try discriminate.
  - injection H as ->. now apply (loop_sound a c Pa true fuel 1).
  - now apply (loop_sound a c Pa false fuel 1).
Qed.
