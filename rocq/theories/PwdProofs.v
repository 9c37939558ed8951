From Coq Require Import ZArith QArith Qcanon Reals List String Bool Lia Lra.
From Verif Require Import Ast ExprModel ExprSpec ExprProofs1 ExprProofs2 FactRwProofs2 PwdModel PwdSpec.
Import ListNotations.
Local Open Scope list_scope.
Local Open Scope R_scope.
Set Bullet Behavior "Strict Subproofs".

Lemma rpow_inv x y v : x <> 0 -> rpow x y = Some v -> rpow (/ x) (- y) = Some v.
Proof.
  intros Hx. unfold rpow. destruct (as_int y) as [z|] eqn:A.
  - apply as_int_spec in A as ->. rewrite <- opp_IZR, as_int_IZR. destruct (Req_EM_T x 0) as [E|_]; [tauto|]. intros [= <-].
    destruct (Req_EM_T (/ x) 0) as [E|_]; [exfalso; exact (Rinv_neq_0_compat x Hx E)|]. f_equal.
    rewrite powerRZ_neg', powerRZ_inv', Rinv_inv. reflexivity.
  - destruct (as_int (- y)) as [z|] eqn:A'.
    { apply as_int_spec in A'. assert (X : y = IZR (- z)) by (rewrite opp_IZR; lra). apply as_int_spec in X. congruence. }
    destruct (Rlt_dec 0 x) as [P|P].
    + intros [= <-]. destruct (Rlt_dec 0 (/ x)) as [Q|Q]; [|exfalso; apply Q; now apply Rinv_0_lt_compat]. f_equal. unfold Rpower. rewrite ln_Rinv by auto. f_equal. ring.
    + destruct (Req_EM_T x 0); [tauto|discriminate].
Qed.

Lemma rpow_m1 x : x <> 0 -> rpow x (-(1)) = Some (/ x).
Proof. intros H. unfold rpow. replace (-(1)) with (IZR (-1)) by (cbn; lra). rewrite as_int_IZR. destruct (Req_EM_T _ 0); [tauto|]. unfold powerRZ. change (Pos.to_nat 1) with 1%nat. now rewrite pow_1. Qed.
Lemma rpow_m1_0 : rpow 0 (-(1)) = None.
Proof. unfold rpow. replace (-(1)) with (IZR (-1)) by (cbn; lra). rewrite as_int_IZR. destruct (Req_EM_T 0 0); [reflexivity|lra]. Qed.

Section P.
Context (I : interp) (G : ginac) (HG : ginac_ok I G) (alpha lambda : string) (c d : Qc).
Notation sub := (substitute_pwr_diff_symbols G alpha lambda (subs_to_diff G alpha lambda c d)).
Definition good (rho : string -> R) : Prop := root c d (rho lambda) /\ ~ root c d (rho alpha).

Lemma to_value rho : good rho -> rho lambda - rho alpha <> 0 /\ eval I rho (subs_to_diff G alpha lambda c d) = Some (/ (rho lambda - rho alpha)).
Proof.
  unfold good, root. intros [H1 H2]. set (l := rho lambda) in *. set (a := rho alpha) in *.
  assert (N : l - a <> 0). { intros E. apply H2. assert (l = a) by lra. congruence. }
  split; auto. assert (D : - (a * a) + a * rv c + rv d <> 0). { intros E. apply H2. lra. }
  assert (V : / (l - a) = (l + a - rv c) * / (- (a * a) + a * rv c + rv d)).
  { apply Rmult_eq_reg_l with ((l - a) * (- (a * a) + a * rv c + rv d)); [|now apply Rmult_integral_contrapositive_currified].
    replace ((l - a) * (- (a * a) + a * rv c + rv d) * / (l - a)) with (- (a * a) + a * rv c + rv d) by (field; auto).
    replace ((l - a) * (- (a * a) + a * rv c + rv d) * ((l + a - rv c) * / (- (a * a) + a * rv c + rv d))) with ((l - a) * (l + a - rv c)) by (field; auto).
    replace ((l - a) * (l + a - rv c)) with (l * l - a * a - rv c * l + rv c * a) by ring. rewrite H1. ring. }
  rewrite V. unfold subs_to_diff. apply (gmul_val _ _ HG).
  - apply (gsub_val _ _ HG); [|reflexivity]. apply (gadd_val _ _ HG); reflexivity.
  - apply (gpow_val _ _ HG _ _ _ (- (a * a) + a * rv c + rv d) (-(1))).
    + apply (gadd_val _ _ HG); [|reflexivity]. apply (gadd_val _ _ HG).
      * replace (- (a * a)) with (-(1) * (a * a)) by ring. apply (gmul_val _ _ HG). { cbn [eval]. now rewrite rv_opp, rv_1. }
        apply (gpow_val _ _ HG _ _ _ a (1 + 1)). { reflexivity. } { cbn [eval]. now rewrite rv_add, rv_1. }
        unfold rpow. replace (1 + 1) with (IZR 2) by (cbn; lra). rewrite as_int_IZR. cbn [Z.ltb]. destruct (Req_EM_T a 0); apply f_equal; change (powerRZ a 2) with (a ^ 2); ring.
      * apply (gmul_val _ _ HG); reflexivity.
    + cbn [eval]. now rewrite rv_opp, rv_1.
    + unfold rpow. replace (-(1)) with (IZR (-1)) by (cbn; lra). rewrite as_int_IZR. destruct (Req_EM_T _ 0); [tauto|]. unfold powerRZ. change (Pos.to_nat 1) with 1%nat. now rewrite pow_1.
Qed.
Lemma diff_value a b rho e : is_diff G a b e = true -> eval I rho e = Some (rho a - rho b).
Proof. intros H. apply expr_eqb_eq in H as ->. apply (gsub_val _ _ HG); reflexivity. Qed.

Lemma sub_pow rho base q v : good rho -> eval I rho (Pow base (Num q)) = Some v ->
  (is_diff G lambda alpha base = true -> eval I rho (gpow G (subs_to_diff G alpha lambda c d) (Num (- q)%Qc)) = Some v) /\
  (is_diff G alpha lambda base = true -> eval I rho (gpow G (gmul G (Num (-(1))%Qc) (subs_to_diff G alpha lambda c d)) (Num (- q)%Qc)) = Some v).
Proof.
  intros HR E. destruct (to_value rho HR) as [N T]. split; intros D; pose proof (diff_value _ _ rho _ D) as V; cbn [eval] in E; rewrite V in E; cbn [obind] in E.
  - apply (gpow_val _ _ HG _ _ _ (/ (rho lambda - rho alpha)) (- rv q)); auto. { cbn [eval]. now rewrite rv_opp. } now apply rpow_inv.
  - apply (gpow_val _ _ HG _ _ _ (/ (rho alpha - rho lambda)) (- rv q)). 2:{ cbn [eval]. now rewrite rv_opp. } 2:{ apply rpow_inv; auto. lra. }
    replace (/ (rho alpha - rho lambda)) with (-(1) * / (rho lambda - rho alpha)) by (field; split; lra). apply (gmul_val _ _ HG); auto. cbn [eval]. now rewrite rv_opp, rv_1.
Qed.
Lemma good_upd rho k x : k <> alpha -> k <> lambda -> good rho -> good (upd rho k x).
Proof. unfold good, upd. intros A L. destruct (String.eqb_spec alpha k); [congruence|]. destruct (String.eqb_spec lambda k); [congruence|]. auto. Qed.

Theorem sub_ok e : forall rho v, good rho -> not_index alpha e -> not_index lambda e -> eval I rho e = Some v -> eval I rho (sub e) = Some v.
Proof.
  induction e using expr_ind'; intros rho v HR HA HL E; cbn [substitute_pwr_diff_symbols]; auto.
  - rewrite eval_Add in E. inversion HA as [| | |l0 FA E0| | | | | ]; subst. inversion HL as [| | |l0 FL E0| | | | | ]; subst.
    unfold add_all. clear HA HL. revert v E FA FL. induction H as [|a l Ha Hl IH]; intros v E FA FL.
    + cbn in E |- *. rewrite rv_0. exact E.
    + rewrite esum_cons in E. apply olift2_some in E as (p & q & Ep & Eq & ->). inversion FA; inversion FL; subst. cbn [map fold_right]. rewrite Rplus_comm. apply (gadd_val _ _ HG); auto.
  - rewrite eval_Mul in E. inversion HA as [| | | |l0 FA E0| | | | ]; subst. inversion HL as [| | | |l0 FL E0| | | | ]; subst.
    unfold mul_all. clear HA HL. revert v E FA FL. induction H as [|a l Ha Hl IH]; intros v E FA FL.
    + cbn in E |- *. rewrite rv_1. exact E.
    + rewrite eprod_cons in E. apply olift2_some in E as (p & q & Ep & Eq & ->). inversion FA; inversion FL; subst. cbn [map fold_right]. rewrite Rmult_comm. apply (gmul_val _ _ HG); auto.
  - inversion HA; inversion HL; subst.
    assert (D : eval I rho (gpow G (sub e1) (sub e2)) = Some v) by (apply (pow_limits _ _ HG rho e1 e2); auto).
    destruct (is_a_number e2) as [q|] eqn:Q; auto. destruct e2; try discriminate Q. injection Q as ->. destruct (sub_pow rho e1 q v HR E) as [P1 P2].
    destruct (q_lt q 0); auto. destruct (is_diff G lambda alpha e1) eqn:D1; auto. destruct (is_diff G alpha lambda e1) eqn:D2; auto.
  - inversion HA as [| | | | | |f0 l0 FA E0| | ]; subst. inversion HL as [| | | | | |f0 l0 FL E0| | ]; subst. apply (gfun_ok _ _ HG). cbn [eval] in E |- *.
    destruct (omap (eval I rho) l) as [vs|] eqn:O; [|discriminate]. cbn [obind] in E. erewrite omap_refine; [exact E| |exact O].
    clear O E HA HL. induction H as [|a l Ha Hl IH]; constructor; inversion FA; inversion FL; subst; auto.
  - inversion HA; inversion HL; subst. apply (gsum_ok _ _ HG). apply (sum_limits I rho k e1 e2 e3); auto. intros i w. apply IHe3; auto. apply good_upd; auto.
  - inversion HA; inversion HL; subst. apply (gprod_ok _ _ HG). apply (prod_limits I rho k e1 e2 e3); auto. intros i w. apply IHe3; auto. apply good_upd; auto.
Qed.
End P.
