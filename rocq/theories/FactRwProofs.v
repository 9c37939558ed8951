From Coq Require Import ZArith QArith Qcanon Reals List String Bool Lia Lra.
From Verif Require Import Ast ExprModel ExprSpec ExprProofs1 ExprProofs2 NonLinModel NonLinProofs BoundVProofs ProdProofs ProdProofs2 SumSimpProofs2 FactRwModel FactRwSpec.
Import ListNotations.
Local Open Scope list_scope.
Local Open Scope R_scope.

(** * Numbers *)
Lemma binom_fact m k : (k <= m)%nat -> gbinom (INR m) k = INR (fact m) / (INR (fact (m - k)) * INR (fact k)).
Proof.
  induction k as [|k IH]; intros H; cbn [gbinom].
  - rewrite Nat.sub_0_r. cbn [fact INR]. field. apply INR_fact_neq_0.
  - rewrite IH by lia. replace (m - k)%nat with (S (m - S k)) by lia. rewrite !fact_S.
    replace (INR m - INR k) with (INR (S (m - S k))) by (rewrite <- minus_INR by lia; f_equal; lia).
    field. repeat split; try apply INR_fact_neq_0; apply not_0_INR; lia.
Qed.
Lemma binom_neg p k : gbinom (- INR (S p)) k = (-1) ^ k * INR (fact (k + p)) / (INR (fact p) * INR (fact k)).
Proof.
  induction k as [|k IH]; cbn [gbinom].
  - cbn [Nat.add pow]. cbn [fact INR]. field. apply INR_fact_neq_0.
  - rewrite IH. cbn [Nat.add pow]. rewrite !fact_S. replace (INR (S (k + p))) with (INR (S p) + INR k) by (rewrite <- plus_INR; f_equal; lia).
    field. repeat split; try apply INR_fact_neq_0; apply not_0_INR; lia.
Qed.
Lemma q_le_0 q : q_le 0 q = true <-> 0 <= rv q.
Proof. rewrite q_le_rv, rv_0. tauto. Qed.
Lemma q_is_int_is q : q_is_int q = true <-> is_integer (rv q).
Proof.
  split; intros H; [exists (q_int q); now apply q_int_v|]. destruct H as [z E]. rewrite <- rv_zq in E. apply rv_inj in E. subst q. apply q_is_int_zq.
Qed.
Lemma powerRZ_pow_mult x a b : x <> 0 -> powerRZ (powerRZ x a) b = powerRZ x (a * b).
Proof.
  intros Hx.
  assert (P : forall m : nat, powerRZ (powerRZ x a) (Z.of_nat m) = powerRZ x (a * Z.of_nat m)).
  { intros m. rewrite <- pow_powerRZ. induction m as [|m IH]; [now rewrite Z.mul_0_r|]. cbn [pow]. rewrite IH, <- powerRZ_add by auto. f_equal. lia. }
  destruct (Z_le_gt_dec 0 b) as [B|B].
  - rewrite <- (Z2Nat.id b) by auto. apply P.
  - replace b with (- Z.of_nat (Z.to_nat (- b)))%Z by lia. rewrite Z.mul_opp_r. rewrite !powerRZ_neg' by (auto; apply powerRZ_NOR; auto). f_equal. apply P.
Qed.
(** (c^x)^q = (c^q)^x *)
Lemma swap_value c x q u v : (0 < c \/ (c <> 0 /\ is_integer q)) -> rpow c x = Some u -> rpow u q = Some v -> exists w, rpow c q = Some w /\ rpow w x = Some v.
Proof.
  intros [Hc|[Hc [z ->]]] Hu Hv.
  - rewrite rpow_pos in Hu by auto. injection Hu as <-. rewrite rpow_pos in Hv by apply exp_pos. injection Hv as <-. exists (Rpower c q). split; [now apply rpow_pos|].
    rewrite rpow_pos by apply exp_pos. rewrite !Rpower_mult. do 2 f_equal. ring.
  - unfold rpow at 1 in Hu. destruct (Req_EM_T c 0); [contradiction|]. destruct (as_int x) as [y|] eqn:Ex.
    + apply as_int_spec in Ex. subst x. injection Hu as <-. assert (Nz : powerRZ c y <> 0) by (apply powerRZ_NOR; auto).
      unfold rpow in Hv. rewrite as_int_IZR in Hv. destruct (Req_EM_T (powerRZ c y) 0); [contradiction|]. injection Hv as <-.
      exists (powerRZ c z). unfold rpow. rewrite !as_int_IZR. destruct (Req_EM_T c 0); [contradiction|]. split; auto.
      destruct (Req_EM_T (powerRZ c z) 0) as [E|_]; [exfalso; revert E; apply powerRZ_NOR; auto|]. rewrite !powerRZ_pow_mult by auto. do 2 f_equal. ring.
    + destruct (Rlt_dec 0 c) as [Hc'|]; [|discriminate]. injection Hu as <-. rewrite rpow_pos in Hv by apply exp_pos. injection Hv as <-. exists (Rpower c (IZR z)). split; [now apply rpow_pos|].
      rewrite rpow_pos by apply exp_pos. rewrite !Rpower_mult. do 2 f_equal. ring.
Qed.

Section Rewrite.
Context (I : interp) (G : ginac) (HG : ginac_ok I G).

Section Fact.
Context (HF : factorial_std I).
Lemma fact_value rho e n : eval I rho e = Some (INR n) -> eval I rho (gfun G FFact [e]) = Some (INR (fact n)).
Proof. intros E. apply (gfun_ok _ _ HG). cbn [eval omap]. rewrite E. cbn [obind]. apply HF. eauto. Qed.
Lemma fact_value_inv rho e v : eval I rho (Fun FFact [e]) = Some v -> exists n, eval I rho e = Some (INR n) /\ v = INR (fact n).
Proof. cbn [eval omap]. destruct (eval I rho e) as [x|]; [|discriminate]. cbn [obind]. intros H. apply HF in H as (n & -> & ->). eauto. Qed.

Lemma integer_number_dec a : (exists z, a = Num (zq z) /\ q_is_int (zq z) = true) \/ (~ integer_number a /\ forall q, a = Num q -> q_is_int q = false).
Proof.
  destruct a as [q| | | | | | | |]; try (right; split; [intros [z E]; discriminate|intros; discriminate]).
  destruct (q_is_int q) eqn:Q.
  - left. exists (q_int q). assert (E : q = zq (q_int q)) by (apply rv_inj; rewrite rv_zq; now apply q_int_v). rewrite <- E. auto.
  - right. split; [|intros p [= ->]; auto]. intros [z E]. assert (q = zq z) by congruence. subst. rewrite q_is_int_zq in Q. discriminate.
Qed.
Lemma split_step a l : ~ integer_number a -> split_argument G (a :: l) = (fst (split_argument G l), gadd G (snd (split_argument G l)) a).
Proof.
  intros H. unfold split_argument at 1. cbn [fold_right]. fold (split_argument G l). destruct (integer_number_dec a) as [(z & E & _)|[_ Hq]]; [exfalso; apply H; eexists; eauto|].
  destruct a; auto. now rewrite (Hq _ eq_refl).
Qed.
Lemma split_rest rho l x : Forall (fun a => ~ integer_number a) l -> esum I rho l = Some x -> fst (split_argument G l) = 0%Qc /\ eval I rho (snd (split_argument G l)) = Some x.
Proof.
  intros Fl. revert x. induction Fl as [|a l Ha Fl IH]; intros x E.
  - split; [reflexivity|]. cbn [split_argument fold_right snd eval]. rewrite rv_0. exact E.
  - rewrite esum_cons in E. apply olift2_some in E as (u & w & Eu & Ew & ->). destruct (IH w Ew) as [I1 I2]. rewrite split_step by auto. cbn [fst snd]. split; auto.
    rewrite Rplus_comm. now apply (gadd_val _ _ HG).
Qed.
Lemma split_value rho l z rest x : integer_part l z rest -> esum I rho l = Some x ->
  fst (split_argument G l) = zq z /\ exists y, esum I rho rest = Some y /\ eval I rho (snd (split_argument G l)) = Some y /\ x = y + IZR z.
Proof.
  intros [Fr [[-> ->]|(l1 & l2 & -> & ->)]] E.
  - destruct (split_rest rho rest x Fr E) as [E1 E2]. split; [rewrite E1; apply rv_inj; now rewrite rv_zq, rv_0|]. exists x. repeat split; auto. ring.
  - apply Forall_app in Fr as [F1 F2]. revert x E. induction F1 as [|a l1 Ha F1 IH]; intros x E; cbn [app] in *.
    + rewrite esum_cons in E. apply olift2_some in E as (u & w & Eu & Ew & ->). destruct (split_rest rho l2 w F2 Ew) as [E1 E2].
      unfold split_argument. cbn [fold_right]. rewrite q_is_int_zq. fold (split_argument G l2). cbn [fst snd]. split; auto. exists w. cbn [eval] in Eu. rewrite rv_zq in Eu. injection Eu as <-. repeat split; auto. ring.
    + rewrite esum_cons in E. apply olift2_some in E as (u & w & Eu & Ew & ->). destruct (IH w Ew) as [E1 (y & E2 & E3 & ->)]. rewrite split_step by auto. cbn [fst snd]. split; auto.
      exists (u + y). rewrite esum_cons, Eu, E2. repeat split; auto; [|ring]. rewrite Rplus_comm. now apply (gadd_val _ _ HG).
Qed.
Lemma rising_value rho a n m : eval I rho a = Some (INR m) -> exists w, eval I rho (rising G a n) = Some w /\ INR (fact m) * w = INR (fact (m + n)).
Proof.
  intros E. induction n as [|n (w & Ew & Hw)]; cbn [rising].
  - exists 1. cbn [eval]. rewrite rv_1, Nat.add_0_r. split; auto. ring.
  - exists (w * (INR m + INR (S n))). split.
    + apply (gmul_val _ _ HG); auto. apply (gadd_val _ _ HG); auto. cbn [eval]. now rewrite rv_zq, <- INR_IZR_INZ.
    + rewrite <- Rmult_assoc, Hw, <- plus_INR. replace (m + S n)%nat with (S (m + n)) by lia. rewrite fact_S. ring.
Qed.
Lemma falling_value rho a n m : eval I rho a = Some (INR m) -> (n <= m)%nat -> exists w, eval I rho (falling_inv G a n) = Some w /\ INR (fact m) * w = INR (fact (m - n)).
Proof.
  intros E. induction n as [|n IH]; cbn [falling_inv]; intros H.
  - exists 1. cbn [eval]. rewrite rv_1, Nat.sub_0_r. split; auto. ring.
  - destruct IH as (w & Ew & Hw); [lia|]. assert (P : INR m - INR n <> 0) by (rewrite <- minus_INR by lia; apply not_0_INR; lia).
    exists (w * / (INR m - INR n)). split.
    + apply (gmul_val _ _ HG); auto. apply (gpow_val _ _ HG _ _ _ (INR m - INR n) (-1)); auto.
      * apply (gsub_val _ _ HG); auto. cbn [eval]. now rewrite rv_zq, <- INR_IZR_INZ.
      * cbn [eval]. rewrite rv_opp, rv_1. f_equal; lra.
      * unfold rpow. rewrite as_int_IZR. destruct (Req_EM_T (INR m - INR n) 0); [contradiction|]. f_equal. cbn [powerRZ]. change (Pos.to_nat 1) with 1%nat. cbn [pow]. now rewrite Rmult_1_r.
    + rewrite <- Rmult_assoc, Hw. replace (m - n)%nat with (S (m - S n)) by lia. rewrite fact_S. replace (INR (S (m - S n))) with (INR m - INR n) by (rewrite <- minus_INR by lia; f_equal; lia). field. auto.
Qed.
Theorem decompose_ok rho l v : factorial_fine I rho l -> eval I rho (Fun FFact [Add l]) = Some v -> eval I rho (decompose_factorial G (Add l)) = Some v.
Proof.
  intros (z & rest & Hl & Hz) E. apply fact_value_inv in E as (n & En & ->). rewrite eval_Add in En. destruct (split_value rho l z rest _ Hl En) as [E1 (y & E2 & E3 & Ey)].
  cbn [decompose_factorial]. destruct (split_argument G l) as [num a] eqn:Sp. cbn [fst snd] in *. subst num. rewrite q_int_zq.
  destruct (Z.ltb_spec 0 z) as [P|P].
  - destruct (Hz P) as [m Em]. rewrite eval_Add, E2 in Em. injection Em as ->. destruct (rising_value rho a (Z.to_nat z) m E3) as (w & Ew & Hw).
    rewrite (gmul_val _ _ HG _ _ _ _ _ (fact_value rho a m E3) Ew), Hw. do 3 f_equal. apply INR_eq. rewrite plus_INR, Ey. f_equal. rewrite INR_IZR_INZ, Z2Nat.id by lia. reflexivity.
  - assert (Ey' : y = INR (n + Z.to_nat (- z))) by (rewrite plus_INR, Ey, (INR_IZR_INZ (Z.to_nat (- z))), Z2Nat.id, opp_IZR by lia; ring). rewrite Ey' in E3.
    destruct (falling_value rho a (Z.to_nat (- z)) _ E3 ltac:(lia)) as (w & Ew & Hw). rewrite (gmul_val _ _ HG _ _ _ _ _ (fact_value rho a _ E3) Ew), Hw. do 3 f_equal. lia.
Qed.
End Fact.
End Rewrite.
