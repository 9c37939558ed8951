From Coq Require Import ZArith QArith Qcanon Reals List String Bool Lia Lra.
From Verif Require Import Ast ExprModel ExprSpec ExprProofs1 ExprProofs2 DecompModel DecompSpec DecompProofs VerifyProofs2 ProdSpec ProdProofs ProdProofs2 ProdProofs3 SumSimpModel SumSimpSpec.
Import ListNotations.
Local Open Scope list_scope.
Local Open Scope R_scope.

Lemma osum_zsum F f lo n : (forall i, (lo <= i < lo + Z.of_nat n)%Z -> F i = Some (f i)) -> osum n (fun j => F (lo + Z.of_nat j)%Z) = Some (zsum f lo n).
Proof. induction n as [|n IH]; intros H; cbn [osum zsum]; auto. rewrite IH by (intros; apply H; lia). rewrite H by lia. reflexivity. Qed.
Lemma zsum_zero lo n : zsum (fun _ => 0) lo n = 0. Proof. induction n; cbn [zsum]; auto. rewrite IHn. ring. Qed.
Lemma zsum_scal c f lo n : zsum (fun i => f i * c) lo n = zsum f lo n * c. Proof. induction n; cbn [zsum]; [ring|]. rewrite IHn. ring. Qed.
Lemma zsum_const c lo n : zsum (fun _ => c) lo n = INR n * c. Proof. induction n; cbn [zsum]; [cbn; ring|]. rewrite IHn, S_INR. ring. Qed.
Lemma upd_same rho k v : upd rho k v k = v. Proof. unfold upd. now rewrite String.eqb_refl. Qed.
Lemma upd_other rho k v s : s <> k -> upd rho k v s = rho s. Proof. intros H. unfold upd. destruct (String.eqb_spec s k); congruence. Qed.

(** The value of a sum. *)
Lemma sum_value I rho k lo up e a b f : eval I rho lo = Some (IZR a) -> eval I rho up = Some (IZR b) -> summands I rho k e a b f ->
  eval I rho (SumE k lo up e) = Some (zsum f a (Z.to_nat (b - a + 1))).
Proof.
  intros Ha Hb Hf. apply (eval_sum_intro I _ _ _ _ _ _ a b); auto.
  apply (osum_zsum (fun i => eval I (upd rho k (IZR i)) e)). intros i Hi. apply Hf. lia.
Qed.
Lemma sum_value_inv I rho k lo up e a b v : eval I rho lo = Some (IZR a) -> eval I rho up = Some (IZR b) -> eval I rho (SumE k lo up e) = Some v ->
  exists f, summands I rho k e a b f /\ v = zsum f a (Z.to_nat (b - a + 1)).
Proof.
  intros Ha Hb E. pose (f := fun i : Z => match eval I (upd rho k (IZR i)) e with Some x => x | None => 0 end). exists f.
  apply eval_sum_inv in E as (a' & b' & Ha' & Hb' & Es). assert (a' = a) by (apply eq_IZR; congruence). assert (b' = b) by (apply eq_IZR; congruence). subst a' b'.
  apply osum_some in Es as (g & Hg & Ev).
  assert (S1 : summands I rho k e a b f).
  { intros i Hi. specialize (Hg (Z.to_nat (i - a)) ltac:(lia)). rewrite Z2Nat.id in Hg by lia. replace (a + (i - a))%Z with i in Hg by lia. unfold f. now rewrite Hg. }
  split; [exact S1|]. pose proof (sum_value I rho k lo up e a b f Ha Hb S1) as E2.
  assert (E3 : eval I rho (SumE k lo up e) = Some v). { apply (eval_sum_intro I _ _ _ _ _ _ a b); auto. apply osum_some. exists g. auto. }
  congruence.
Qed.

Section Sums.
Context (I : interp) (G : ginac) (HG : ginac_ok I G).

(** The constant factors taken out. *)
Lemma sum_out_ok k lo up e rho a b f t0 u0 : eval I rho lo = Some (IZR a) -> eval I rho up = Some (IZR b) -> (a - 1 <= b)%Z ->
  summands I rho k e a b f -> eval I (upd rho k t0) e = Some u0 ->
  eval I rho (sum_out G k lo up e) = Some (zsum f a (Z.to_nat (b - a + 1))).
Proof.
  intros Ha Hb Hab Hf H0. unfold sum_out. destruct (get_out_factors_from_argument G e k) as [fin fout] eqn:EG.
  set (n := Z.to_nat (b - a + 1)).
  destruct (get_out_values I G HG e k fin fout rho (fun i => IZR (a + Z.of_nat i)) (fun i => f (a + Z.of_nat i)%Z) n t0 u0 EG) as (c & g & Hc & Hg & Hfg); auto.
  { intros i Hi. apply Hf. unfold n in Hi. lia. }
  assert (E : zsum f a n = zsum (fun i => g (Z.to_nat (i - a)) * c) a n).
  { apply zsum_ext. intros i Hi. specialize (Hfg (Z.to_nat (i - a)) ltac:(lia)). rewrite Z2Nat.id in Hfg by lia. replace (a + (i - a))%Z with i in Hfg by lia. exact Hfg. }
  rewrite E, zsum_scal, Rmult_comm.
  destruct (is_num 1%Qc fin) eqn:E1.
  - apply is_num_eq in E1. subst fin. apply (gmul_val _ _ HG); auto.
    rewrite (len_val I G HG rho lo up a b Ha Hb). f_equal.
    rewrite (zsum_ext _ (fun _ => 1)), zsum_const.
    + rewrite Rmult_1_r. unfold n. rewrite INR_IZR_INZ, Z2Nat.id by lia. reflexivity.
    + intros i Hi. specialize (Hg (Z.to_nat (i - a)) ltac:(lia)). cbn [eval] in Hg. rewrite rv_1 in Hg. congruence.
  - apply (gmul_val _ _ HG); auto. apply (gsum_ok _ _ HG). apply sum_value; auto.
    intros i Hi. specialize (Hg (Z.to_nat (i - a)) ltac:(unfold n; lia)). rewrite Z2Nat.id in Hg by lia. replace (a + (i - a))%Z with i in Hg by lia. exact Hg.
Qed.

(** f(M+j) *)
Lemma at_shift_ok k m e rho M j v : rho m = IZR M -> k <> m -> no_capture k (gadd G (Sym m) (Num (zq j))) e ->
  eval I (upd rho k (IZR (M + j))) e = Some v -> eval I rho (at_shift G k m e j) = Some v.
Proof.
  intros Hm Hk NC E. unfold at_shift. apply (substitute_ok I G HG) with (w := IZR (M + j)); auto.
  rewrite plus_IZR, <- Hm. apply (gadd_val _ _ HG); [reflexivity|]. cbn [eval]. now rewrite rv_zq.
Qed.
Lemma add_terms_ok k m e rho M f n : rho m = IZR M -> k <> m -> (forall j, no_capture k (gadd G (Sym m) (Num (zq j))) e) ->
  forall j acc x, summands I rho k e (M + j) (M + j + Z.of_nat n - 1) f -> eval I rho acc = Some x ->
  eval I rho (add_terms G k m e acc n j) = Some (x + zsum f (M + j) n).
Proof.
  intros Hm Hk NC. induction n as [|n IH]; intros j acc x Hf Ha; cbn [add_terms].
  - cbn [zsum]. rewrite Rplus_0_r. exact Ha.
  - rewrite (IH (j + 1)%Z _ (x + f (M + j)%Z)).
    + f_equal. change (S n) with (1 + n)%nat. rewrite zsum_app. cbn [zsum]. change (Z.of_nat 0) with 0%Z. change (Z.of_nat 1) with 1%Z. rewrite Z.add_0_r, Z.add_assoc. ring.
    + intros i Hi. apply Hf. lia.
    + apply (gadd_val _ _ HG); auto. apply (at_shift_ok k m e rho M); auto. apply Hf. lia.
Qed.
Lemma sub_terms_ok k m e rho M f n : rho m = IZR M -> k <> m -> (forall j, no_capture k (gadd G (Sym m) (Num (zq j))) e) ->
  forall j acc x, summands I rho k e (M + j) (M + j + Z.of_nat n - 1) f -> eval I rho acc = Some x ->
  eval I rho (sub_terms G k m e acc n j) = Some (x - zsum f (M + j) n).
Proof.
  intros Hm Hk NC. induction n as [|n IH]; intros j acc x Hf Ha; cbn [sub_terms].
  - cbn [zsum]. rewrite Rminus_0_r. exact Ha.
  - rewrite (IH (j + 1)%Z _ (x - f (M + j)%Z)).
    + f_equal. change (S n) with (1 + n)%nat. rewrite zsum_app. cbn [zsum]. change (Z.of_nat 0) with 0%Z. change (Z.of_nat 1) with 1%Z. rewrite Z.add_0_r, Z.add_assoc. ring.
    + intros i Hi. apply Hf. lia.
    + apply (gsub_val _ _ HG); auto. apply (at_shift_ok k m e rho M); auto. apply Hf. lia.
Qed.
Theorem split_sum_ok rho k lo up e v : split_treated I G rho k lo up e -> eval I rho (SumE k lo up e) = Some v -> eval I rho (split_sum G k lo up e) = Some v.
Proof.
  intros [(l & m & num & M & f & Hl & Hup & Hm & Hk & H1 & H2 & Hf & NC)|(Hs & l & U & Hl & HU & H1 & t0 & u0 & H0)] E.
  - assert (Eu : eval I rho up = Some (IZR (M + num))).
    { rewrite plus_IZR, <- Hm. destruct Hup as [->| ->]; rewrite eval_Add2; cbn [eval olift2]; rewrite rv_zq; [reflexivity|]. f_equal. ring. }
    assert (Es : split_sum G k lo up e = split_shift G k lo m (zq num) e) by (destruct Hup as [->| ->]; reflexivity).
    rewrite Es. clear Es. rewrite (sum_value I rho k lo up e l (M + num) f Hl Eu) in E by (intros i Hi; apply Hf; lia).
    rewrite <- E. unfold split_shift. rewrite q_is_int_zq.
    assert (Qi : q_int (zq num) = num). { pose proof (q_int_v _ (q_is_int_zq num)) as Q. rewrite rv_zq in Q. symmetry. now apply eq_IZR. }
    rewrite Qi.
    assert (B : eval I rho (gadd G (Num 0) (sum_out G k lo (Sym m) e)) = Some (0 + zsum f l (Z.to_nat (M - l + 1)))).
    { apply (gadd_val _ _ HG); [cbn [eval]; now rewrite rv_0|].
      apply (sum_out_ok k lo (Sym m) e rho l M f (IZR l) (f l)); auto; [cbn [eval]; now rewrite Hm|intros i Hi; apply Hf; lia|apply Hf; lia]. }
    destruct (Z.ltb_spec 0 num) as [P|P].
    + rewrite (add_terms_ok k m e rho M f (Z.to_nat num) Hm Hk NC 1%Z _ (0 + zsum f l (Z.to_nat (M - l + 1)))); auto.
      * f_equal. replace (Z.to_nat (M + num - l + 1)) with (Z.to_nat (M - l + 1) + Z.to_nat num)%nat by lia. rewrite zsum_app.
        rewrite Z2Nat.id by lia. replace (l + (M - l + 1))%Z with (M + 1)%Z by lia. ring.
      * intros i Hi. apply Hf. lia.
    + rewrite (sub_terms_ok k m e rho M f (Z.to_nat (- num)) Hm Hk NC (num + 1)%Z _ (0 + zsum f l (Z.to_nat (M - l + 1)))); auto.
      * f_equal. replace (Z.to_nat (M - l + 1)) with (Z.to_nat (M + num - l + 1) + Z.to_nat (- num))%nat by lia. rewrite zsum_app.
        rewrite Z2Nat.id by lia. replace (l + (M + num - l + 1))%Z with (M + (num + 1))%Z by lia. ring.
      * intros i Hi. apply Hf. lia.
  - destruct (sum_value_inv I rho k lo up e l U v Hl HU E) as (f & Hf & ->).
    assert (Es : split_sum G k lo up e = sum_out G k lo up e).
    { unfold split_sum. destruct up as [| | |[|x [|y [|? ?]]]| | | | |]; try reflexivity; destruct x; try reflexivity; destruct y; try reflexivity; exfalso.
      - now destruct (Hs s q).
      - now destruct (Hs s q). }
    rewrite Es. apply (sum_out_ok k lo up e rho l U f t0 u0); auto.
Qed.
End Sums.
