(** Proofs about ExprModel.v: sums, products, binomials. *)
From Coq Require Import ZArith QArith Qcanon Qreals Reals List String Bool Lia Lra.
From Verif Require Import Ast ExprModel ExprSpec ExprProofs1.
Import ListNotations.
Local Open Scope R_scope.

Lemma no_capture_num s q e : not_bound s e -> no_capture s (Num q) e.
Proof.
  induction e using expr_ind'; cbn [not_bound no_capture]; auto.
  - intros H'. induction H as [|a l Ha Hl IH]; auto. destruct H'. split; auto.
  - intros H'. induction H as [|a l Ha Hl IH]; auto. destruct H'. split; auto.
  - intros [A B]; auto.
  - intros H'. induction H as [|a l Ha Hl IH]; auto. destruct H'. split; auto.
  - intros (A & B & C & D). repeat split; auto.
  - intros (A & B & C & D). repeat split; auto.
Qed.
Lemma no_capture_nobind s r e : no_binders e -> no_capture s r e.
Proof.
  induction e using expr_ind'; cbn [no_binders no_capture]; auto; try tauto.
  - intros H'. induction H as [|a l Ha Hl IH]; auto. destruct H'. split; auto.
  - intros H'. induction H as [|a l Ha Hl IH]; auto. destruct H'. split; auto.
  - intros H'. induction H as [|a l Ha Hl IH]; auto. destruct H'. split; auto.
Qed.

(** Plain iterated sums and products of reals. *)
Fixpoint rs (n : nat) (f : nat -> R) : R := match n with O => 0 | S m => rs m f + f m end.
Fixpoint rp (n : nat) (f : nat -> R) : R := match n with O => 1 | S m => rp m f * f m end.
Lemma rs_first n f : rs (S n) f = f O + rs n (fun i => f (S i)).
Proof. induction n; cbn [rs] in *; [lra|]. rewrite IHn. lra. Qed.
Lemma rp_first n f : rp (S n) f = f O * rp n (fun i => f (S i)).
Proof. induction n; cbn [rp] in *; [lra|]. rewrite IHn. lra. Qed.
Lemma rs_ext n f g : (forall i, (i < n)%nat -> f i = g i) -> rs n f = rs n g.
Proof. induction n; cbn; intros H; auto. rewrite IHn, H by (auto; lia). reflexivity. Qed.
Lemma rp_ext n f g : (forall i, (i < n)%nat -> f i = g i) -> rp n f = rp n g.
Proof. induction n; cbn; intros H; auto. rewrite IHn, H by (auto; lia). reflexivity. Qed.
Lemma osum_some n f v : osum n f = Some v <-> exists g, (forall i, (i < n)%nat -> f i = Some (g i)) /\ v = rs n g.
Proof.
  revert v. induction n as [|n IH]; intros v; cbn [osum rs].
  - split; [intros [= <-]; exists (fun _ => 0); split; [lia|auto]|intros (g & _ & ->); auto].
  - rewrite olift2_some. split.
    + intros (x & y & Hx & Hy & ->). apply IH in Hx as (g & Hg & ->).
      exists (fun i => if Nat.eqb i n then y else g i). split.
      * intros i Hi. destruct (Nat.eqb_spec i n); [subst; auto|]. apply Hg. lia.
      * rewrite Nat.eqb_refl. f_equal. apply rs_ext. intros i Hi. destruct (Nat.eqb_spec i n); [lia|auto].
    + intros (g & Hg & ->). exists (rs n g), (g n). split; [|auto]. apply IH. exists g. split; auto.
Qed.
Lemma oprod_some n f v : oprod n f = Some v <-> exists g, (forall i, (i < n)%nat -> f i = Some (g i)) /\ v = rp n g.
Proof.
  revert v. induction n as [|n IH]; intros v; cbn [oprod rp].
  - split; [intros [= <-]; exists (fun _ => 0); split; [lia|auto]|intros (g & _ & ->); auto].
  - rewrite olift2_some. split.
    + intros (x & y & Hx & Hy & ->). apply IH in Hx as (g & Hg & ->).
      exists (fun i => if Nat.eqb i n then y else g i). split.
      * intros i Hi. destruct (Nat.eqb_spec i n); [subst; auto|]. apply Hg. lia.
      * rewrite Nat.eqb_refl. f_equal. apply rp_ext. intros i Hi. destruct (Nat.eqb_spec i n); [lia|auto].
    + intros (g & Hg & ->). exists (rp n g), (g n). split; [|auto]. apply IH. exists g. split; auto.
Qed.
Lemma rs_const n c : rs n (fun _ => c) = INR n * c.
Proof. induction n; cbn [rs]; rewrite ?S_INR; [cbn; lra|]. rewrite IHn. lra. Qed.
Lemma rs_scal n c f : rs n (fun i => f i * c) = c * rs n f.
Proof. induction n; cbn [rs]; [lra|]. rewrite IHn. lra. Qed.
Lemma rp_scal n c f : rp n (fun i => f i * c) = c ^ n * rp n f.
Proof. induction n; cbn [rp pow]; [lra|]. rewrite IHn. lra. Qed.

Section G.
Variable I : interp.
Variable G : ginac.
Hypothesis HG : ginac_ok I G.

Lemma eval_num rho q : eval I rho (Num q) = Some (rv q). Proof. reflexivity. Qed.
Lemma gsub_val rho a b x y : eval I rho a = Some x -> eval I rho b = Some y -> eval I rho (gsub G a b) = Some (x - y).
Proof.
  intros Ha Hb. unfold gsub. replace (x - y) with (x + (-1) * y) by lra. apply (gadd_val _ _ HG); auto.
  apply (gmul_val _ _ HG); auto. rewrite eval_num, rv_opp, rv_1. f_equal; lra.
Qed.
Lemma len_val rho lo up a b : eval I rho lo = Some (IZR a) -> eval I rho up = Some (IZR b) ->
  eval I rho (gadd G (gsub G up lo) (Num 1)) = Some (IZR (b - a + 1)).
Proof.
  intros Ha Hb. rewrite plus_IZR, minus_IZR. apply (gadd_val _ _ HG); [apply gsub_val; auto|].
  rewrite eval_num, rv_1. reflexivity.
Qed.

(** Numeric limits. *)
Lemma loop_sum rho k e up : not_bound k e -> forall n j acc z f,
  eval I rho acc = Some z ->
  (forall i, (i < n)%nat -> rv j + INR i <= rv up) ->
  (forall i, (i < n)%nat -> eval I (upd rho k (rv j + INR i)) e = Some (f i)) ->
  eval I rho (num_loop G (gadd G) k e n j up acc) = Some (z + rs n f).
Proof.
  intros NB. induction n as [|n IH]; intros j acc z f Hz Hj Hf; cbn [num_loop].
  - cbn [rs]. rewrite Hz. f_equal. lra.
  - assert (L : q_le j up = true). { apply q_le_spec. specialize (Hj O ltac:(lia)). cbn in Hj. lra. }
    rewrite L, rs_first, <- Rplus_assoc.
    apply (IH _ _ (z + f O) (fun i => f (S i))).
    + apply (gadd_val _ _ HG); auto. eapply substitute_ok; eauto using no_capture_num; [apply eval_num|].
      specialize (Hf O ltac:(lia)). cbn [INR] in Hf. rewrite Rplus_0_r in Hf. exact Hf.
    + intros i Hi. rewrite rv_add, rv_1. specialize (Hj (S i) ltac:(lia)). rewrite S_INR in Hj. lra.
    + intros i Hi. rewrite rv_add, rv_1. rewrite <- (Hf (S i)) by lia. rewrite S_INR. do 2 f_equal. lra.
Qed.
Lemma loop_prod rho k e up : not_bound k e -> forall n j acc z f,
  eval I rho acc = Some z ->
  (forall i, (i < n)%nat -> rv j + INR i <= rv up) ->
  (forall i, (i < n)%nat -> eval I (upd rho k (rv j + INR i)) e = Some (f i)) ->
  eval I rho (num_loop G (gmul G) k e n j up acc) = Some (z * rp n f).
Proof.
  intros NB. induction n as [|n IH]; intros j acc z f Hz Hj Hf; cbn [num_loop].
  - cbn [rp]. rewrite Hz. f_equal. lra.
  - assert (L : q_le j up = true). { apply q_le_spec. specialize (Hj O ltac:(lia)). cbn in Hj. lra. }
    rewrite L, rp_first, <- Rmult_assoc.
    apply (IH _ _ (z * f O) (fun i => f (S i))).
    + apply (gmul_val _ _ HG); auto. eapply substitute_ok; eauto using no_capture_num; [apply eval_num|].
      specialize (Hf O ltac:(lia)). cbn [INR] in Hf. rewrite Rplus_0_r in Hf. exact Hf.
    + intros i Hi. rewrite rv_add, rv_1. specialize (Hj (S i) ltac:(lia)). rewrite S_INR in Hj. lra.
    + intros i Hi. rewrite rv_add, rv_1. rewrite <- (Hf (S i)) by lia. rewrite S_INR. do 2 f_equal. lra.
Qed.
Lemma loop_steps_spec l u z : IZR z <= rv u - rv l < IZR z + 1 -> loop_steps l u = Z.to_nat (z + 1).
Proof.
  intros H. unfold loop_steps. f_equal. pose proof (q_floor (u - l)%Qc) as F. cbv zeta in F. rewrite rv_sub in F.
  set (w := (Qnum (this (u - l)%Qc) / Z.pos (Qden (this (u - l)%Qc)))%Z) in *. clearbody w.
  assert (A : IZR z < IZR w + 1) by lra. assert (B : IZR w < IZR z + 1) by lra.
  rewrite <- (plus_IZR w 1) in A. rewrite <- (plus_IZR z 1) in B. apply lt_IZR in A, B. lia.
Qed.

Theorem sum_eval_numeric k l u e r : not_bound k e -> sum_eval G k (Num l) (Num u) e = Ret r ->
  refines I (SumE k (Num l) (Num u) e) r.
Proof.
  intros NB. cbn [sum_eval]. destruct (q_is_int l) eqn:Il; [|discriminate]. destruct (q_is_int u) eqn:Iu; [|discriminate].
  cbn [negb]. intros H rho v E. apply eval_sum_inv in E as (a & b & Ea & Eb & Es). rewrite eval_num in Ea, Eb.
  injection Ea as Ea. injection Eb as Eb.
  destruct (q_lt u l) eqn:L; [apply q_lt_spec in L|apply q_lt_false in L].
  - injection H as <-. rewrite Ea, Eb in L. apply lt_IZR in L. replace (Z.to_nat (b - a + 1)) with O in Es by lia.
    rewrite eval_num, rv_0. auto.
  - rewrite Ea, Eb in L. apply le_IZR in L. apply osum_some in Es as (g & Hg & ->).
    destruct (Qc_eqb l u) eqn:E.
    + apply Qc_eqb_eq in E. injection H as <-. subst u. rewrite Ea in Eb. apply eq_IZR in Eb. subst b.
      replace (Z.to_nat (a - a + 1)) with 1%nat in * by lia. cbn [rs]. rewrite Rplus_0_l.
      eapply (substitute_ok I G HG); [now apply no_capture_num|apply eval_num|]. rewrite Ea.
      rewrite <- (Hg O) by lia. do 3 f_equal. lia.
    + injection H as <-. rewrite <- (Rplus_0_l (rs _ _)).
      rewrite (loop_steps_spec l u (b - a)) by (rewrite minus_IZR; lra).
      apply loop_sum; auto.
      * rewrite eval_num, rv_0. auto.
      * intros i Hi. rewrite Ea, Eb, INR_IZR_INZ, <- plus_IZR. apply IZR_le. lia.
      * intros i Hi. rewrite Ea, INR_IZR_INZ, <- plus_IZR. apply Hg. auto.
Qed.
Theorem prod_eval_numeric k l u e r : not_bound k e -> prod_eval G k (Num l) (Num u) e = Ret r ->
  refines I (ProdE k (Num l) (Num u) e) r.
Proof.
  intros NB. cbn [prod_eval].
  intros H rho v E. apply eval_prod_inv in E as (a & b & Ea & Eb & Es). rewrite eval_num in Ea, Eb.
  injection Ea as Ea. injection Eb as Eb.
  destruct (q_lt u l) eqn:L; [apply q_lt_spec in L|apply q_lt_false in L].
  - injection H as <-. rewrite Ea, Eb in L. apply lt_IZR in L. replace (Z.to_nat (b - a + 1)) with O in Es by lia.
    rewrite eval_num, rv_1. auto.
  - rewrite Ea, Eb in L. apply le_IZR in L. apply oprod_some in Es as (g & Hg & ->).
    destruct (Qc_eqb l u) eqn:E.
    + apply Qc_eqb_eq in E. injection H as <-. subst u. rewrite Ea in Eb. apply eq_IZR in Eb. subst b.
      replace (Z.to_nat (a - a + 1)) with 1%nat in * by lia. cbn [rp]. rewrite Rmult_1_l.
      eapply (substitute_ok I G HG); [now apply no_capture_num|apply eval_num|]. rewrite Ea.
      rewrite <- (Hg O) by lia. do 3 f_equal. lia.
    + injection H as <-. rewrite <- (Rmult_1_l (rp _ _)).
      rewrite (loop_steps_spec l u (b - a)) by (rewrite minus_IZR; lra).
      apply loop_prod; auto.
      * rewrite eval_num, rv_1. auto.
      * intros i Hi. rewrite Ea, Eb, INR_IZR_INZ, <- plus_IZR. apply IZR_le. lia.
      * intros i Hi. rewrite Ea, INR_IZR_INZ, <- plus_IZR. apply Hg. auto.
Qed.

(** Factors in and out. *)
Lemma get_out_spec e k fin fout : get_out_factors_from_argument G e k = (fin, fout) ->
  exists li lo, refines I (Mul li) fin /\ refines I (Mul lo) fout /\ Forall (fun f => has k f = false) lo /\
  (forall rho v, eval I rho e = Some v -> exists a b, eprod I rho li = Some a /\ eprod I rho lo = Some b /\ v = a * b) /\
  (all_factors_have k e -> fout = Num 1).
Proof.
  assert (One : refines I (Mul []) (Num 1)) by (intros rho v; cbn; rewrite rv_1; auto).
  assert (Ref : forall f F L, refines I (Mul L) F -> refines I (Mul (f :: L)) (gmul G F f)).
  { intros f F L HF rho v. rewrite eval_Mul, eprod_cons. intros E. apply olift2_some in E as (x & y & Hx & Hy & ->).
    rewrite Rmult_comm. apply (gmul_val _ _ HG); auto. }
  assert (Single : (if has k e then (gmul G (Num 1) e, Num 1) else (Num 1, gmul G (Num 1) e)) = (fin, fout) ->
    exists li lo, refines I (Mul li) fin /\ refines I (Mul lo) fout /\ Forall (fun f => has k f = false) lo /\
    (forall rho v, eval I rho e = Some v -> exists a b, eprod I rho li = Some a /\ eprod I rho lo = Some b /\ v = a * b) /\
    (has k e = true -> fout = Num 1)).
  { destruct (has k e) eqn:E; intros [= <- <-].
    - exists [e], []. repeat split; auto. intros rho v Hv. exists v, 1. rewrite eprod_1, eprod_nil. repeat split; auto; lra.
    - exists [], [e]. repeat split; auto; [|discriminate]. intros rho v Hv. exists 1, v. rewrite eprod_1, eprod_nil. repeat split; auto; lra. }
  destruct e as [| | | |l| | | |]; cbn [get_out_factors_from_argument all_factors_have]; auto.
  clear Single. revert fin fout. induction l as [|f l IH]; intros fin fout; cbn [fold_right].
  - intros [= <- <-]. exists [], []. repeat split; auto. intros rho v. rewrite eval_Mul, eprod_nil. intros [= <-].
    exists 1, 1. repeat split; auto; lra.
  - destruct (fold_right _ _ l) as [fi fo] eqn:Fl. destruct (IH fi fo eq_refl) as (li & lo & R1 & R2 & R3 & R4 & R5).
    cbn [fst snd]. destruct (has k f) eqn:Hf; intros [= <- <-].
    + exists (f :: li), lo. repeat split; auto.
      * intros rho v. rewrite eval_Mul, eprod_cons. intros E. apply olift2_some in E as (x & y & Hx & Hy & ->).
        destruct (R4 rho y Hy) as (a & b & Ha & Hb & ->). exists (x * a), b. rewrite eprod_cons, Hx, Ha. repeat split; auto. lra.
      * intros A. inversion A; subst. auto.
    + exists li, (f :: lo). repeat split; auto.
      * intros rho v. rewrite eval_Mul, eprod_cons. intros E. apply olift2_some in E as (x & y & Hx & Hy & ->).
        destruct (R4 rho y Hy) as (a & b & Ha & Hb & ->). exists a, (x * b). rewrite eprod_cons, Hx, Hb. repeat split; auto. lra.
      * intros A. inversion A; subst. congruence.
Qed.
Lemma eprod_fresh k lo rho v : Forall (fun f => has k f = false) lo -> eprod I (upd rho k v) lo = eprod I rho lo.
Proof. induction 1 as [|f l Hf _ IH]; auto. rewrite !eprod_cons, IH, eval_upd_fresh; auto. Qed.

(** Values of the summand as (index-dependent) * (constant). *)
Lemma get_out_values e k fin fout rho (pts : nat -> R) (g : nat -> R) n t0 u0 :
  get_out_factors_from_argument G e k = (fin, fout) ->
  (forall i, (i < n)%nat -> eval I (upd rho k (pts i)) e = Some (g i)) ->
  eval I (upd rho k t0) e = Some u0 ->
  exists b a, eval I rho fout = Some b /\
    (forall i, (i < n)%nat -> eval I (upd rho k (pts i)) fin = Some (a i)) /\ (forall i, (i < n)%nat -> g i = a i * b).
Proof.
  intros E Hg H0. apply get_out_spec in E as (li & lo & R1 & R2 & R3 & R4 & _).
  destruct (R4 _ _ H0) as (a0 & b & _ & Hb & _). rewrite eprod_fresh in Hb by auto.
  exists b. assert (A : forall i, exists a, (i < n)%nat -> eval I (upd rho k (pts i)) fin = Some a /\ g i = a * b).
  { intros i. destruct (Nat.lt_ge_cases i n) as [L|L]; [|exists 0; lia].
    destruct (R4 _ _ (Hg i L)) as (a & b' & Ha & Hb' & Hv). rewrite eprod_fresh in Hb' by auto.
    assert (b' = b) by congruence. subst b'. exists a. intros _. split; auto. }
  assert (C : forall m, exists f : nat -> R, forall i, (i < m)%nat -> (i < n)%nat -> eval I (upd rho k (pts i)) fin = Some (f i) /\ g i = f i * b).
  { induction m as [|m [f Hf]]; [exists (fun _ => 0); lia|]. destruct (A m) as [am Ham].
    exists (fun i => if Nat.eqb i m then am else f i). intros i Hi Hn. destruct (Nat.eqb_spec i m); [subst; auto|]. apply Hf; lia. }
  destruct (C n) as [f Hf]. exists f. split; [apply R2; auto|]. split; intros i Hi; apply Hf; auto.
Qed.

Theorem sum_eval_symbolic k lo up e r rho a b v : sum_eval G k lo up e = Ret r -> (forall q, up <> Num q) ->
  eval I rho lo = Some (IZR a) -> eval I rho up = Some (IZR b) -> (a - 1 <= b)%Z ->
  (exists t u, eval I (upd rho k t) e = Some u) ->
  eval I rho (SumE k lo up e) = Some v -> eval I rho r = Some v.
Proof.
  intros H NU Ha Hb Hab (t0 & u0 & H0) E. unfold sum_eval in H. destruct lo as [l| | | | | | | |]; try discriminate.
  destruct (q_is_int l) eqn:Il; [|discriminate]. cbn [negb] in H.
  pose proof (len_val rho (Num l) up a b Ha Hb) as L.
  apply eval_sum_inv in E as (a' & b' & Ha' & Hb' & Es). rewrite Ha in Ha'. rewrite Hb in Hb'.
  injection Ha' as Ha'. injection Hb' as Hb'. apply eq_IZR in Ha', Hb'. subst a' b'.
  apply osum_some in Es as (g & Hg & ->).
  assert (H' : (if is_num 1%Qc e then Ret (gadd G (gsub G up (Num l)) (Num 1))
      else let (fin, fout) := get_out_factors_from_argument G e k in
        if is_num 1%Qc fin then Ret (gmul G fout (gadd G (gsub G up (Num l)) (Num 1)))
        else Ret (gmul G fout (SumE k (Num l) up fin))) = Ret r).
  { destruct up; auto. exfalso. eapply NU; eauto. }
  clear H. set (n := Z.to_nat (b - a + 1)) in *.
  assert (Nn : IZR (b - a + 1) = INR n). { unfold n. rewrite INR_IZR_INZ, Z2Nat.id by lia. reflexivity. }
  destruct (is_num 1%Qc e) eqn:E1.
  - injection H' as <-. apply is_num_eq in E1. subst e. rewrite L, Nn. f_equal.
    rewrite (rs_ext n g (fun _ => 1)), rs_const; [lra|]. intros i Hi. specialize (Hg i Hi). rewrite eval_num, rv_1 in Hg. congruence.
  - destruct (get_out_factors_from_argument G e k) as [fin fout] eqn:EG.
    destruct (get_out_values e k fin fout rho (fun i => IZR (a + Z.of_nat i)) g n t0 u0 EG Hg H0) as (c & f & Hc & Hf & Hgf).
    rewrite (rs_ext n g (fun i => f i * c)) by auto. rewrite rs_scal.
    destruct (is_num 1%Qc fin) eqn:E2; injection H' as <-.
    + apply is_num_eq in E2. subst fin. apply (gmul_val _ _ HG); auto. rewrite L, Nn. f_equal.
      rewrite (rs_ext n f (fun _ => 1)), rs_const; [lra|]. intros i Hi. specialize (Hf i Hi). rewrite eval_num, rv_1 in Hf. congruence.
    + apply (gmul_val _ _ HG); auto. apply (eval_sum_intro I _ _ _ _ _ _ a b); auto. apply osum_some. exists f. auto.
Qed.

Lemma rpow_nat x n : rpow x (INR n) = Some (x ^ n).
Proof.
  unfold rpow. rewrite INR_IZR_INZ, as_int_IZR. destruct (Z.ltb_spec (Z.of_nat n) 0); [lia|].
  rewrite <- pow_powerRZ. destruct (Req_EM_T x 0); reflexivity.
Qed.
(** The common part: power of the constant factors times the rest. *)
Lemma prod_out_val k lo up up' e rho a b m g t0 u0 :
  eval I rho lo = Some (IZR a) -> eval I rho up = Some (IZR b) -> (a - 1 <= b)%Z ->
  eval I rho up' = Some (IZR m) -> (a - 1 <= m)%Z ->
  (forall i, (i < Z.to_nat (m - a + 1))%nat -> eval I (upd rho k (IZR (a + Z.of_nat i))) e = Some (g i)) ->
  eval I (upd rho k t0) e = Some u0 ->
  m = b \/ all_factors_have k e ->
  eval I rho (prod_out G k lo up up' e) = Some (rp (Z.to_nat (m - a + 1)) g).
Proof.
  intros Ha Hb Hab Hm Ham Hg H0 D. unfold prod_out. destruct (get_out_factors_from_argument G e k) as [fin fout] eqn:EG.
  destruct (get_out_values e k fin fout rho (fun i => IZR (a + Z.of_nat i)) g _ t0 u0 EG Hg H0) as (c & f & Hc & Hf & Hgf).
  pose proof (len_val rho lo up a b Ha Hb) as L. set (n := Z.to_nat (m - a + 1)) in *.
  rewrite (rp_ext n g (fun i => f i * c)) by auto. rewrite rp_scal.
  assert (P : eval I rho (gpow G fout (gadd G (gsub G up lo) (Num 1))) = Some (c ^ n)).
  { apply (gpow_val _ _ HG _ _ _ c (IZR (b - a + 1))); auto.
    destruct D as [->|D].
    - replace (IZR (b - a + 1)) with (INR n) by (unfold n; rewrite INR_IZR_INZ, Z2Nat.id by lia; reflexivity). apply rpow_nat.
    - apply get_out_spec in EG as (_ & _ & _ & _ & _ & _ & EG). specialize (EG D). subst fout. rewrite eval_num, rv_1 in Hc. injection Hc as <-.
      replace (IZR (b - a + 1)) with (INR (Z.to_nat (b - a + 1))) by (rewrite INR_IZR_INZ, Z2Nat.id by lia; reflexivity).
      rewrite rpow_nat, !pow1. reflexivity. }
  destruct (is_num 1%Qc fin) eqn:E2.
  - apply is_num_eq in E2. subst fin. rewrite P. f_equal.
    rewrite (rp_ext n f (fun i => 1 * 1)), (rp_scal n 1 (fun _ => 1)).
    + assert (O : forall j, rp j (fun _ => 1) = 1) by (induction j; cbn; [auto|rewrite IHj; lra]). rewrite O, pow1. lra.
    + intros i Hi. specialize (Hf i Hi). rewrite eval_num, rv_1 in Hf. injection Hf as <-. lra.
  - apply (gmul_val _ _ HG); auto. apply (eval_prod_intro I _ _ _ _ _ _ a m); auto. apply oprod_some. exists f. auto.
Qed.

Definition shifted (up : expr) : Prop := exists s h, up = Add [Num h; Sym s] \/ up = Add [Sym s; Num h].
Theorem prod_eval_symbolic k lo up e r rho a b v : prod_eval G k lo up e = Ret r -> (forall q, up <> Num q) -> ~ shifted up ->
  eval I rho lo = Some (IZR a) -> eval I rho up = Some (IZR b) -> (a - 1 <= b)%Z ->
  (exists t u, eval I (upd rho k t) e = Some u) ->
  eval I rho (ProdE k lo up e) = Some v -> eval I rho r = Some v.
Proof.
  intros H NU NS Ha Hb Hab (t0 & u0 & H0) E. unfold prod_eval in H. destruct lo as [l| | | | | | | |]; try discriminate.
  apply eval_prod_inv in E as (a' & b' & Ha' & Hb' & Es). rewrite Ha in Ha'. rewrite Hb in Hb'.
  injection Ha' as Ha'. injection Hb' as Hb'. apply eq_IZR in Ha', Hb'. subst a' b'.
  apply oprod_some in Es as (g & Hg & ->).
  assert (One : is_num 1%Qc e = true -> rp (Z.to_nat (b - a + 1)) g = 1).
  { intros E1. apply is_num_eq in E1. subst e. rewrite (rp_ext _ g (fun i => 1 * 1)).
    - rewrite (rp_scal _ 1 (fun _ => 1)), pow1. generalize (Z.to_nat (b - a + 1)). induction n; cbn [rp]; [lra|]. lra.
    - intros i Hi. specialize (Hg i Hi). rewrite eval_num, rv_1 in Hg. injection Hg as <-. lra. }
  assert (H' : (if is_num 1%Qc e then Ret (Num 1) else Ret (prod_out G k (Num l) up up e)) = Ret r).
  { rewrite <- H. destruct (is_num 1%Qc e); destruct up as [| | |us| | | | |]; auto; try (exfalso; eapply NU; eauto; fail).
    destruct us as [|x [|y [|]]]; auto; destruct x; auto; destruct y; auto; exfalso; apply NS; unfold shifted; eauto. }
  destruct (is_num 1%Qc e) eqn:E1; injection H' as <-.
  - rewrite eval_num, rv_1, One; auto.
  - eapply prod_out_val; eauto.
Qed.

Lemma prod_pos_val k s e rho : no_binders e -> forall n j acc z f,
  eval I rho acc = Some z ->
  (forall i, (i < n)%nat -> eval I (upd rho k (rho s + IZR j + INR i)) e = Some (f i)) ->
  eval I rho (prod_pos G k s e n j acc) = Some (z * rp n f).
Proof.
  intros NB. induction n as [|n IH]; intros j acc z f Hz Hf; cbn [prod_pos].
  - cbn [rp]. rewrite Hz. f_equal. lra.
  - rewrite rp_first, <- Rmult_assoc. apply (IH _ _ (z * f O) (fun i => f (S i))).
    + apply (gmul_val _ _ HG); auto. eapply (substitute_ok I G HG); [now apply no_capture_nobind| |].
      * apply (gadd_val _ _ HG _ _ _ (rho s) (IZR j)); [reflexivity|]. now rewrite eval_num, rv_zq.
      * specialize (Hf O ltac:(lia)). cbn [INR] in Hf. rewrite Rplus_0_r in Hf. exact Hf.
    + intros i Hi. rewrite <- (Hf (S i)) by lia. rewrite S_INR, plus_IZR. do 2 f_equal. lra.
Qed.
Lemma prod_neg_val k s e rho : no_binders e -> forall n j acc z f,
  eval I rho acc = Some z ->
  (forall i, (i < n)%nat -> eval I (upd rho k (rho s + IZR j + INR i)) e = Some (f i) /\ f i <> 0) ->
  eval I rho (prod_neg G k s e n j acc) = Some (z / rp n f).
Proof.
  intros NB. induction n as [|n IH]; intros j acc z f Hz Hf; cbn [prod_neg].
  - cbn [rp]. rewrite Hz. f_equal. lra.
  - assert (N0 : f O <> 0) by (apply (Hf O); lia).
    assert (P : rp n (fun i => f (S i)) <> 0).
    { assert (A : forall m, (m <= n)%nat -> rp m (fun i => f (S i)) <> 0).
      { induction m as [|m IHm]; cbn [rp]; [lra|]. intros Hm. apply Rmult_integral_contrapositive. split; [apply IHm; lia|apply Hf; lia]. }
      apply A; lia. }
    rewrite rp_first. replace (z / (f O * rp n (fun i => f (S i)))) with (z * / f O / rp n (fun i => f (S i))) by (field; auto).
    apply IH.
    + apply (gmul_val _ _ HG); auto. apply (gpow_val _ _ HG _ _ _ (f O) (-1)).
      * eapply (substitute_ok I G HG); [now apply no_capture_nobind| |].
        -- apply (gadd_val _ _ HG _ _ _ (rho s) (IZR j)); [reflexivity|]. now rewrite eval_num, rv_zq.
        -- destruct (Hf O ltac:(lia)) as [Hf0 _]. cbn [INR] in Hf0. rewrite Rplus_0_r in Hf0. exact Hf0.
      * rewrite eval_num, rv_opp, rv_1. reflexivity.
      * unfold rpow. change (-1) with (IZR (-1)). rewrite as_int_IZR. destruct (Req_EM_T (f O) 0); [tauto|].
        cbn [powerRZ]. change (Pos.to_nat 1) with 1%nat. rewrite pow_1. reflexivity.
    + intros i Hi. destruct (Hf (S i) ltac:(lia)) as [A B]. split; auto. rewrite <- A. rewrite S_INR, plus_IZR. do 2 f_equal. lra.
Qed.
Lemma rp_app m n f : rp (m + n) f = rp m f * rp n (fun i => f (m + i)%nat).
Proof. induction n; cbn [rp]; rewrite ?Nat.add_0_r; [lra|]. rewrite Nat.add_succ_r. cbn [rp]. rewrite IHn. lra. Qed.

(** Upper limit s + h.  The product is split correctly if no constant factor is taken out,
    lo <= s + 1 and (h < 0) the cancelled factors are not zero. *)
Theorem prod_eval_shifted k lo up s h e r rho a m v :
  prod_eval G k lo up e = Ret r -> up = Add [Num h; Sym s] \/ up = Add [Sym s; Num h] -> q_is_int h = true ->
  no_binders e -> all_factors_have k e ->
  eval I rho lo = Some (IZR a) -> rho s = IZR m -> (a - 1 <= m)%Z -> (a - 1 <= m + q_int h)%Z ->
  (forall i, (a <= i <= Z.max m (m + q_int h))%Z -> exists u, eval I (upd rho k (IZR i)) e = Some u /\ ((q_int h < 0)%Z -> u <> 0)) ->
  (exists t u, eval I (upd rho k t) e = Some u) ->
  eval I rho (ProdE k lo up e) = Some v -> eval I rho r = Some v.
Proof.
  intros H Hup Ih NB AF Ha Hs Hm Hmh Def (t0 & u0 & H0) E.
  unfold prod_eval in H. destruct lo as [l| | | | | | | |]; try discriminate.
  assert (E1 : is_num 1%Qc e = false).
  { destruct (is_num 1%Qc e) eqn:E1; auto. apply is_num_eq in E1. subst e. cbn in AF. discriminate. }
  assert (Hr : r = prod_shift G k (Num l) up s h e). { destruct Hup; subst up; rewrite E1 in H; injection H as <-; auto. }
  assert (Hb : eval I rho up = Some (IZR (m + q_int h))).
  { rewrite plus_IZR, <- Hs, <- (proj1 (q_is_int_spec h) Ih). destruct Hup; subst up; rewrite eval_Add2; cbn; f_equal; lra. }
  assert (Hs' : eval I rho (Sym s) = Some (IZR m)) by (cbn; f_equal; auto).
  apply eval_prod_inv in E as (a' & b' & Ha' & Hb' & Es). rewrite Ha in Ha'. rewrite Hb in Hb'.
  injection Ha' as Ha'. injection Hb' as Hb'. apply eq_IZR in Ha', Hb'. subst a' b'.
  apply oprod_some in Es as (g & Hg & ->). clear H. subst r. unfold prod_shift. rewrite Ih.
  set (H := q_int h) in *.
  assert (C : exists f : nat -> R, forall i, (a + Z.of_nat i <= Z.max m (m + H))%Z ->
     eval I (upd rho k (IZR (a + Z.of_nat i))) e = Some (f i) /\ ((H < 0)%Z -> f i <> 0)).
  { exists (fun i => match eval I (upd rho k (IZR (a + Z.of_nat i))) e with Some u => u | None => 0 end).
    intros i Hi. destruct (Def (a + Z.of_nat i)%Z ltac:(lia)) as (u & Hu & Nu). rewrite Hu. auto. }
  destruct C as [f Hf].
  assert (Gf : forall i, (i < Z.to_nat (m + H - a + 1))%nat -> g i = f i).
  { intros i Hi. specialize (Hg i Hi). destruct (Hf i ltac:(lia)) as [A _]. congruence. }
  rewrite (rp_ext _ g f Gf).
  assert (P : eval I rho (gmul G (Num 1) (prod_out G k (Num l) up (Sym s) e)) = Some (rp (Z.to_nat (m - a + 1)) f)).
  { rewrite <- (Rmult_1_l (rp _ _)). apply (gmul_val _ _ HG); [rewrite eval_num, rv_1; auto|].
    eapply (prod_out_val k (Num l) up (Sym s) e rho a (m + H) m f t0 u0); eauto. intros i Hi. apply Hf. lia. }
  destruct (Z.ltb_spec 0 H) as [L|L].
  - replace (Z.to_nat (m + H - a + 1)) with (Z.to_nat (m - a + 1) + Z.to_nat H)%nat by lia. rewrite rp_app.
    apply prod_pos_val; auto. intros i Hi.
    destruct (Hf (Z.to_nat (m - a + 1) + i)%nat ltac:(lia)) as [A _]. rewrite <- A, Hs, INR_IZR_INZ, <- !plus_IZR. do 3 f_equal. lia.
  - rewrite (prod_neg_val k s e rho NB _ _ _ (rp (Z.to_nat (m - a + 1)) f) (fun i => f (Z.to_nat (m + H - a + 1) + i)%nat)); auto.
    + f_equal. replace (Z.to_nat (m - a + 1)) with (Z.to_nat (m + H - a + 1) + Z.to_nat (- H))%nat by lia. rewrite rp_app. field.
      assert (A : forall j, (j <= Z.to_nat (- H))%nat -> rp j (fun i => f (Z.to_nat (m + H - a + 1) + i)%nat) <> 0).
      { induction j as [|j IHj]; cbn [rp]; [lra|]. intros Hj. apply Rmult_integral_contrapositive. split; [apply IHj; lia|apply Hf; lia]. }
      apply A; lia.
    + intros i Hi. destruct (Hf (Z.to_nat (m + H - a + 1) + i)%nat ltac:(lia)) as [A B]. split; [|apply B; lia].
      rewrite <- A, Hs, INR_IZR_INZ, <- !plus_IZR. do 3 f_equal. lia.
Qed.

(** * binom *)
Lemma gbinom_prod m k : gbinom m k * INR (fact k) = rp k (fun i => m - INR i).
Proof.
  induction k as [|k IH]; cbn [gbinom rp]; [cbn; lra|]. rewrite <- IH.
  change (fact (S k)) with (S k * fact k)%nat. rewrite mult_INR. field. apply not_0_INR. discriminate.
Qed.
Lemma rp_rev n f : rp n f = rp n (fun i => f (n - 1 - i)%nat).
Proof.
  induction n as [|n IH]; auto. rewrite (rp_first n (fun i => f (S n - 1 - i)%nat)). cbn [rp]. rewrite IH.
  replace (S n - 1 - 0)%nat with n by lia. rewrite Rmult_comm. f_equal. apply rp_ext. intros i Hi. f_equal. lia.
Qed.
Lemma rv_qfact n : rv (qfact n) = INR (fact n).
Proof. induction n as [|n IH]; cbn [qfact]; [rewrite rv_1; auto|]. rewrite rv_mul, IH, rv_zq, <- INR_IZR_INZ.
  change (fact (S n)) with (S n * fact n)%nat. rewrite mult_INR. auto. Qed.
Lemma rv_inv q : rv q <> 0 -> rv (/ q)%Qc = / rv q.
Proof.
  intros H. assert (Q : q <> 0%Qc) by (intros ->; rewrite rv_0 in H; lra).
  pose proof (Qcmult_inv_r q Q) as E. apply (f_equal rv) in E. rewrite rv_mul, rv_1 in E.
  apply (Rmult_eq_reg_l (rv q)); auto. rewrite E. field. auto.
Qed.
Theorem binom_eval_number a b r rho : binom_eval G (Num a) (Num b) = Ret r ->
  exists k : nat, rv b = INR k /\ eval I rho r = Some (gbinom (rv a) k).
Proof.
  cbn [binom_eval]. destruct (q_lt b 0) eqn:L; [discriminate|]. destruct (q_is_int b) eqn:Ib; [|discriminate]. cbn [orb negb].
  apply q_lt_false in L. rewrite rv_0 in L. pose proof (proj1 (q_is_int_spec b) Ib) as Eb.
  set (k := Z.to_nat (q_int b)). assert (Hk : rv b = INR k).
  { unfold k. rewrite INR_IZR_INZ, Z2Nat.id; auto. apply le_IZR. rewrite <- Eb. exact L. }
  intros H. exists k. split; auto.
  set (l := (a - b + 1)%Qc) in *. assert (El : rv l = rv a - INR k + 1) by (unfold l; rewrite rv_add, rv_sub, rv_1, Hk; auto).
  assert (P : forall p, prod_eval G "h" (Num l) (Num a) (Sym "h") = Ret p -> eval I rho p = Some (rp k (fun i => rv l + INR i))).
  { intros p. cbn [prod_eval]. destruct (q_lt a l) eqn:La; [apply q_lt_spec in La|apply q_lt_false in La].
    - intros [= <-]. assert (k = O). { destruct k; auto. rewrite S_INR in El. pose proof (pos_INR k). lra. }
      rewrite H0. cbn [rp]. rewrite eval_num, rv_1. auto.
    - destruct (Qc_eqb l a) eqn:E; intros [= <-].
      + apply Qc_eqb_eq in E. assert (k = 1%nat). { apply INR_eq. cbn. rewrite E in El. lra. }
        rewrite H0. cbn. f_equal. lra.
      + rewrite <- (Rmult_1_l (rp _ _)). assert (K : (0 < k)%nat). { destruct k; [|lia]. cbn in El. lra. }
        rewrite (loop_steps_spec l a (Z.of_nat k - 1)) by (rewrite minus_IZR, <- INR_IZR_INZ; lra).
        replace (Z.to_nat (Z.of_nat k - 1 + 1)) with k by lia.
        apply loop_prod; cbn; auto; [now rewrite rv_1|].
        intros i Hi. rewrite El. pose proof (lt_INR _ _ Hi) as Hl. assert (Hl' : (S i <= k)%nat) by lia. apply le_INR in Hl'. rewrite S_INR in Hl'. lra. }
  destruct (prod_eval G "h" (Num l) (Num a) (Sym "h")) as [p|] eqn:Ep; [|discriminate]. injection H as <-.
  assert (F : INR (fact k) <> 0) by apply INR_fact_neq_0.
  replace (gbinom (rv a) k) with (rp k (fun i => rv l + INR i) * / INR (fact k)).
  - apply (gmul_val _ _ HG); auto. rewrite eval_num, rv_inv, rv_qfact; auto. now rewrite rv_qfact.
  - rewrite rp_rev, (rp_ext k _ (fun i => rv a - INR i)), <- gbinom_prod; [field; auto|].
    intros i Hi. rewrite El, !minus_INR by lia. cbn [INR]. lra.
Qed.
End G.
