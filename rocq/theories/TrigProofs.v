From Coq Require Import Reals List Lia Lra Arith.
From Coquelicot Require Import Coquelicot.
From Verif Require Import Fld FPoly SumPolyModel SumPolyProofs TrigModel.
Import ListNotations.
Local Open Scope R_scope.

Ltac toR := change (@f0 RF) with 0 in *; change (@f1 RF) with 1 in *; change (@fadd RF) with Rplus in *; change (@fmul RF) with Rmult in *; change (@fsub RF) with Rminus in *;
  try match goal with |- @eq (car RF) ?a ?b => change (@eq R a b) end.
Ltac rring := toR; ring.
(** sum_{j<n} c_j x^j *)
Fixpoint psum (n : nat) (c : nat -> R) (x : R) : R := match n with O => 0 | S n => psum n c x + c n * x ^ n end.
Lemma ex_psum n c : forall k x, ex_derive_n (psum n c) k x.
Proof.
  induction n as [|n IH]; intros k x; cbn [psum]; [apply ex_derive_n_const|].
  apply ex_derive_n_plus; apply filter_forall; intros y j _.
  - apply IH.
  - apply ex_derive_n_scal_l. apply ex_derive_n_pow.
Qed.
Lemma mono_derive n i x : x ^ i * Derive_n (fun y => y ^ n) i x = falling_product (K:=RF) (INR n : RF) i * x ^ n.
Proof.
  rewrite Derive_n_pow. destruct (le_dec i n) as [L|L].
  - assert (F : falling_product (K:=RF) (INR n : RF) i = INR (fact n) / INR (fact (n - i))).
    { induction i as [|i IH].
      - rewrite Nat.sub_0_r. cbn. toR. field. apply INR_fact_neq_0.
      - cbn [falling_product]. rewrite IH by lia. rewrite ofn_RF. toR.
        replace (n - i)%nat with (S (n - S i)) by lia. rewrite fact_simpl, mult_INR.
        replace (S (n - S i)) with (n - i)%nat by lia. rewrite minus_INR by lia. toR. field. split; [apply INR_fact_neq_0|].
        assert (INR i < INR n) by (apply lt_INR; lia). lra. }
    rewrite F. assert (P : x ^ n = x ^ (n - i) * x ^ i) by (rewrite <- pow_add; f_equal; lia). rewrite P. field. apply INR_fact_neq_0.
  - rewrite <- ofn_RF. rewrite falling_small by lia. rring.
Qed.
Lemma psum_derive n c i x : x ^ i * Derive_n (psum n c) i x = bsum (K:=RF) n (fun j => c j * falling_product (K:=RF) (INR j : RF) i * x ^ j).
Proof.
  induction n as [|n IH].
  - cbn [psum bsum]. change (@f0 RF) with 0. destruct i as [|i]; [cbn; ring|]. rewrite Derive_n_const. ring.
  - rewrite bsum_S, <- IH. cbn [psum]. rewrite Derive_n_plus.
    + rewrite Derive_n_scal_l. rewrite Rmult_plus_distr_l. change (@fadd RF) with Rplus. f_equal.
      rewrite <- Rmult_assoc, (Rmult_comm (x ^ i)), Rmult_assoc, mono_derive. ring.
    + apply filter_forall. intros y k _. apply ex_psum.
    + apply filter_forall. intros y k _. apply ex_derive_n_scal_l, ex_derive_n_pow.
Qed.
Lemma trig_loop_ext r r' (l : list R) : forall i a q, (forall i, Derive_n r i a = Derive_n r' i a) -> trig_loop r i l a q = trig_loop r' i l a q.
Proof. induction l as [|s l IH]; intros i a q H; cbn [trig_loop]; [reflexivity|]. rewrite H. apply IH. exact H. Qed.
(** The loop on a polynomial. *)
Lemma trig_loop_psum n c (l : list RF) : forall i a q, trig_loop (psum n c) i l a q =
  q + bsum (K:=RF) n (fun j => nsum (K:=RF) l i (INR j : RF) * c j * a ^ j).
Proof.
  induction l as [|s l IH]; intros i a q; cbn [trig_loop nsum].
  - rewrite (bsum_ext (K:=RF) n _ (fun _ => (0 : RF))). 2:{ intros j _. change (@f0 RF) with 0. change (0 * c j * a ^ j = 0). ring. }
    assert (Z : bsum (K:=RF) n (fun _ => (0 : RF)) = 0) by (clear; induction n; [reflexivity|rewrite bsum_S, IHn; change (0 + 0 = 0); ring]). rewrite Z. ring.
  - rewrite IH, psum_derive. rewrite Rplus_assoc. f_equal.
    transitivity (bsum (K:=RF) n (fun j => (c j * falling_product (K:=RF) (INR j : RF) i * a ^ j) * s : RF) + bsum (K:=RF) n (fun j => nsum (K:=RF) l (S i) (INR j : RF) * c j * a ^ j)).
    + f_equal. clear. induction n; [cbn; rring|]. rewrite !bsum_S. change (@fadd RF) with Rplus. toR; rewrite <- IHn. rring.
    + clear. induction n; [cbn; rring|]. rewrite !bsum_S. change (@fadd RF) with Rplus. change (@fmul RF) with Rmult in *. toR; rewrite <- IHn. rring.
Qed.

(** * Closed forms *)
Lemma cos_step (N : nat) t : cos ((INR N + 1 + 1) * t) + cos (INR N * t) = 2 * cos t * cos ((INR N + 1) * t).
Proof.
  replace ((INR N + 1 + 1) * t) with ((INR N + 1) * t + t) by ring. replace (INR N * t) with ((INR N + 1) * t - t) by ring.
  rewrite cos_plus, cos_minus. ring.
Qed.
Lemma sin_step (N : nat) t : sin ((INR N + 1 + 1) * t) + sin (INR N * t) = 2 * cos t * sin ((INR N + 1) * t).
Proof.
  replace ((INR N + 1 + 1) * t) with ((INR N + 1) * t + t) by ring. replace (INR N * t) with ((INR N + 1) * t - t) by ring.
  rewrite sin_plus, sin_minus. ring.
Qed.
Lemma cos_num N t x : x ^ (N + 2) * cos (INR N * t) - x ^ (N + 1) * cos ((INR N + 1) * t) + (1 - x * cos t) =
  psum (S N) (fun j => cos (INR j * t)) x * trig_den t x.
Proof.
  unfold trig_den. induction N as [|N IH].
  - cbn [psum INR]. replace (0 * t) with 0 by ring. replace ((0 + 1) * t) with t by ring. rewrite cos_0. cbn. ring.
  - change (psum (S (S N)) (fun j => cos (INR j * t)) x) with (psum (S N) (fun j => cos (INR j * t)) x + cos (INR (S N) * t) * x ^ (S N)).
    rewrite (Rmult_plus_distr_r (psum _ _ _)), <- IH. rewrite !S_INR. replace (S N + 2)%nat with (S (S (S N))) by lia. replace (S N + 1)%nat with (S (S N)) by lia.
    replace (N + 2)%nat with (S (S N)) by lia. replace (N + 1)%nat with (S N) by lia.
    pose proof (cos_step N t) as C. assert (E : cos ((INR N + 1 + 1) * t) = 2 * cos t * cos ((INR N + 1) * t) - cos (INR N * t)) by lra. rewrite E. cbn [pow]. ring.
Qed.
Lemma cos_closed N t x : trig_den t x <> 0 -> cos_quotient N t x = psum (S N) (fun j => cos (INR j * t)) x.
Proof. intros H. unfold cos_quotient. rewrite cos_num. field. exact H. Qed.
Lemma sin_num N t x : x ^ (N + 2) * sin (INR N * t) - x ^ (N + 1) * sin ((INR N + 1) * t) - x * sin t =
  psum (S N) (fun j => sin (INR j * t)) x * trig_den t x - 2 * (x * sin t).
Proof.
  unfold trig_den. induction N as [|N IH].
  - cbn [psum INR]. replace (0 * t) with 0 by ring. replace ((0 + 1) * t) with t by ring. rewrite sin_0. cbn. ring.
  - change (psum (S (S N)) (fun j => sin (INR j * t)) x) with (psum (S N) (fun j => sin (INR j * t)) x + sin (INR (S N) * t) * x ^ (S N)).
    rewrite (Rmult_plus_distr_r (psum _ _ _)).
    replace (psum (S N) (fun j => sin (INR j * t)) x * (x ^ 2 - 2 * x * cos t + 1)) with (x ^ (N + 2) * sin (INR N * t) - x ^ (N + 1) * sin ((INR N + 1) * t) - x * sin t + 2 * (x * sin t)) by (rewrite IH; ring).
    rewrite !S_INR. replace (S N + 2)%nat with (S (S (S N))) by lia. replace (S N + 1)%nat with (S (S N)) by lia.
    replace (N + 2)%nat with (S (S N)) by lia. replace (N + 1)%nat with (S N) by lia.
    pose proof (sin_step N t) as C. assert (E : sin ((INR N + 1 + 1) * t) = 2 * cos t * sin ((INR N + 1) * t) - sin (INR N * t)) by lra. rewrite E. cbn [pow]. ring.
Qed.
Definition error (t x : R) : R := 2 * (x * sin t) * / trig_den t x.
Lemma sin_closed N t x : trig_den t x <> 0 -> sin_quotient N t x = psum (S N) (fun j => sin (INR j * t)) x - error t x.
Proof. intros H. unfold sin_quotient, error. rewrite sin_num. field. exact H. Qed.

(** * Smoothness away from the poles *)
Lemma den_open t a : trig_den t a <> 0 -> locally a (fun x => trig_den t x <> 0).
Proof.
  intros H. assert (C : continuous (trig_den t) a).
  { unfold trig_den. apply (ex_derive_continuous (fun x => x ^ 2 - 2 * x * cos t + 1)). auto_derive. auto. }
  apply (C (fun y => y <> 0)). apply (open_neq 0 (trig_den t a) H).
Qed.
Inductive smooth (t : R) : (R -> R) -> Prop :=
| sm_const c : smooth t (fun _ => c)
| sm_id : smooth t (fun x => x)
| sm_plus f g : smooth t f -> smooth t g -> smooth t (fun x => f x + g x)
| sm_mult f g : smooth t f -> smooth t g -> smooth t (fun x => f x * g x)
| sm_inv : smooth t (fun x => / trig_den t x).
Lemma smooth_derive t f : smooth t f -> exists f', smooth t f' /\ forall x, trig_den t x <> 0 -> is_derive f x (f' x).
Proof.
  intros H. induction H as [c| |f g Hf IHf Hg IHg|f g Hf IHf Hg IHg|].
  - exists (fun _ => 0). split; [constructor|]. intros x _. auto_derive; auto.
  - exists (fun _ => 1). split; [constructor|]. intros x _. auto_derive; auto.
  - destruct IHf as (f' & F1 & F2), IHg as (g' & G1 & G2). exists (fun x => f' x + g' x). split; [constructor; auto|].
    intros x Hx. apply (is_derive_plus f g x (f' x) (g' x)); auto.
  - destruct IHf as (f' & F1 & F2), IHg as (g' & G1 & G2). exists (fun x => f' x * g x + f x * g' x). split; [repeat constructor; auto|].
    intros x Hx. apply (is_derive_mult f g x (f' x) (g' x)); auto. intros; apply Rmult_comm.
  - exists (fun x => (2 * cos t + (-2) * x) * (/ trig_den t x * / trig_den t x)). split; [repeat constructor|].
    intros x Hx. unfold trig_den in *. auto_derive; [auto|]. field. exact Hx.
Qed.
Lemma smooth_n t f n : smooth t f -> exists g, smooth t g /\ forall x, trig_den t x <> 0 -> is_derive_n f n x (g x).
Proof.
  intros H. induction n as [|n (g & G1 & G2)].
  - exists f. split; auto. intros x _. reflexivity.
  - destruct (smooth_derive t g G1) as (g' & G3 & G4). exists g'. split; auto. intros x Hx. cbn [is_derive_n].
    apply (is_derive_ext_loc g); [|apply G4; exact Hx]. apply (filter_imp _ _ (fun y Hy => eq_sym (is_derive_n_unique _ _ _ _ (G2 y Hy))) (den_open t x Hx)).
Qed.
Lemma smooth_ex t f n x : smooth t f -> trig_den t x <> 0 -> ex_derive_n f n x.
Proof. intros H Hx. destruct (smooth_n t f n H) as (g & _ & G). destruct n as [|n]; [exact Logic.I|]. exists (g x). apply G, Hx. Qed.
Lemma error_smooth t : smooth t (error t).
Proof. unfold error. apply (sm_mult t (fun x => 2 * (x * sin t))); [|constructor]. apply (sm_mult t (fun _ => 2)); [constructor|]. apply (sm_mult t (fun x => x)); constructor. Qed.
Lemma trig_loop_minus t f g (l : list R) : smooth t g -> (forall k x, ex_derive_n f k x) -> forall i a q r, trig_den t a <> 0 ->
  trig_loop (fun x => f x - g x) i l a (q - r) = trig_loop f i l a q - trig_loop g i l a r.
Proof.
  intros Hg Hf. induction l as [|s l IH]; intros i a q r Ha; cbn [trig_loop]; [reflexivity|].
  rewrite Derive_n_minus.
  - rewrite <- IH by exact Ha. f_equal. ring.
  - apply filter_forall. intros y k _. apply Hf.
  - apply (filter_imp _ _ (fun y Hy k _ => smooth_ex t g k y Hg Hy) (den_open t a Ha)).
Qed.

(** * The theorems *)
Lemma nsum_value (p : list RF) j : nsum (K:=RF) (poly_dec (K:=RF) p) 0 (INR j : RF) = peval (K:=RF) p (INR j).
Proof. symmetry. apply (poly_dec_correct (K:=RF)). Qed.
Lemma cos_correct (p : list RF) N alpha theta : theta <> 0 -> trig_den theta alpha <> 0 ->
  sum_cos p N alpha theta = Some (bsum (K:=RF) (S N) (fun j => peval (K:=RF) p (INR j) * alpha ^ j * cos (INR j * theta))).
Proof.
  intros Ht Hd. unfold sum_cos. destruct (Req_EM_T theta 0); [lra|]. destruct (Req_EM_T (trig_den theta alpha) 0); [lra|]. apply (f_equal (@Some R)).
  rewrite (trig_loop_ext _ (psum (S N) (fun j => cos (INR j * theta)))).
  - rewrite trig_loop_psum, Rplus_0_l. apply (bsum_ext (K:=RF)). intros j _. rewrite nsum_value. rring.
  - intros i. apply Derive_n_ext_loc. apply (filter_imp _ _ (fun y Hy => cos_closed N theta y Hy) (den_open theta alpha Hd)).
Qed.
Lemma cos_zero (p : list RF) N alpha : alpha <> 0 ->
  sum_cos p N alpha 0 = Some (bsum (K:=RF) (S N) (fun j => peval (K:=RF) p (INR j) * alpha ^ j * cos (INR j * 0))).
Proof.
  intros Ha. unfold sum_cos. destruct (Req_EM_T 0 0); [|lra]. apply (f_equal (@Some R)). rewrite (sum_poly_times_exponentials_correct (K:=RF)) by exact Ha.
  apply (bsum_ext (K:=RF)). intros j _. rewrite ofn_RF, Rmult_0_r, cos_0. assert (E : fpow (K:=RF) alpha j = alpha ^ j) by (clear; induction j; cbn; [reflexivity|rewrite IHj; reflexivity]).
  rewrite E. rring.
Qed.
Lemma pole theta alpha : trig_den theta alpha = 0 <-> alpha = cos theta /\ sin theta = 0.
Proof.
  unfold trig_den. pose proof (sin2_cos2 theta) as H. unfold Rsqr in H. split.
  - intros E. assert (S0 : (alpha - cos theta) * (alpha - cos theta) + sin theta * sin theta = 0) by nra.
    apply Rplus_eq_R0 in S0; [|apply Rle_0_sqr|apply Rle_0_sqr]. destruct S0 as [A B]. apply Rmult_integral in A. apply Rmult_integral in B. split; [destruct A; lra|destruct B; lra].
  - intros [-> E]. rewrite E in H. nra.
Qed.
Lemma sin_value (p : list RF) N alpha theta : theta <> 0 -> trig_den theta alpha <> 0 ->
  sum_sin p N alpha theta = Some (bsum (K:=RF) (S N) (fun j => peval (K:=RF) p (INR j) * alpha ^ j * sin (INR j * theta))
    - trig_loop (error theta) 0 (poly_dec (K:=RF) p) alpha 0).
Proof.
  intros Ht Hd. unfold sum_sin. destruct (Req_EM_T theta 0); [lra|]. destruct (Req_EM_T (trig_den theta alpha) 0); [lra|]. apply (f_equal (@Some R)).
  rewrite (trig_loop_ext _ (fun x => psum (S N) (fun j => sin (INR j * theta)) x - error theta x)).
  - rewrite <- (Rminus_0_r 0) at 1. rewrite (trig_loop_minus theta) by (auto using error_smooth, ex_psum). f_equal.
    rewrite trig_loop_psum, Rplus_0_l. apply (bsum_ext (K:=RF)). intros j _. rewrite nsum_value. rring.
  - intros i. apply Derive_n_ext_loc. apply (filter_imp _ _ (fun y Hy => sin_closed N theta y Hy) (den_open theta alpha Hd)).
Qed.
Lemma sin_differences (p : list RF) N alpha theta : theta <> 0 -> trig_den theta alpha <> 0 ->
  exists v w, sum_sin p N alpha theta = Some v /\ sum_sin p (S N) alpha theta = Some w /\
  w - v = peval (K:=RF) p (INR (S N)) * alpha ^ (S N) * sin (INR (S N) * theta).
Proof.
  intros Ht Hd. eexists. eexists. split; [apply sin_value; auto|]. split; [apply sin_value; auto|].
  rewrite (bsum_S (K:=RF) (S N)). change (@fadd RF) with Rplus. ring.
Qed.
Lemma sin_multiple (p : list RF) N alpha theta : sin theta = 0 -> alpha <> cos theta ->
  sum_sin p N alpha theta = Some (bsum (K:=RF) (S N) (fun j => peval (K:=RF) p (INR j) * alpha ^ j * sin (INR j * theta))).
Proof.
  intros Hs Ha. destruct (Req_dec theta 0) as [->|Ht].
  - unfold sum_sin. destruct (Req_EM_T 0 0); [|lra]. apply (f_equal (@Some R)). generalize (S N). clear. induction n as [|n IH]; [reflexivity|].
    rewrite bsum_S, <- IH, Rmult_0_r, sin_0. rring.
  - rewrite sin_value; auto. 2: { intros X. apply pole in X. tauto. }
    apply (f_equal (@Some R)). rewrite (trig_loop_ext _ (fun _ => 0)).
    + assert (Z : forall (l : list R) i q, trig_loop (fun _ => 0) i l alpha q = q).
      { induction l as [|s l IH]; intros i q; cbn [trig_loop]; [reflexivity|]. rewrite IH. destruct i; [cbn; ring|]. rewrite Derive_n_const. ring. }
      rewrite Z. ring.
    + intros i. apply Derive_n_ext. intros x. unfold error. rewrite Hs. ring.
Qed.
Lemma sin_wrong : sum_sin [1] 0 1 (PI / 2) = Some (-1).
Proof.
  unfold sum_sin. pose proof PI_RGT_0. destruct (Req_EM_T (PI / 2) 0); [lra|]. unfold trig_den. rewrite cos_PI2. destruct (Req_EM_T (1 ^ 2 - 2 * 1 * 0 + 1) 0) as [E|_]; [exfalso; revert E; cbn; lra|].
  apply (f_equal (@Some R)). cbn [poly_dec]. unfold poly_dec. assert (D : pdegree (K:=RF) [1] = 0%nat).
  { unfold pdegree. cbn. destruct (feqb_spec RF 1 f0) as [X|X]; [exfalso; change (1 = 0) in X; lra|reflexivity]. }
  match goal with |- context [@pdegree ?k ?l] => assert (D2 : @pdegree k l = 0%nat) by exact D; rewrite D2 end. cbn [poly_dec_loop trig_loop nth Derive_n pow]. unfold sin_quotient, trig_den. cbn [Nat.add pow INR].
  rewrite Rmult_0_l, sin_0, Rplus_0_l, Rmult_1_l. replace ((0 + 1) * (PI / 2)) with (PI / 2) by ring. rewrite sin_PI2, cos_PI2. field.
Qed.
