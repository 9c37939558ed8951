(** Proofs for C71. *)
From Coq Require Import Reals List Arith ZArith Bool Lia Lra.
From Verif Require Import FuncEqModel FuncEqSpec FuncEqProofs FuncEqProofs2 GenBndModel GenBndSpec.
Import ListNotations.
Local Open Scope R_scope.

(** * Sums *)
Lemma fold_app (f : nat -> R) l m : fold_right (fun k acc => f k + acc) 0 (l ++ m) = fold_right (fun k acc => f k + acc) 0 l + fold_right (fun k acc => f k + acc) 0 m.
Proof. induction l as [|a l IH]; simpl; [ring|]. rewrite IH. ring. Qed.
Lemma sum_range_last lo hi f : (lo <= S hi)%nat -> sum_range lo (S hi) f = sum_range lo hi f + f (S hi).
Proof. intros H. unfold sum_range. replace (S (S hi) - lo)%nat with (S (S hi - lo)) by lia. rewrite seq_S, fold_app. replace (lo + (S hi - lo))%nat with (S hi) by lia. simpl. ring. Qed.
Lemma sum_range_empty lo hi f : (hi < lo)%nat -> sum_range lo hi f = 0.
Proof. intros H. unfold sum_range. replace (S hi - lo)%nat with O by lia. reflexivity. Qed.
Lemma sum_range_first lo hi f : (lo <= hi)%nat -> sum_range lo hi f = f lo + sum_range (S lo) hi f.
Proof. intros H. unfold sum_range. replace (S hi - lo)%nat with (S (S hi - S lo)) by lia. reflexivity. Qed.
Lemma sum_range_ext lo hi f g : (forall k, (lo <= k <= hi)%nat -> f k = g k) -> sum_range lo hi f = sum_range lo hi g.
Proof.
  intros H. unfold sum_range. assert (E : forall k, In k (seq lo (S hi - lo)) -> f k = g k) by (intros k; rewrite in_seq; intros; apply H; lia).
  induction (seq lo (S hi - lo)) as [|a l IH]; [reflexivity|]. simpl. rewrite E by (left; reflexivity). rewrite IH; [reflexivity|]. intros k Hk. apply E. now right.
Qed.
Lemma sum_range_le lo hi f g : (forall k, (lo <= k <= hi)%nat -> f k <= g k) -> sum_range lo hi f <= sum_range lo hi g.
Proof.
  intros H. unfold sum_range. assert (E : forall k, In k (seq lo (S hi - lo)) -> f k <= g k) by (intros k; rewrite in_seq; intros; apply H; lia).
  induction (seq lo (S hi - lo)) as [|a l IH]; [simpl; lra|]. simpl. pose proof (E a ltac:(left; reflexivity)). assert (forall k, In k l -> f k <= g k) by (intros; apply E; now right). specialize (IH H1). lra.
Qed.
Lemma sum_range_scal lo hi c f : sum_range lo hi (fun k => c * f k) = c * sum_range lo hi f.
Proof. unfold sum_range. induction (seq lo (S hi - lo)) as [|a l IH]; simpl; [ring|]. rewrite IH. ring. Qed.
Lemma sum_range_plus lo hi f g : sum_range lo hi (fun k => f k + g k) = sum_range lo hi f + sum_range lo hi g.
Proof. unfold sum_range. induction (seq lo (S hi - lo)) as [|a l IH]; simpl; [ring|]. rewrite IH. ring. Qed.
Lemma sum_range_zero lo hi : sum_range lo hi (fun _ => 0) = 0.
Proof. unfold sum_range. induction (seq lo (S hi - lo)) as [|a l IH]; simpl; [ring|]. rewrite IH. ring. Qed.

(** * The two sums *)
Section Sums.
Context (a : R) (b : nat) (g : nat -> R) (Ha : 0 < a) (Hb : (2 <= b)%nat) (Hg : non_negative_non_decreasing g).
Lemma lower_0 : lower_sum a b g 0 = 0. Proof. reflexivity. Qed.
Lemma lower_S m : lower_sum a b g (S m) = a * lower_sum a b g m + g (b ^ S m)%nat.
Proof.
  unfold lower_sum. rewrite sum_range_last, <- sum_range_scal by lia. rewrite Nat.sub_diag. cbn [pow]. rewrite Rmult_1_l. f_equal. apply sum_range_ext. intros k Hk. replace (S m - k)%nat with (S (m - k)) by lia. cbn [pow]. ring.
Qed.
Lemma upper_0 : upper_sum a b g 0 = 0. Proof. reflexivity. Qed.
Lemma upper_1 : upper_sum a b g 1 = 0. Proof. reflexivity. Qed.
Lemma upper_S m : (1 <= m)%nat -> upper_sum a b g (S m) = a * upper_sum a b g m + g (b ^ S m - 1)%nat.
Proof.
  intros H. unfold upper_sum. rewrite sum_range_last, <- sum_range_scal by lia. rewrite Nat.sub_diag. change (a ^ 0) with 1. rewrite Rmult_1_l. f_equal. apply sum_range_ext. intros k Hk. replace (S m - k)%nat with (S (m - k)) by lia. cbn [pow]. ring.
Qed.
Lemma pow_ge1 m : (1 <= b ^ m)%nat. Proof. pose proof (Nat.pow_nonzero b m ltac:(lia)). lia. Qed.
Lemma pow_ge2 m : (2 <= b ^ S m)%nat. Proof. rewrite Nat.pow_succ_r'. pose proof (pow_ge1 m). nia. Qed.
Lemma lower_nonneg m : 0 <= lower_sum a b g m.
Proof. induction m as [|m IH]; [rewrite lower_0; lra|]. rewrite lower_S. destruct (Hg (b ^ S m)%nat (b ^ S m)%nat (pow_ge1 _) (Nat.le_refl _)). nra. Qed.
Lemma upper_nonneg m : 0 <= upper_sum a b g m.
Proof.
  induction m as [|m IH]; [rewrite upper_0; lra|]. destruct m as [|m]; [rewrite upper_1; lra|]. rewrite upper_S by lia.
  pose proof (pow_ge2 (S m)). destruct (Hg (b ^ S (S m) - 1)%nat (b ^ S (S m) - 1)%nat ltac:(lia) (Nat.le_refl _)). nra.
Qed.
Lemma lower_mono m : lower_sum a b g m <= lower_sum a b g (S m).
Proof.
  induction m as [|m IH]; [rewrite lower_0; apply lower_nonneg|]. rewrite (lower_S m), (lower_S (S m)).
  destruct (Hg (b ^ S m)%nat (b ^ S (S m))%nat (pow_ge1 _) ltac:(apply Nat.pow_le_mono_r; lia)). nra.
Qed.
Lemma upper_le_lower m : upper_sum a b g m <= lower_sum a b g m.
Proof.
  induction m as [|m IH]; [rewrite lower_0, upper_0; lra|]. destruct m as [|m]; [rewrite upper_1; apply lower_nonneg|]. rewrite lower_S, upper_S by lia.
  pose proof (pow_ge2 (S m)). destruct (Hg (b ^ S (S m) - 1)%nat (b ^ S (S m))%nat ltac:(lia) ltac:(lia)). nra.
Qed.
Lemma SG_step n : (b <= n)%nat -> SG a b n g = a * SG a b (n / b) g + g n.
Proof.
  intros Hn. unfold SG. rewrite (ilog_step b n Hb Hn), rsum_first, <- rsum_scal. change (b ^ 0)%nat with 1%nat. rewrite Nat.div_1_r.
  rewrite (rsum_ext _ (fun j => a ^ S j * g (n / b ^ S j)%nat) (fun j => a * (a ^ j * g (n / b / b ^ j)%nat))). { cbn [pow]. ring. }
  intros j _. rewrite Nat.div_div by (try apply Nat.pow_nonzero; lia). rewrite <- Nat.pow_succ_r'. cbn [pow]. ring.
Qed.
Lemma SG_small n : (1 <= n < b)%nat -> SG a b n g = 0.
Proof. intros H. unfold SG. now rewrite ilog_small by lia. Qed.
Lemma between n : (1 <= n)%nat -> lower_sum a b g (ilog b n) <= SG a b n g <= upper_sum a b g (S (ilog b n)).
Proof.
  induction n as [n IH] using lt_wf_ind. intros Hn. destruct (Nat.lt_ge_cases n b) as [L|L].
  { rewrite SG_small, ilog_small by lia. rewrite lower_0, upper_1. lra. }
  destruct (ilog_spec b n Hb Hn) as [A B]. rewrite (ilog_step b n Hb L) in *. rewrite SG_step by easy. rewrite lower_S, upper_S by lia.
  destruct (IH (n / b)%nat) as [U V]. { apply Nat.div_lt; lia. } { apply Nat.div_le_lower_bound; lia. }
  pose proof (Hg (b ^ S (ilog b (n / b)%nat))%nat n (pow_ge1 _) A). pose proof (Hg n (b ^ S (S (ilog b (n / b)%nat)) - 1)%nat Hn ltac:(lia)). nra.
Qed.
End Sums.

(** * The closed forms *)
Section Closed.
Context (a : R) (b : nat) (dec : (nat -> R) -> bound_type -> decomposition) (Ha : 0 < a) (Hb : (2 <= b)%nat).
Definition start (type : bound_type) : nat := match type with LOWER_BOUND => 1%nat | UPPER_BOUND => 2%nat end.
Definition the_sum (type : bound_type) (s : nat -> R) (m : nat) : R := match type with LOWER_BOUND => lower_sum a b s m | UPPER_BOUND => upper_sum a b s m end.
Lemma the_sum_eq type s m : the_sum type s m = sum_range (start type) m (fun k => / a ^ k * s (argument type b k)) * a ^ m.
Proof.
  assert (E : forall k, (k <= m)%nat -> a ^ (m - k) = / a ^ k * a ^ m). { intros k Hk. replace m with (m - k + k)%nat at 2 by lia. rewrite pow_add. field. apply pow_nonzero. lra. }
  rewrite Rmult_comm, <- sum_range_scal. destruct type; cbn [the_sum start argument]; unfold lower_sum, upper_sum; apply sum_range_ext; intros k Hk; rewrite E by lia; ring.
Qed.
Lemma piece_sum type p f m : (start type <= S m)%nat -> piece_ok a p f ->
  from_zero p (INR m) - p_at_0 p - match type with UPPER_BOUND => p_at_1 p * pbase p / a | LOWER_BOUND => 0 end = sum_range (start type) m (fun k => / a ^ k * (f k * pbase p ^ k)).
Proof.
  intros Hm (E0 & E1 & E). rewrite E, E0, E1.
  rewrite (sum_range_ext _ _ (fun k => / a ^ k * (f k * pbase p ^ k)) (fun k => f k * (pbase p / a) ^ k)).
  2:{ intros k _. unfold Rdiv. rewrite Rpow_mult_distr, pow_inv. ring. }
  rewrite sum_range_first by lia. destruct type; cbn [start] in *.
  - cbn [pow]. ring.
  - rewrite sum_range_first by lia. cbn [pow]. field. lra.
Qed.
Lemma rsum_list_nil A (f : A -> R) : rsum_list f [] = 0. Proof. reflexivity. Qed.
Lemma pieces_sum type l fs m : (start type <= S m)%nat -> Forall2 (piece_ok a) l fs ->
  rsum_list (fun p => from_zero p (INR m) - p_at_0 p - match type with UPPER_BOUND => p_at_1 p * pbase p / a | LOWER_BOUND => 0 end) l =
  sum_range (start type) m (fun k => / a ^ k * fold_right (fun pf acc => snd pf k * pbase (fst pf) ^ k + acc) 0 (combine l fs)).
Proof.
  intros Hm. induction 1 as [|p f l fs Hp _ IH].
  - cbn [combine fold_right]. rewrite rsum_list_nil. rewrite (sum_range_ext _ _ _ (fun _ => 0)) by (intros; ring). now rewrite sum_range_zero.
  - cbn [rsum_list fold_right combine fst snd]. unfold rsum_list in IH. rewrite IH, (piece_sum type p f m Hm Hp), <- sum_range_plus. apply sum_range_ext. intros k _. ring.
Qed.
Lemma compute_sum_ok type s f m : decomposition_ok a b type s (dec s type) -> compute_sum a dec type s = Some f -> (start type <= S m)%nat -> f (INR m) = the_sum type s m.
Proof.
  unfold compute_sum. rewrite the_sum_eq. destruct (dec s type) as [|l|k o]; [discriminate| |].
  - intros (fs & F & E) [= <-] Hm. rewrite (pieces_sum type l fs m Hm F), Rpower_pow by easy. f_equal. apply sum_range_ext. intros k _. now rewrite E.
  - destruct k as [|[|k]]; [easy| |easy]. destruct o as [f0|]; [|discriminate]. cbn [decomposition_ok]. intros E [= <-] Hm. cbn. rewrite Rplus_0_r, Rpower_pow by easy. f_equal. apply E.
    destruct type; exact Hm.
Qed.

Section At.
Context (n : nat) (Hn : (1 <= n)%nat) (s : nat -> R) (Hs : non_negative_non_decreasing s).
Let q := ilog b n.
Let t := ln (INR n) / ln (INR b).
Hypothesis Hd : forall type, decomposition_ok a b type s (dec s type).
Lemma floor_spec r k : INR k <= r -> r < INR k + 1 -> floor_nat r = k.
Proof.
  intros H1 H2. unfold floor_nat. destruct (base_Int_part r) as [A B]. rewrite INR_IZR_INZ in H1, H2. assert (L1 : (Int_part r < Z.of_nat k + 1)%Z) by (apply lt_IZR; rewrite plus_IZR; lra).
  assert (L2 : (Z.of_nat k < Int_part r + 1)%Z) by (apply lt_IZR; rewrite plus_IZR; lra). lia.
Qed.
Lemma floor_neg r : r < 1 -> floor_nat r = O.
Proof. intros H. unfold floor_nat. destruct (base_Int_part r) as [A _]. assert (IZR (Int_part r) < IZR 1) by lra. apply lt_IZR in H0. destruct (Int_part r); try reflexivity; lia. Qed.
Lemma symbolic_eq type r m : floor_nat r = m -> symbolic_sum a b type s r = Rpower a (r - INR m) * the_sum type s m.
Proof.
  intros E. unfold symbolic_sum. rewrite E.
  assert (F : forall lo (h : nat -> nat), rsum_list (fun k => Rpower a (r - INR k) * s (h k)) (seq lo (S m - lo)) = Rpower a (r - INR m) * sum_range lo m (fun k => a ^ (m - k) * s (h k))).
  { intros lo h. rewrite <- sum_range_scal. change (rsum_list ?f ?l) with (fold_right (fun k acc => f k + acc) 0 l). fold (sum_range lo m (fun k => Rpower a (r - INR k) * s (h k))). apply sum_range_ext. intros k Hk.
    rewrite <- Rmult_assoc. f_equal. rewrite <- Rpower_pow, <- Rpower_plus by easy. f_equal. rewrite minus_INR by lia. ring. }
  destruct type; cbn [the_sum]; unfold lower_sum, upper_sum; rewrite <- F; f_equal; f_equal; lia.
Qed.
Lemma general_lower : (b <= n)%nat -> closed_rises a dec 0 LOWER_BOUND s -> general a b dec (INR n) LOWER_BOUND s <= SG a b n s.
Proof.
  intros Hbn R. pose proof (ilog_pos b n Hb Hbn) as Hq. fold q in Hq. pose proof (q_le_t b n Hb Hn) as Q1. pose proof (t_lt_q b n Hb Hn) as Q2. fold q t in Q1, Q2.
  assert (Q0 : 1 <= INR q) by (apply (le_INR 1); lia). destruct (between a b s Ha Hb Hs n Hn) as [B _]. fold q in B.
  unfold general. fold t. cbv zeta. unfold try_to_compute_sum. unfold closed_rises in R. destruct (compute_sum a dec LOWER_BOUND s) as [f|] eqn:E.
  - specialize (R f (or_introl eq_refl) (t - 1) (INR q) ltac:(lra) ltac:(lra)). rewrite (compute_sum_ok LOWER_BOUND s f q (Hd _) E) in R by (cbn [start]; lia). cbn [the_sum] in R. lra.
  - cbn [swap_type] in *. destruct (compute_sum a dec UPPER_BOUND s) as [f|] eqn:E2.
    + specialize (R f (or_intror (conj eq_refl eq_refl)) (t - 1) (INR q) ltac:(lra) ltac:(lra)). rewrite (compute_sum_ok UPPER_BOUND s f q (Hd _) E2) in R by (cbn [start]; lia). cbn [the_sum] in R.
      pose proof (upper_le_lower a b s Ha Hb Hs q). lra.
    + assert (I : INR (q - 1) = INR q - 1) by (rewrite minus_INR by lia; reflexivity). rewrite (symbolic_eq LOWER_BOUND _ (q - 1)) by (apply floor_spec; lra). cbn [the_sum].
      pose proof (lower_nonneg a b s Ha Hb Hs (q - 1)%nat) as N0. pose proof (lower_mono a b s Ha Hb Hs (q - 1)%nat) as N1. pose proof (lower_S a b s Hb (q - 1)%nat) as N2. replace (S (q - 1)) with q in * by lia.
      pose proof (Hs (b ^ q)%nat (b ^ q)%nat (pow_ge1 b Hb q) (Nat.le_refl _)) as [N3 _]. set (r := t - 1 - INR (q - 1)).
      destruct (Rle_dec 1 a).
      * assert (Rpower a r <= a). { rewrite <- (Rpower_1 a) at 2 by easy. apply Rp_mono_exp; unfold r; lra. } nra.
      * assert (Rpower a r <= 1). { pose proof (Rp_anti_exp a 0 r ltac:(lra) ltac:(unfold r; lra)) as M. rewrite Rp_zero in M. exact M. } nra.
Qed.
Lemma general_upper : closed_rises a dec 1 UPPER_BOUND s -> (1 <= a \/ exists f, compute_sum a dec UPPER_BOUND s = Some f \/ compute_sum a dec LOWER_BOUND s = Some f) -> SG a b n s <= general a b dec (INR n) UPPER_BOUND s.
Proof.
  intros R C. pose proof (q_le_t b n Hb Hn) as Q1. pose proof (t_lt_q b n Hb Hn) as Q2. fold q t in Q1, Q2. pose proof (S_INR q) as QS. pose proof (pos_INR q) as Q0.
  destruct (between a b s Ha Hb Hs n Hn) as [_ B]. fold q in B.
  unfold general. fold t. cbv zeta. unfold try_to_compute_sum. unfold closed_rises in R. destruct (compute_sum a dec UPPER_BOUND s) as [f|] eqn:E.
  - specialize (R f (or_introl eq_refl) (INR (S q)) (t + 1) ltac:(lra) ltac:(lra)). rewrite (compute_sum_ok UPPER_BOUND s f (S q) (Hd _) E) in R by (cbn [start]; lia). cbn [the_sum] in R. lra.
  - cbn [swap_type] in *. destruct (compute_sum a dec LOWER_BOUND s) as [f|] eqn:E2.
    + specialize (R f (or_intror (conj eq_refl eq_refl)) (INR (S q)) (t + 1) ltac:(lra) ltac:(lra)). rewrite (compute_sum_ok LOWER_BOUND s f (S q) (Hd _) E2) in R by (cbn [start]; lia). cbn [the_sum] in R.
      pose proof (upper_le_lower a b s Ha Hb Hs (S q)). lra.
    + destruct C as [C|(f & [C|C])]; [|discriminate|discriminate]. rewrite (symbolic_eq UPPER_BOUND _ (S q)) by (apply floor_spec; lra). cbn [the_sum].
      pose proof (upper_nonneg a b s Ha Hb Hs (S q)) as N0. assert (1 <= Rpower a (t + 1 - INR (S q))). { pose proof (Rp_mono_exp a 0 (t + 1 - INR (S q)) C ltac:(lra)) as M. rewrite Rp_zero in M. exact M. } nra.
Qed.
End At.
End Closed.
