From Coq Require Import ZArith List Bool Lia Znumtheory Sorting.Sorted Permutation.
From Verif Require Import IntUtilModel IntUtilSpec.
Import ListNotations.
Local Open Scope Z_scope.

Ltac splits := lazymatch goal with |- _ /\ _ => split; [|splits] | _ => idtac end.

(** * gcd *)
Lemma int_rem_Ret n m : m <> 0 -> ~ (n = INT_MIN /\ m = -1) -> int_rem n m = Ret (Z.rem n m).
Proof.
  intros Hm Hn. unfold int_rem.
  destruct (Z.eqb_spec m 0); [lia|].
  destruct (Z.eqb_spec n INT_MIN), (Z.eqb_spec m (-1)); cbn; auto. tauto.
Qed.

Lemma gcd_rem n m : m <> 0 -> Z.gcd m (Z.rem n m) = Z.gcd n m.
Proof.
  intros Hm. rewrite (Z.quot_rem' n m) at 2.
  rewrite (Z.gcd_comm (m * _ + _) m). rewrite Z.add_comm, Z.mul_comm.
  symmetry. apply Z.gcd_add_mult_diag_r.
Qed.

Lemma rem_abs_lt n m : m <> 0 -> Z.abs (Z.rem n m) < Z.abs m.
Proof. intros. apply Z.rem_bound_abs; auto. Qed.

Definition good (n m : Z) : Prop :=
  (INT_MIN <= n <= INT_MAX) /\ (INT_MIN <= m <= INT_MAX) /\
  ~ (n = INT_MIN /\ m = -1) /\ ~ (n = -1 /\ m = INT_MIN).

Lemma good_step n m : good n m -> m <> 0 -> good m (Z.rem n m).
Proof.
  intros (Hn & Hm & H1 & H2) Hm0.
  pose proof (rem_abs_lt n m Hm0) as Hr.
  unfold good, INT_MIN, INT_MAX in *. change (2 ^ 31) with 2147483648 in *.
  repeat split; try lia.
  - intros [A B]. subst m.
    destruct (Z.eq_dec n (-2147483648)) as [->|Hne].
    + vm_compute in B. discriminate.
    + assert (n = -1); [|lia].
      rewrite <- B. symmetry.
      replace (-2147483648) with (- (2147483648)) by lia.
      rewrite Z.rem_opp_r by lia.
      destruct (Z.le_gt_cases 0 n).
      * apply Z.rem_small; lia.
      * replace n with (- (- n)) by lia. rewrite Z.rem_opp_l by lia.
        rewrite Z.rem_small by lia. lia.
Qed.

Lemma gcd_loop_ok : forall k n m,
  Z.abs m < 2 ^ Z.of_nat k -> good n m ->
  exists r, gcd_loop (2 * k + 2) n m m = Ret r /\ Z.abs r = Z.gcd n m.
Proof.
  assert (Hbase : forall f n, gcd_loop (S f) n 0 0 = Ret n) by (intros; reflexivity).
  assert (Hstep : forall f n m, m <> 0 -> good n m ->
            gcd_loop (S f) n m m = gcd_loop f m (Z.rem n m) (Z.rem n m)).
  { intros f n m Hm0 Hg. cbn [gcd_loop]. destruct (Z.eqb_spec m 0); [lia|].
    rewrite int_rem_Ret by (auto; apply Hg). reflexivity. }
  induction k as [|k IH]; intros n m Hlt Hg.
  - assert (m = 0) by (change (2 ^ Z.of_nat 0) with 1 in Hlt; lia). subst m.
    exists n. split; [reflexivity|]. symmetry. apply Z.gcd_0_r.
  - destruct (Z.eq_dec m 0) as [->|Hm0].
    { exists n. split; [replace (2 * S k + 2)%nat with (S (2 * k + 3)) by lia; apply Hbase|].
      symmetry. apply Z.gcd_0_r. }
    replace (2 * S k + 2)%nat with (S (S (2 * k + 2))) by lia.
    rewrite Hstep by auto. set (r := Z.rem n m).
    assert (Hr : Z.abs r < Z.abs m) by (apply rem_abs_lt; auto).
    assert (Hg2 : good m r) by (apply good_step; auto).
    destruct (Z.eq_dec r 0) as [Hr0|Hr0].
    { rewrite Hr0. exists m. split; [apply Hbase|].
      rewrite <- (gcd_rem n m) by auto. fold r. rewrite Hr0. symmetry; apply Z.gcd_0_r. }
    rewrite Hstep by auto. set (s := Z.rem m r).
    assert (Hs : 2 * Z.abs s < Z.abs m).
    { assert (Z.abs s < Z.abs r) by (apply rem_abs_lt; auto).
      assert (E : Z.abs s = Z.rem (Z.abs m) (Z.abs r)) by (unfold s; rewrite Z.rem_abs; auto).
      pose proof (Z.quot_rem' (Z.abs m) (Z.abs r)) as Q. rewrite <- E in Q.
      assert (1 <= Z.quot (Z.abs m) (Z.abs r)).
      { apply Z.quot_le_lower_bound; lia. }
      nia. }
    destruct (IH r s) as (g & Eg & Hgg).
    { rewrite Nat2Z.inj_succ, Z.pow_succ_r in Hlt by lia. lia. }
    { apply good_step; auto. }
    exists g. split; [exact Eg|]. rewrite Hgg.
    unfold s. rewrite gcd_rem by auto. unfold r. apply gcd_rem; auto.
Qed.

Lemma gcd_int_correct n m : good n m ->
  exists r, gcd_int n m = Ret r /\ Z.abs r = Z.gcd n m.
Proof.
  intros Hg. apply (gcd_loop_ok 34 n m); auto.
  destruct Hg as (? & Hm & ?). unfold INT_MIN, INT_MAX in Hm.
  change (2 ^ 31) with 2147483648 in Hm. change (2 ^ Z.of_nat 34) with 17179869184. lia.
Qed.

Lemma gcd_loop_nonneg : forall f n m r,
  0 <= n -> 0 <= m -> gcd_loop f n m m = Ret r -> 0 <= r.
Proof.
  induction f as [|f IH]; intros n m r Hn Hm H; cbn [gcd_loop] in H; [discriminate|].
  destruct (Z.eqb_spec m 0); [inversion H; subst; auto|].
  unfold int_rem in H. destruct (Z.eqb_spec m 0); [lia|].
  destruct ((n =? INT_MIN) && (m =? -1)); [discriminate|].
  apply IH in H; auto. apply Z.rem_nonneg; lia.
Qed.

Lemma gcd_int_nonneg n m : 0 <= n <= INT_MAX -> 0 <= m <= INT_MAX ->
  gcd_int n m = Ret (Z.gcd n m).
Proof.
  intros Hn Hm. destruct (gcd_int_correct n m) as (r & E & Hr).
  { unfold good, INT_MIN, INT_MAX in *. lia. }
  pose proof (gcd_loop_nonneg _ _ _ _ (proj1 Hn) (proj1 Hm) E).
  rewrite E. f_equal. lia.
Qed.

Lemma gcd_int_undef n m : 
  (INT_MIN <= n <= INT_MAX) -> (INT_MIN <= m <= INT_MAX) ->
  (gcd_int n m = Undef <-> (n = INT_MIN /\ m = -1) \/ (n = -1 /\ m = INT_MIN)).
Proof.
  intros Hn Hm. split.
  - intros H.
    destruct (Z.eq_dec n INT_MIN), (Z.eq_dec m (-1)), (Z.eq_dec n (-1)), (Z.eq_dec m INT_MIN); auto;
    (destruct (gcd_int_correct n m) as (r & E & _); [unfold good; intuition | congruence]).
  - intros [[-> ->]|[-> ->]]; vm_compute; reflexivity.
Qed.

(** * lcm of a vector *)
Lemma fold_lcm_spec : forall l a, 0 <= a ->
  let r := fold_left Z.lcm l a in
  0 <= r /\ (a | r) /\ (forall z, In z l -> (z | r)) /\
  (forall t, (a | t) -> (forall z, In z l -> (z | t)) -> (r | t)).
Proof.
  induction l as [|z l IH]; intros a Ha; cbn [fold_left].
  - repeat split; auto using Z.divide_refl. intros ? [].
  - destruct (IH (Z.lcm a z) (Z.lcm_nonneg _ _)) as (H0 & H1 & H2 & H3).
    repeat split; auto.
    + eapply Z.divide_trans; [apply Z.divide_lcm_l|exact H1].
    + intros y [<-|Hy]; auto. eapply Z.divide_trans; [apply Z.divide_lcm_r|exact H1].
    + intros t Hat Ht. apply H3.
      * apply Z.lcm_least; [auto | apply Ht; left; auto].
      * intros y Hy. apply Ht. right; auto.
Qed.

Lemma lcm_vec_spec v :
  0 <= lcm_vec v /\ (forall z, In z v -> (z | lcm_vec v)) /\
  (forall t, (forall z, In z v -> (z | t)) -> (lcm_vec v | t)).
Proof.
  destruct (fold_lcm_spec (rev v) 1 ltac:(lia)) as (H0 & _ & H2 & H3).
  unfold lcm_vec. repeat split; auto.
  - intros z Hz. apply H2. apply -> in_rev. exact Hz.
  - intros t Ht. apply H3; [exists t; lia|]. intros z Hz. apply Ht. apply in_rev. exact Hz.
Qed.

(** * partial_factor *)
Lemma divide_out_spec : forall f m i k, 2 <= i -> 0 < m -> m < 2 ^ Z.of_nat f -> 0 <= k ->
  exists m' k', divide_out (S f) m i k = Some (m', k') /\ k <= k' /\ 0 < m' /\
    m = m' * i ^ (k' - k) /\ ~ (i | m').
Proof.
  induction f as [|f IH]; intros m i k Hi Hm Hlt Hk.
  - assert (m = 0 \/ m = 0) by (change (2 ^ Z.of_nat 0) with 1 in Hlt; lia). lia.
  - remember (S f) as f' eqn:Ef'. cbn [divide_out]. destruct (Z.eqb_spec (m mod i) 0) as [E|E].
    + assert (Hd : m = i * (m / i)) by (apply Z_div_exact_full_2; lia).
      assert (0 < m / i) by nia.
      subst f'.
      destruct (IH (m / i) i (k + 1)) as (m' & k' & E1 & H1 & H2 & H3 & H4); try lia.
      { rewrite Nat2Z.inj_succ, Z.pow_succ_r in Hlt by lia. nia. }
      exists m', k'. repeat split; auto; try lia.
      rewrite Hd at 1. rewrite H3.
      replace (k' - k) with (Z.succ (k' - (k + 1))) by lia.
      rewrite Z.pow_succ_r by lia. ring.
    + exists m, k. repeat split; auto; try lia.
      * rewrite Z.sub_diag, Z.pow_0_r. lia.
      * intros D. apply E. apply Z.mod_divide; [lia|auto].
Qed.

Lemma divide_out_fuel m i : 2 <= i -> 0 < m ->
  exists m' k, divide_out (div_fuel m) m i 0 = Some (m', k) /\ 0 <= k /\ 0 < m' /\
    m = m' * i ^ k /\ ~ (i | m').
Proof.
  intros Hi Hm. unfold div_fuel.
  destruct (divide_out_spec (S (Z.to_nat (Z.log2 m))) m i 0) as (m' & k & E & H1 & H2 & H3 & H4); auto; try lia.
  { rewrite Nat2Z.inj_succ, Z2Nat.id by apply Z.log2_nonneg. apply Z.log2_spec; auto. }
  exists m', k. rewrite Z.sub_0_r in H3. repeat split; auto.
Qed.

(** State of the factorisation relative to the initial vectors. *)
Definition ext (v0 : vecs) (bs es : list Z) : vecs := (fst v0 ++ bs, snd v0 ++ es).

Record Inv (n i m : Z) (bs es : list Z) : Prop := {
  inv_len : length bs = length es;
  inv_prod : prodpow bs es * m = n;
  inv_m : 0 < m;
  inv_nodiv : forall d, 2 <= d < i -> ~ (d | m);
  inv_es : Forall (fun e => 0 < e) es;
  inv_prime : Forall (fun b => prime b /\ b < i /\ ~ (b | m)) bs;
  inv_sorted : StronglySorted Z.lt bs
}.

Lemma prodpow_app : forall bs es b k, length bs = length es ->
  prodpow (bs ++ [b]) (es ++ [k]) = prodpow bs es * b ^ k.
Proof.
  induction bs as [|x bs IH]; intros [|e es] b k H; cbn [app prodpow length] in *; try discriminate; try ring.
  rewrite IH by lia. ring.
Qed.

Lemma prime_no_small i : 2 <= i -> (forall d, 2 <= d < i -> ~ (d | i)) -> prime i.
Proof.
  intros Hi Hd. destruct (prime_dec i) as [|Hn]; auto.
  destruct (not_prime_divide i) as (d & Hd1 & Hd2); auto; try lia.
  exfalso. apply (Hd d); auto; lia.
Qed.

Lemma SSorted_app_last : forall bs b, StronglySorted Z.lt bs -> Forall (fun x => x < b) bs ->
  StronglySorted Z.lt (bs ++ [b]).
Proof.
  induction bs as [|x bs IH]; intros b Hs Hf; cbn.
  - repeat constructor.
  - inversion Hs; subst. inversion Hf; subst. constructor; auto.
    apply Forall_app; split; auto.
Qed.

(** One step of "divide out i and record it". *)
Lemma Inv_step n i m bs es : 2 <= i -> Inv n i m bs es ->
  exists m' k bs' es', divide_out (div_fuel m) m i 0 = Some (m', k) /\
    (forall v0, (if 0 <? k then push (ext v0 bs es) i k else ext v0 bs es) = ext v0 bs' es') /\
    Inv n (i + 1) m' bs' es' /\ m' <= m /\ (m' | m).
Proof.
  intros Hi H. destruct H as [Hl Hp Hm Hn He Hpr Hs].
  destruct (divide_out_fuel m i Hi Hm) as (m' & k & E & Hk & Hm' & Em & Hnd).
  assert (Hdiv : (m' | m)) by (exists (i ^ k); lia).
  assert (Hle : m' <= m) by (apply Z.divide_pos_le; auto).
  assert (Hno : forall d, 2 <= d < i + 1 -> ~ (d | m')).
  { intros d Hd D. destruct (Z.eq_dec d i) as [->|]; auto.
    apply (Hn d); [lia|]. eapply Z.divide_trans; eauto. }
  destruct (Z.ltb_spec 0 k) as [Hk0|Hk0].
  - exists m', k, (bs ++ [i]), (es ++ [k]).
    split; [exact E|]. split; [|split; [constructor; auto|auto]].
    + intros v0. unfold push, ext. cbn [fst snd]. rewrite <- !app_assoc.
      destruct (Z.ltb_spec 0 k); [reflexivity|lia].
    + rewrite !app_length; cbn; lia.
    + rewrite prodpow_app by auto. rewrite <- Hp, Em. ring.
    + apply Forall_app; auto.
    + apply Forall_app; split.
      * eapply Forall_impl; [|exact Hpr]. cbn. intros b (B1 & B2 & B3). split; [auto|]. split; [lia|].
        intros D. apply B3. eapply Z.divide_trans; eauto.
      * constructor; [|constructor]. split; [|split; [lia|auto]].
        apply prime_no_small; auto. intros d Hd D. apply (Hn d); auto.
        eapply Z.divide_trans; [exact D|]. rewrite Em.
        replace k with (Z.succ (k - 1)) by lia. rewrite Z.pow_succ_r by lia.
        exists (m' * i ^ (k - 1)). ring.
    + apply SSorted_app_last; auto. eapply Forall_impl; [|exact Hpr]. cbn; intros; lia.
  - exists m', k, bs, es. assert (k = 0) by lia. subst k.
    split; [exact E|]. split; [reflexivity|]. split; [constructor; auto|auto].
    + rewrite <- Hp, Em. ring.
    + eapply Forall_impl; [|exact Hpr]. cbn. intros b (B1 & B2 & B3). split; [auto|]. split; [lia|].
      intros D. apply B3. eapply Z.divide_trans; eauto.
Qed.

(** Advancing past an even number once 2 has been divided out. *)
Lemma Inv_even n i m bs es : Z.Even i -> 2 < i -> Inv n i m bs es -> Inv n (i + 1) m bs es.
Proof.
  intros Hev Hi [Hl Hp Hm Hn He Hpr Hs]. constructor; auto.
  - intros d Hd D. destruct (Z.eq_dec d i) as [->|]; [|apply (Hn d); auto; lia].
    apply (Hn 2); [lia|]. eapply Z.divide_trans; [|exact D].
    destruct Hev as [q ->]. exists q; ring.
  - eapply Forall_impl; [|exact Hpr]. cbn; intros b (B1 & B2 & B3); split; [auto|split; [lia|auto]].
Qed.

Lemma odd_loop_spec : forall f n i m bs es v0,
  Z.Odd i -> 3 <= i -> 100 - i < 2 * Z.of_nat f -> Inv n i m bs es ->
  exists i' m' bs' es', odd_loop (S f) i m (ext v0 bs es) = Some (m', ext v0 bs' es') /\
    Inv n i' m' bs' es' /\ 3 <= i' /\ (100 <= i' \/ m' < i' * i').
Proof.
  induction f as [|f IH]; intros n i m bs es v0 Hodd Hi Hf HI.
  - remember (S 0) as f1. rewrite Heqf1. cbn [odd_loop]. unfold FACTOR_THRESHOLD.
    destruct (Z.ltb_spec i 100) as [L|L]; [lia|]. cbn [andb].
    exists i, m, bs, es. split; [reflexivity|]. split; [exact HI|]. split; [lia|]. left; lia.
  - remember (S f) as f1. cbn [odd_loop]. unfold FACTOR_THRESHOLD.
    destruct (Z.ltb_spec i 100) as [L|L]; cbn [andb].
    2: { exists i, m, bs, es. split; [reflexivity|]. split; [exact HI|]. split; [lia|]. left; lia. }
    destruct (Z.leb_spec (i * i) m) as [L2|L2].
    2: { exists i, m, bs, es. split; [reflexivity|]. split; [exact HI|]. split; [lia|]. right; lia. }
    destruct (Inv_step n i m bs es) as (m' & k & bs' & es' & E & Ev & HI' & _ & _); auto; try lia.
    rewrite E, (Ev v0). subst f1. apply (IH n (i + 2) m' bs' es' v0); auto; try lia.
    + destruct Hodd as [q ->]. exists (q + 1). ring.
    + replace (i + 2) with (i + 1 + 1) by lia. apply Inv_even; auto; try lia.
      destruct Hodd as [q ->]. exists (q + 1). ring.
Qed.

Lemma SSorted_pairwise bs n i m es : Inv n i m bs es -> forall b, In b bs -> 2 <= b.
Proof.
  intros [_ _ _ _ _ Hpr _] b Hb. rewrite Forall_forall in Hpr.
  destruct (Hpr b Hb) as (P & _). apply prime_ge_2; auto.
Qed.

Lemma distinct_primes_FOP : forall bs, Forall prime bs -> StronglySorted Z.lt bs ->
  ForallOrdPairs rel_prime bs.
Proof.
  induction bs as [|b bs IH]; intros Hp Hs; constructor.
  - inversion Hp; subst. inversion Hs; subst. rewrite Forall_forall in *.
    intros x Hx. specialize (H4 x Hx). specialize (H2 x Hx).
    apply prime_rel_prime; auto. intros D.
    apply prime_div_prime in D; auto. lia.
  - inversion Hp; inversion Hs; subst; auto.
Qed.

Lemma FOP_app_last : forall (bs : list Z) b, ForallOrdPairs rel_prime bs ->
  Forall (fun x => rel_prime x b) bs -> ForallOrdPairs rel_prime (bs ++ [b]).
Proof.
  induction bs as [|x bs IH]; intros b H1 H2; cbn.
  - repeat constructor.
  - inversion H1; subst. inversion H2; subst. constructor; auto.
    apply Forall_app; auto.
Qed.

Lemma partial_factor_spec n bs0 es0 : n <> 0 ->
  exists bs es,
    partial_factor n (bs0, es0) = Ret (bs0 ++ bs, es0 ++ es) /\
    length bs = length es /\
    prodpow bs es = Z.abs n /\
    Forall (fun e => 0 < e) es /\
    NoDup bs /\ ForallOrdPairs rel_prime bs /\
    (forall b, In b bs -> (b = 1 /\ Z.abs n = 1) \/ prime b \/ (100 < b /\ no_small_prime b)) /\
    (forall b, In b (removelast bs) -> prime b) /\
    (bs0 = [] -> bs <> []).
Proof.
  intros Hn. unfold partial_factor.
  destruct (Z.eqb_spec (Z.abs n) 0); [lia|].
  set (N := Z.abs n) in *.
  assert (I0 : Inv N 2 N [] []).
  { constructor; auto; try (cbn [prodpow]; lia); try constructor. }
  destruct (Inv_step N 2 N [] []) as (m1 & k1 & bs1 & es1 & E1 & Ev1 & I1 & _ & _); auto; try lia.
  rewrite E1. specialize (Ev1 (bs0, es0)). unfold ext in Ev1 at 1 2. cbn [fst snd] in Ev1.
  rewrite !app_nil_r in Ev1. rewrite Ev1.
  destruct (odd_loop_spec 59 N 3 m1 bs1 es1 (bs0, es0)) as (i' & m2 & bs2 & es2 & E2 & I2 & Hi' & Hend); auto; try lia.
  { exists 1; lia. }
  rewrite E2.
  destruct I2 as [Hl Hp Hm Hnod He Hpr Hs].
  assert (Hprimes : Forall prime bs2) by (eapply Forall_impl; [|exact Hpr]; cbn; tauto).
  destruct (Z.ltb_spec 1 m2) as [L|L].
  - (* remaining factor m2 *)
    destruct (Z.eqb_spec m2 1); [lia|]. cbn [andb].
    exists (bs2 ++ [m2]), (es2 ++ [1]).
    assert (Hlt : Forall (fun b => b < m2) bs2).
    { rewrite Forall_forall. intros b Hb. rewrite Forall_forall in Hpr.
      destruct (Hpr b Hb) as (P1 & P2 & P3).
      destruct (Z.lt_ge_cases b m2); auto. exfalso.
      apply (Hnod m2); [lia|apply Z.divide_refl]. }
    splits.
    + unfold push, ext; cbn [fst snd]. rewrite <- !app_assoc. reflexivity.
    + rewrite !app_length; cbn; lia.
    + rewrite prodpow_app by auto. rewrite Z.pow_1_r. exact Hp.
    + apply Forall_app; split; auto.
      constructor; [lia|constructor].
    + assert (S : StronglySorted Z.lt (bs2 ++ [m2])) by (apply SSorted_app_last; auto).
      clear - S. induction (bs2 ++ [m2]) as [|x l IH]; [constructor|].
      inversion S; subst. constructor; auto. rewrite Forall_forall in H2.
      intros Hx. specialize (H2 x Hx). lia.
    + apply FOP_app_last; [apply distinct_primes_FOP; auto|].
      rewrite Forall_forall in *. intros b Hb. destruct (Hpr b Hb) as (P1 & P2 & P3).
      apply prime_rel_prime; auto.
    + intros b Hb. apply in_app_iff in Hb. destruct Hb as [Hb|[<-|[]]].
      * rewrite Forall_forall in Hpr. right; left. apply (Hpr b Hb).
      * right. destruct Hend as [Hge|Hsq].
        -- destruct (Z.lt_ge_cases m2 101) as [L3|L3].
           { left. apply prime_no_small; [lia|]. intros d Hd. apply Hnod. lia. }
           right. split; [lia|]. intros p Pp Dp.
           destruct (Z.lt_ge_cases p 100); auto. exfalso.
           apply (Hnod p); auto. pose proof (prime_ge_2 p Pp). lia.
        -- left. apply prime_no_small; [lia|]. intros d Hd Dd.
           assert (Dq : (m2 / d | m2)).
           { destruct Dd as [q Eq]. exists d. rewrite Eq at 2. rewrite Z.div_mul by lia. lia. }
           assert (Eq : m2 = d * (m2 / d)).
           { destruct Dd as [q Eq]. rewrite Eq at 2. rewrite Z.div_mul by lia. lia. }
           assert (d < i' \/ m2 / d < i') as [A|A] by nia.
           ++ apply (Hnod d); auto; lia.
           ++ apply (Hnod (m2 / d)); auto; split; auto. nia.
    + intros b Hb. rewrite removelast_last in Hb. rewrite Forall_forall in Hprimes. auto.
    + intros _ Habs. apply app_eq_nil in Habs. destruct Habs; discriminate.
  - assert (m2 = 1) by lia. subst m2. rewrite Z.mul_1_r in Hp.
    destruct (Z.eqb_spec 1 1); [|lia]. cbn [andb]. unfold ext; cbn [fst snd].
    destruct (Z.eqb_spec (Z.of_nat (length (bs0 ++ bs2))) 0) as [Z0|Z0].
    + rewrite app_length in Z0.
      destruct bs0; [|cbn in Z0; lia]. destruct bs2; [|cbn in Z0; lia].
      destruct es2; [|cbn in Hl; lia]. cbn in Hp. 
      exists [1], [1]. cbn [app] in *. splits; auto.
      * unfold push; cbn. rewrite app_nil_r. reflexivity.
      * constructor; [intros []|constructor].
      * constructor; constructor.
      * intros b [<-|[]]. left; split; auto.
      * intros b [].
      * discriminate.
    + exists bs2, es2. splits; auto.
      * clear - Hs. induction bs2 as [|x l IH]; [constructor|].
        inversion Hs; subst. constructor; auto. rewrite Forall_forall in H2.
        intros Hx. specialize (H2 x Hx). lia.
      * apply distinct_primes_FOP; auto.
      * intros b Hb. right; left. rewrite Forall_forall in Hprimes; auto.
      * intros b Hb. rewrite Forall_forall in Hprimes. apply Hprimes.
        destruct bs2 as [|x l]; [destruct Hb|].
        rewrite (@app_removelast_last Z (x :: l) 0) by discriminate.
        apply in_or_app; left; auto.
      * intros -> ->. apply Z0. reflexivity.
Qed.

(** * find_divisors *)
Definition zseq (n : nat) : list Z := map Z.of_nat (seq 1 n).

Definition check_divisors (n : Z) : bool :=
  match find_divisors n [] with
  | Ret (true, ds) =>
      forallb (fun d => (0 <? d) && (n mod d =? 0)) ds &&
      forallb (fun d => negb (n mod d =? 0) || existsb (Z.eqb d) ds) (zseq (Z.to_nat n)) &&
      (Z.of_nat (length ds) =? Z.of_nat (length (nodup Z.eq_dec ds)))
  | _ => false
  end.

Lemma check_all : forallb check_divisors (zseq 120) = true.
Proof. vm_compute. reflexivity. Qed.

Lemma zseq_in n z : 1 <= z <= Z.of_nat n -> In z (zseq n).
Proof.
  intros H. unfold zseq. apply in_map_iff. exists (Z.to_nat z). split; [lia|].
  apply in_seq. lia.
Qed.

Lemma div_loop_prefix : forall f m i j ds,
  div_loop f m i j ds = match div_loop f m i j [] with
                        | Some l => Some (ds ++ l) | None => None end.
Proof.
  induction f as [|f IH]; intros m i j ds; cbn [div_loop]; auto.
  destruct ((i <? FIND_DIVISORS_MAX) && (i <? j)).
  - cbv zeta. rewrite IH. rewrite (IH m (i + 1) (m / i) (if m mod i =? 0 then _ else [])).
    destruct (div_loop f m (i + 1) (m / i) []) as [l|]; auto.
    f_equal. destruct (m mod i =? 0); auto.
    destruct (i <? m / i); rewrite <- ?app_assoc; reflexivity.
  - rewrite app_nil_r. reflexivity.
Qed.

Lemma find_divisors_prefix n ds :
  find_divisors n ds = match find_divisors n [] with
                       | Ret (b, l) => Ret (b, ds ++ l)
                       | Undef => Undef | OutOfFuel => OutOfFuel end.
Proof.
  unfold find_divisors. destruct (n <=? 0); auto.
  destruct (n <? FIND_DIVISORS_THRESHOLD).
  - destruct (n =? 1); auto. rewrite div_loop_prefix.
    destruct (div_loop 12 n 1 n []); auto.
  - rewrite app_nil_r; auto.
Qed.

Lemma NoDup_nodup_len (l : list Z) :
  length l = length (nodup Z.eq_dec l) -> NoDup l.
Proof.
  induction l as [|x l IH]; intros H; constructor.
  - cbn in H. destruct (in_dec Z.eq_dec x l) as [|]; auto.
    exfalso. assert (length (nodup Z.eq_dec l) <= length l)%nat.
    { clear. induction l; cbn; auto. destruct (in_dec Z.eq_dec a l); cbn; lia. }
    cbn in H. lia.
  - cbn in H. destruct (in_dec Z.eq_dec x l).
    + exfalso. assert (length (nodup Z.eq_dec l) <= length l)%nat.
      { clear. induction l; cbn; auto. destruct (in_dec Z.eq_dec a l); cbn; lia. }
      cbn in H. lia.
    + cbn in H. apply IH. lia.
Qed.

Lemma find_divisors_small n ds : 0 < n < 121 ->
  exists new, find_divisors n ds = Ret (true, ds ++ new) /\ NoDup new /\
    (forall d, In d new <-> 0 < d /\ (d | n)).
Proof.
  intros Hn. rewrite find_divisors_prefix.
  assert (H : check_divisors n = true).
  { pose proof check_all as A. rewrite forallb_forall in A. apply A. apply zseq_in. lia. }
  unfold check_divisors in H.
  destruct (find_divisors n []) as [[[] l]| |]; try discriminate.
  exists l. apply andb_prop in H. destruct H as [H H3]. apply andb_prop in H. destruct H as [H1 H2].
  split; auto. split.
  - apply NoDup_nodup_len. apply Z.eqb_eq in H3. lia.
  - intros d. rewrite forallb_forall in H1, H2. split.
    + intros Hd. specialize (H1 d Hd). apply andb_prop in H1. destruct H1 as [A B].
      apply Z.ltb_lt in A. apply Z.eqb_eq in B. split; auto. apply Z.mod_divide; auto; lia.
    + intros [A B]. assert (d <= n) by (apply Z.divide_pos_le; auto; lia).
      specialize (H2 d (zseq_in (Z.to_nat n) d ltac:(lia))).
      apply Z.mod_divide in B; [|lia]. rewrite B in H2. cbn in H2.
      apply existsb_exists in H2. destruct H2 as (y & Hy & E). apply Z.eqb_eq in E. subst; auto.
Qed.

Lemma find_divisors_large n ds : 121 <= n -> find_divisors n ds = Ret (false, ds).
Proof.
  intros H. unfold find_divisors, FIND_DIVISORS_THRESHOLD, FIND_DIVISORS_MAX.
  destruct (Z.leb_spec n 0); [lia|]. destruct (Z.ltb_spec n (11 * 11)); [lia|auto].
Qed.
