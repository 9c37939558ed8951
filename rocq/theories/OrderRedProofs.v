From Coq Require Import ZArith List Lia Field Arith Bool.
From Verif Require Import Fld FPoly SeqSpec SeqLemmas OrderRedModel OrderRedSpec.
Import ListNotations.

Section S.
Context {K : Fld}.
Add Field KFor : (fth K).
Local Open Scope fld_scope.

Lemma set_nth_nth (l : list K) i v j : (i < length l)%nat ->
  nth j (firstn i l ++ v :: skipn (S i) l) 0 = if Nat.eqb j i then v else nth j l 0.
Proof.
  revert i j. induction l as [|x l IH]; intros i j Hi; cbn [length] in Hi; [lia|].
  destruct i as [|i]; destruct j as [|j]; cbn [firstn skipn app nth Nat.eqb]; auto.
  apply IH. lia.
Qed.
Lemma set_nth_length (l : list K) i v : (i < length l)%nat -> length (firstn i l ++ v :: skipn (S i) l) = length l.
Proof. intros H. rewrite app_length, firstn_length. cbn [length]. rewrite skipn_length. lia. Qed.

Lemma set_new_spec d (c : list K) i new : (0 < d)%nat -> (i <= length new * d)%nat ->
  length (set_new d c i new) = length new /\
  forall t, (t < length new)%nat -> nth t (set_new d c i new) 0 = if (t * d <? i)%nat then nth (t * d) c 0 else nth t new 0.
Proof.
  intros Hd. revert new. induction i as [|i IH]; intros new Hi; cbn [set_new].
  - split; auto.
  - assert (Hlt : (i / d < length new)%nat) by (apply Nat.div_lt_upper_bound; lia).
    destruct (Nat.eqb_spec (i mod d) 0) as [E|E].
    + destruct (IH (firstn (i / d) new ++ nth i c 0 :: skipn (S (i / d)) new)) as (L & H).
      { rewrite set_nth_length by auto. lia. }
      rewrite set_nth_length in L, H by auto. split; auto.
      intros t Ht. rewrite H by auto. rewrite set_nth_nth by auto.
      assert (D : i = (i / d * d)%nat) by (pose proof (Nat.div_mod i d); lia).
      destruct (Nat.ltb_spec (t * d) i); destruct (Nat.ltb_spec (t * d) (S i)); try lia; auto.
      * destruct (Nat.eqb_spec t (i / d)) as [->|Ne].
        -- now rewrite <- D.
        -- exfalso. apply Ne. assert (t * d = i)%nat by lia. apply (Nat.mul_cancel_r _ _ d); lia.
      * destruct (Nat.eqb_spec t (i / d)) as [->|Ne]; auto. lia.
    + destruct (IH new) as (L & H); [lia|]. split; auto. intros t Ht. rewrite H by auto.
      destruct (Nat.ltb_spec (t * d) i); destruct (Nat.ltb_spec (t * d) (S i)); auto; try lia.
      exfalso. apply E. replace i with (t * d)%nat by lia. apply Nat.mod_mul. lia.
Qed.

(** [tl] of the reduced vector: coefficient of x(m-t) is a_(t d). *)
Lemma reduced_coefficients_nth d (c0 : K) a t : (0 < d)%nat -> (0 < t)%nat -> (t * d <= length a)%nat ->
  nth t (reduced_coefficients d (c0 :: a)) 0 = nth (t * d - 1) a 0.
Proof.
  intros Hd Ht L. unfold reduced_coefficients.
  assert (D : (t <= length (c0 :: a) / d)%nat) by (apply Nat.div_le_lower_bound; cbn [length]; lia).
  destruct (set_new_spec d (c0 :: a) (length (c0 :: a)) (repeat 0 (length (c0 :: a) / d + 1))) as (L2 & H); auto.
  { rewrite repeat_length. pose proof (Nat.mod_upper_bound (length (c0 :: a)) d). pose proof (Nat.div_mod (length (c0 :: a)) d). lia. }
  rewrite H by (rewrite repeat_length; lia).
  replace (t * d <? length (c0 :: a))%nat with true by (symmetry; apply Nat.ltb_lt; cbn [length]; lia).
  destruct (t * d)%nat as [|s] eqn:E; [lia|]. cbn [nth]. f_equal. lia.
Qed.

(** When d divides k, the reduced order is k/d. *)
Lemma reduced_coefficients_length d (c0 : K) a q : (1 < d)%nat -> length a = (q * d)%nat ->
  length (reduced_coefficients d (c0 :: a)) = S q.
Proof.
  intros Hd L. unfold reduced_coefficients.
  destruct (set_new_spec d (c0 :: a) (length (c0 :: a)) (repeat 0 (length (c0 :: a) / d + 1))) as (L2 & H); [lia| |].
  { rewrite repeat_length. pose proof (Nat.mod_upper_bound (length (c0 :: a)) d). pose proof (Nat.div_mod (length (c0 :: a)) d). lia. }
  rewrite L2, repeat_length. cbn [length]. rewrite L.
  assert (E : (S (q * d) / d = q)%nat).
  { replace (S (q * d))%nat with (1 + q * d)%nat by lia. rewrite Nat.div_add by lia. rewrite Nat.div_small; lia. }
  rewrite E. lia.
Qed.

Lemma bsum_mult (d q : nat) (F : nat -> K) : (0 < d)%nat ->
  (forall j, (j < q * d)%nat -> (S j mod d <> 0)%nat -> F j = 0) ->
  bsum (q * d) F = bsum q (fun t => F (S t * d - 1)%nat).
Proof.
  intros Hd. induction q as [|q IH]; intros H; auto.
  replace (S q * d)%nat with (q * d + (d - 1) + 1)%nat at 1 by lia. rewrite !bsum_app, IH.
  - rewrite (bsum_0 (d - 1)).
    + cbn [bsum]. replace (q * d + (d - 1) + 0)%nat with (S q * d - 1)%nat by lia. ring.
    + intros i Hi. apply H; [lia|]. replace (S (q * d + i)) with (S i + q * d)%nat by lia.
      rewrite Nat.mod_add by lia. rewrite Nat.mod_small; lia.
  - intros j Hj. apply H. lia.
Qed.

Theorem order_reduction_correct (d q : nat) (c0 : K) (a : list K) (p : Z -> K) (f : Z) (x : Z -> K)
  (sol : Z -> (Z -> K) -> Z -> K) :
  (1 < d)%nat -> length a = (q * d)%nat -> decrements_multiple_of d a ->
  (forall r y, (0 <= r < Z.of_nat d)%Z ->
     solves (tl (reduced_coefficients d (c0 :: a))) (reduced_inhomogeneous d p r) f y (sol r y)) ->
  solves a p (Z.of_nat d * f) x (come_back d sol x).
Proof.
  intros Hd La Ha Hs.
  assert (LR : length (tl (reduced_coefficients d (c0 :: a))) = q).
  { pose proof (reduced_coefficients_length d c0 a q Hd La) as E.
    destruct (reduced_coefficients d (c0 :: a)); cbn [tl length] in *; lia. }
  assert (Sp : forall n, exists m r, (0 <= r < Z.of_nat d)%Z /\ n = (Z.of_nat d * m + r)%Z).
  { intros n. exists (n / Z.of_nat d)%Z, (n mod Z.of_nat d)%Z. split; [apply Z.mod_pos_bound; lia|apply Z.div_mod; lia]. }
  assert (CB : forall m r, (0 <= r < Z.of_nat d)%Z ->
     come_back d sol x (Z.of_nat d * m + r) = sol r (fun k => x (Z.of_nat d * k + r)%Z) m).
  { intros m r Hr. unfold come_back.
    assert (E : ((Z.of_nat d * m + r) mod Z.of_nat d = r)%Z).
    { rewrite Z.add_comm, Z.mul_comm, Z.mod_add by lia. apply Z.mod_small; auto. }
    rewrite E. replace ((Z.of_nat d * m + r - r) / Z.of_nat d)%Z with m; auto.
    replace (Z.of_nat d * m + r - r)%Z with (m * Z.of_nat d)%Z by lia. rewrite Z.div_mul; lia. }
  split.
  - intros i Hi. destruct (Sp i) as (m & r & Hr & ->). rewrite CB by auto.
    destruct (Hs r (fun k => x (Z.of_nat d * k + r)%Z) Hr) as (S1 & _). rewrite LR in S1. rewrite La in Hi.
    apply S1. nia.
  - intros n Hn. destruct (Sp n) as (m & r & Hr & ->). rewrite CB by auto. rewrite La in Hn.
    destruct (Hs r (fun k => x (Z.of_nat d * k + r)%Z) Hr) as (_ & S2). rewrite LR in S2.
    rewrite S2 by nia. unfold reduced_inhomogeneous. f_equal.
    unfold lincomb. rewrite LR, La.
    rewrite (bsum_mult d q) by (lia || (intros j Hj1 Hj2; rewrite Ha by (lia || auto); ring)).
    apply bsum_ext. intros t Ht.
    assert (E : nth t (tl (reduced_coefficients d (c0 :: a))) 0 = nth (S t * d - 1) a 0).
    { rewrite <- (reduced_coefficients_nth d c0 a (S t)) by nia.
      destruct (reduced_coefficients d (c0 :: a)); cbn [tl nth]; auto. destruct t; auto. }
    rewrite E. f_equal. rewrite <- CB by auto. f_equal. nia.
Qed.

Lemma zpow_1l e : zpow (1 : K) e = 1.
Proof.
  destruct (Z_as_sub e) as (u & v & ->). replace (Z.of_nat u - Z.of_nat v)%Z with (Z.of_nat u + - Z.of_nat v)%Z by lia.
  rewrite zpow_add, zpow_neg, !zpow_ofnat, !fpow_1l by apply one_neq_zero. field. apply one_neq_zero.
Qed.
(** * Roots of unity *)
Section Unity.
Variables (w : nat -> K) (d : nat).
Hypothesis Hd : (0 < d)%nat.
Hypothesis Hw : roots_of_unity w d.

Lemma w_d : w d = 1. Proof. destruct Hw as (A & B & _). now rewrite A. Qed.
Lemma w1_neq0 : w 1%nat <> 0.
Proof.
  destruct Hw as (_ & B & _). intros E. rewrite E in B. rewrite fpow_0l in B by lia. symmetry in B. now apply one_neq_zero in B.
Qed.
Lemma w_neq0 j : w j <> 0.
Proof. destruct Hw as (A & _). rewrite A. apply fpow_neq0, w1_neq0. Qed.
Lemma zpow_fpow (z : K) j e : z <> 0 -> zpow (z ^ j) e = zpow (zpow z e) (Z.of_nat j).
Proof.
  intros Hz. rewrite zpow_ofnat. induction j as [|j IH]; cbn [fpow].
  - destruct (Z_as_sub e) as (u & v & ->). replace (Z.of_nat u - Z.of_nat v)%Z with (Z.of_nat u + - Z.of_nat v)%Z by lia.
    rewrite zpow_add, zpow_neg, !zpow_ofnat, !fpow_1l by apply one_neq_zero. field. apply one_neq_zero.
  - rewrite zpow_mul_l, IH by (auto using fpow_neq0). reflexivity.
Qed.
(** w_1^e depends on e mod d, and is 1 only if d divides e *)
Lemma w1_mod e : zpow (w 1%nat) e = w (Z.to_nat (e mod Z.of_nat d)).
Proof.
  destruct Hw as (A & B & _). rewrite (Z.div_mod e (Z.of_nat d)) at 1 by lia.
  rewrite zpow_add by apply w1_neq0.
  assert (E : zpow (w 1%nat) (Z.of_nat d * (e / Z.of_nat d)) = 1).
  { replace (Z.of_nat d * (e / Z.of_nat d))%Z with (e / Z.of_nat d * Z.of_nat d)%Z by lia.
    generalize (e / Z.of_nat d)%Z. intros z.
    assert (G : forall u : nat, zpow (w 1%nat) (Z.of_nat u * Z.of_nat d) = 1).
    { intros u. rewrite <- Nat2Z.inj_mul, zpow_ofnat, Nat.mul_comm, fpow_mul, B. apply fpow_1l. }
    destruct (Z_as_sub z) as (u & v & ->).
    replace ((Z.of_nat u - Z.of_nat v) * Z.of_nat d)%Z with (Z.of_nat u * Z.of_nat d + - (Z.of_nat v * Z.of_nat d))%Z by lia.
    rewrite zpow_add, zpow_neg, !G by apply w1_neq0. field. apply one_neq_zero. }
  rewrite E, (A (Z.to_nat (e mod Z.of_nat d))). pose proof (Z.mod_pos_bound e (Z.of_nat d)).
  rewrite <- zpow_ofnat. rewrite Z2Nat.id by lia. ring.
Qed.
Lemma geom (z : K) m : (z - 1) * bsum m (fun j => z ^ j) = z ^ m - 1.
Proof. induction m as [|m IH]; cbn [bsum fpow]; [ring|]. transitivity ((z - 1) * bsum m (fun j => z ^ j) + (z - 1) * z ^ m); [ring|]. rewrite IH. ring. Qed.
(** sum over all the roots of w^e *)
Lemma unity_sum e : bsum d (fun j => zpow (w (S j)) e) = if (e mod Z.of_nat d =? 0)%Z then ofn d else 0.
Proof.
  destruct Hw as (A & B & C).
  assert (E : forall j, zpow (w (S j)) e = zpow (w 1%nat) e * (zpow (w 1%nat) e) ^ j).
  { intros j. rewrite (A (S j)), zpow_fpow by apply w1_neq0. rewrite zpow_ofnat. reflexivity. }
  rewrite (bsum_ext d _ (fun j => zpow (w 1%nat) e * (zpow (w 1%nat) e) ^ j)) by auto.
  rewrite bsum_scal. set (z := zpow (w 1%nat) e).
  assert (Zd : z ^ d = 1).
  { unfold z. rewrite <- zpow_ofnat, <- zpow_fpow by apply w1_neq0. rewrite B. apply zpow_1l. }
  destruct (Z.eqb_spec (e mod Z.of_nat d) 0) as [M|M].
  - assert (Z1 : z = 1).
    { unfold z. rewrite w1_mod, M. rewrite (A (Z.to_nat 0)). reflexivity. }
    rewrite Z1. rewrite (bsum_ext d _ (fun _ => 1)) by (intros; apply fpow_1l).
    assert (S1 : forall m, bsum m (fun _ => 1 : K) = ofn m) by (induction m; cbn [bsum]; auto; rewrite IHm, ofn_S'; auto).
    rewrite S1. ring.
  - assert (Z1 : z <> 1).
    { unfold z. rewrite w1_mod. apply C. pose proof (Z.mod_pos_bound e (Z.of_nat d)). lia. }
    pose proof (geom z d) as G. rewrite Zd in G.
    assert (P : (z - 1) * bsum d (fun j => z ^ j) = 0) by (rewrite G; ring).
    apply mul_eq0 in P. destruct P as [P|P]; [now apply sub_neq0 in Z1|]. change (fpow z) with (fun j => z ^ j). rewrite P. ring.
Qed.

Lemma ic_tmp_eq cnt j e (acc : K) : ic_tmp w cnt j e acc = acc + bsum cnt (fun t => zpow (w (j + t)) e).
Proof.
  revert j acc. induction cnt as [|c IH]; intros j acc; cbn [ic_tmp]; [cbn [bsum]; ring|].
  rewrite IH, bsum_first, Nat.add_0_r.
  rewrite (bsum_ext c (fun t => zpow (w (S j + t)) e) (fun t => zpow (w (j + S t)) e)); [ring|].
  intros t _. do 2 f_equal. lia.
Qed.
Lemma initial_condition_eq cnt i h x n (acc : K) :
  initial_condition w d cnt i h x n acc = acc + bsum cnt (fun t => bsum d (fun j => zpow (w (S j)) (n - Z.of_nat (i + t + h * d))) * x (Z.of_nat (i + t + h * d)) / ofn d).
Proof.
  revert i acc. induction cnt as [|c IH]; intros i acc; cbn [initial_condition]; [cbn [bsum]; ring|].
  rewrite IH, bsum_first, Nat.add_0_r, ic_tmp_eq.
  rewrite (bsum_ext c (fun t => bsum d (fun j => zpow (w (S j)) (n - Z.of_nat (S i + t + h * d))) * x (Z.of_nat (S i + t + h * d)) / ofn d)
    (fun t => bsum d (fun j => zpow (w (S j)) (n - Z.of_nat (i + S t + h * d))) * x (Z.of_nat (i + S t + h * d)) / ofn d)).
  2:{ intros t _. replace (S i + t)%nat with (i + S t)%nat by lia. reflexivity. }
  cbn [plus].
  replace (0 + bsum d (fun t => zpow (w (S t)) (n - Z.of_nat (i + h * d)))) with (bsum d (fun t => zpow (w (S t)) (n - Z.of_nat (i + h * d)))) by ring.
  ring.
Qed.
Theorem initial_condition_correct h x n :
  initial_condition w d d 0 h x n 0 = x (n mod Z.of_nat d + Z.of_nat h * Z.of_nat d)%Z.
Proof.
  rewrite initial_condition_eq.
  pose proof (Z.mod_pos_bound n (Z.of_nat d) ltac:(lia)) as MB.
  rewrite (bsum_single d (Z.to_nat (n mod Z.of_nat d))).
  - rewrite unity_sum.
    replace (n - Z.of_nat (0 + Z.to_nat (n mod Z.of_nat d) + h * d))%Z with ((n / Z.of_nat d - Z.of_nat h) * Z.of_nat d)%Z.
    2:{ pose proof (Z.div_mod n (Z.of_nat d)). nia. }
    rewrite Z.mod_mul by lia. cbn [Z.eqb].
    replace (Z.of_nat (0 + Z.to_nat (n mod Z.of_nat d) + h * d)) with (n mod Z.of_nat d + Z.of_nat h * Z.of_nat d)%Z by nia.
    field. apply ofn_neq0'. lia.
  - lia.
  - intros t Ht Ne. rewrite unity_sum.
    destruct (Z.eqb_spec ((n - Z.of_nat (0 + t + h * d)) mod Z.of_nat d) 0) as [M|M].
    + exfalso. apply Ne. 
      replace (n - Z.of_nat (0 + t + h * d))%Z with (n - Z.of_nat t + - Z.of_nat h * Z.of_nat d)%Z in M by nia.
      rewrite Z.mod_add in M by lia. apply Z.mod_divide in M; [|lia]. destruct M as (u & Hu).
      assert (n mod Z.of_nat d = Z.of_nat t)%Z; [|lia].
      replace n with (Z.of_nat t + u * Z.of_nat d)%Z by lia. rewrite Z.mod_add by lia. apply Z.mod_small. lia.
    + field. apply ofn_neq0'. lia.
Qed.

Definition Fm (n : Z) : K := bsum (d - 1) (fun j => w (S j) * / (1 - w (S j)) * zpow (w (S j)) n).
Lemma to_sub_loop_eq cnt j n (acc : K) : (forall t, (t < cnt)%nat -> w (j + t) <> 1) ->
  to_sub_loop w cnt j n acc = acc + bsum cnt (fun t => w (j + t) * / (1 - w (j + t)) * zpow (w (j + t)) n).
Proof.
  revert j acc. induction cnt as [|c IH]; intros j acc H; cbn [to_sub_loop]; [cbn [bsum]; ring|].
  pose proof (H 0%nat ltac:(lia)) as H0. rewrite Nat.add_0_r in H0. apply feqb_neq in H0. rewrite H0.
  rewrite IH. 2:{ intros t Ht. replace (S j + t)%nat with (j + S t)%nat by lia. apply H. lia. }
  rewrite bsum_first, Nat.add_0_r.
  rewrite (bsum_ext c (fun t => w (S j + t) * / (1 - w (S j + t)) * zpow (w (S j + t)) n) (fun t => w (j + S t) * / (1 - w (j + S t)) * zpow (w (j + S t)) n)); [ring|].
  intros t _. replace (S j + t)%nat with (j + S t)%nat by lia. reflexivity.
Qed.
Lemma to_sub_loop_app c1 c2 j n (acc : K) : to_sub_loop w (c1 + c2) j n acc = to_sub_loop w c2 (j + c1) n (to_sub_loop w c1 j n acc).
Proof.
  revert j acc. induction c1 as [|c IH]; intros j acc; cbn [plus to_sub_loop]; [now rewrite Nat.add_0_r|].
  rewrite IH. f_equal. lia.
Qed.
Lemma to_sub_eq n : to_sub_in_solution w d n = Fm n + 1 / ofn 2 * (ofn d - 1).
Proof.
  unfold to_sub_in_solution. f_equal.
  assert (Ed : to_sub_loop w d 1 n 0 = to_sub_loop w (d - 1 + 1) 1 n 0) by (f_equal; lia).
  rewrite Ed, to_sub_loop_app. rewrite (to_sub_loop_eq (d - 1)).
  - cbn [to_sub_loop]. replace (1 + (d - 1))%nat with d by lia. rewrite w_d, feqb_refl. cbn [plus]. unfold Fm. ring.
  - intros t Ht. destruct Hw as (_ & _ & C). apply C. lia.
Qed.
Lemma Fm_step n : Fm (n + 1) = Fm n + 1 - (if ((n + 1) mod Z.of_nat d =? 0)%Z then ofn d else 0).
Proof.
  rewrite <- unity_sum. destruct Hw as (A & B & C).
  assert (E : bsum d (fun j => zpow (w (S j)) (n + 1)) = bsum (d - 1) (fun j => zpow (w (S j)) (n + 1)) + 1).
  { replace d with (d - 1 + 1)%nat at 1 by lia. rewrite bsum_app. cbn [bsum].
    replace (S (d - 1 + 0)) with d by lia. rewrite w_d.
        rewrite zpow_1l. ring. }
  rewrite E. unfold Fm.
  assert (D : bsum (d - 1) (fun j => w (S j) * / (1 - w (S j)) * zpow (w (S j)) (n + 1)) =
     bsum (d - 1) (fun j => w (S j) * / (1 - w (S j)) * zpow (w (S j)) n - zpow (w (S j)) (n + 1))).
  { apply bsum_ext. intros j Hj. rewrite zpow_succ by apply w_neq0. field.
    intros Z. apply sub_eq0 in Z. apply (C (S j)); [lia|auto]. }
  rewrite D, bsum_sub. ring.
Qed.
Lemma mod_step n : (ofz ((n + 1) mod Z.of_nat d) : K) = ofz (n mod Z.of_nat d) + 1 - (if ((n + 1) mod Z.of_nat d =? 0)%Z then ofn d else 0).
Proof.
  pose proof (Z.mod_pos_bound n (Z.of_nat d) ltac:(lia)) as MB. pose proof (Z.div_mod n (Z.of_nat d) ltac:(lia)) as DM.
  destruct (Z.eq_dec (n mod Z.of_nat d) (Z.of_nat d - 1)) as [E|E].
  - assert (M : ((n + 1) mod Z.of_nat d = 0)%Z).
    { replace (n + 1)%Z with ((n / Z.of_nat d + 1) * Z.of_nat d)%Z by lia. apply Z.mod_mul. lia. }
    rewrite M, E. cbn [Z.eqb]. rewrite ofz_sub, ofz_ofnat, ofz_1, ofz_0. ring.
  - assert (M : ((n + 1) mod Z.of_nat d = n mod Z.of_nat d + 1)%Z).
    { replace (n + 1)%Z with (n mod Z.of_nat d + 1 + n / Z.of_nat d * Z.of_nat d)%Z by lia.
      rewrite Z.mod_add by lia. apply Z.mod_small. lia. }
    rewrite M. replace (n mod Z.of_nat d + 1 =? 0)%Z with false by (symmetry; apply Z.eqb_neq; lia).
    rewrite ofz_add, ofz_1. ring.
Qed.
Lemma Fm_diff n : Fm n - ofz (n mod Z.of_nat d) = Fm 0 - ofz (0 mod Z.of_nat d).
Proof.
  assert (St : forall m, Fm (m + 1) - ofz ((m + 1) mod Z.of_nat d) = Fm m - ofz (m mod Z.of_nat d)).
  { intros m. rewrite Fm_step, mod_step. ring. }
  destruct (Z.le_gt_cases 0 n) as [L|L].
  - replace n with (Z.of_nat (Z.to_nat n)) by lia. induction (Z.to_nat n) as [|m IH]; auto.
    rewrite <- IH, <- (St (Z.of_nat m)). replace (Z.of_nat (S m)) with (Z.of_nat m + 1)%Z by lia. reflexivity.
  - replace n with (- Z.of_nat (Z.to_nat (- n)))%Z by lia. induction (Z.to_nat (- n)) as [|m IH]; auto.
    rewrite <- IH, <- (St (- Z.of_nat (S m))%Z). replace (- Z.of_nat (S m) + 1)%Z with (- Z.of_nat m)%Z by lia. reflexivity.
Qed.
(** sum of Fm over a period is zero *)
Lemma Fm_period : bsum d (fun i => Fm (Z.of_nat i)) = 0.
Proof.
  unfold Fm. rewrite bsum_swap. apply bsum_0. intros j Hj.
  rewrite bsum_scal. destruct Hw as (A & B & C).
  assert (E : bsum d (fun i => zpow (w (S j)) (Z.of_nat i)) = 0).
  { rewrite (bsum_ext d _ (fun i => w (S j) ^ i)) by (intros; apply zpow_ofnat).
    pose proof (geom (w (S j)) d) as G.
    assert (W : w (S j) ^ d = 1).
    { rewrite (A (S j)), <- fpow_mul, Nat.mul_comm, fpow_mul, B. apply fpow_1l. }
    rewrite W in G. assert (P : (w (S j) - 1) * bsum d (fun i => w (S j) ^ i) = 0) by (rewrite G; ring).
    apply mul_eq0 in P. destruct P as [P|P]; auto. exfalso. apply sub_eq0 in P. apply (C (S j)); [lia|auto]. }
  rewrite E. ring.
Qed.
Theorem to_sub_correct n : to_sub_in_solution w d n = ofz (n mod Z.of_nat d).
Proof.
  rewrite to_sub_eq.
  assert (P : ofn d * (Fm 0 - ofz (0 mod Z.of_nat d)) = - (ofn d * (ofn d - 1) / ofn 2)).
  { pose proof Fm_period as E.
    rewrite (bsum_ext d _ (fun i => ofn i + (Fm 0 - ofz (0 mod Z.of_nat d)))) in E.
    2:{ intros i Hi. rewrite <- (Fm_diff (Z.of_nat i)). rewrite Z.mod_small by lia. rewrite ofz_ofnat. ring. }
    rewrite bsum_add in E.
    assert (S1 : forall m (c : K), bsum m (fun _ => c) = ofn m * c).
    { induction m as [|m IH]; intros c; cbn [bsum]; [rewrite ofn_0; ring|]. rewrite IH, ofn_S'. ring. }
    assert (S2 : forall m, bsum m (fun i => ofn i : K) = ofn m * (ofn m - 1) / ofn 2).
    { assert (N2 : (ofn 2 : K) <> 0) by apply ofn_neq0.
      induction m as [|m IH]; cbn [bsum]; [rewrite ofn_0; field; auto|]. rewrite IH, !ofn_S'.
      rewrite !ofn_S', ofn_0 in N2. rewrite ofn_0. replace (f0 + f1 + f1) with (f1 + f1 : K) in * by ring. field. exact N2. }
    rewrite S1, S2 in E.
    match type of E with ?X + ?Y = 0 => transitivity (X + Y - X); [ring|rewrite E; ring] end. }
  assert (Nd : (ofn d : K) <> 0) by (apply ofn_neq0'; lia).
  assert (N2 : (ofn 2 : K) <> 0) by apply ofn_neq0.
  assert (Q : Fm 0 - ofz (0 mod Z.of_nat d) = - ((ofn d - 1) / ofn 2)).
  { apply (mul_cancel_l (ofn d)); auto. rewrite P. field; auto. }
  rewrite <- Fm_diff with (n := n) in Q.
  transitivity (Fm n - ofz (n mod Z.of_nat d) + ofz (n mod Z.of_nat d) + 1 / ofn 2 * (ofn d - 1)); [ring|].
  rewrite Q. field; auto.
Qed.
End Unity.
End S.
