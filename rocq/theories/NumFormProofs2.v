(** Perfect powers and conversion of big integers. *)
From Coq Require Import ZArith QArith Qcanon Qreals Reals List Bool Lia Lra.
From Coquelicot Require Import Complex.
From Verif Require Import Fld CplxF Ast IntUtilModel NumFormModel NumFormSpec NumFormProofs.
Import ListNotations.
Local Open Scope R_scope.

Lemma Qc_lt_spec a b : Qc_lt a b = true <-> rv a < rv b.
Proof.
  unfold Qc_lt. rewrite rv_lt. unfold Qccompare, Qclt. rewrite Qlt_alt. destruct (this a ?= this b)%Q; split; intros H; try discriminate; auto.
Qed.
Lemma Qc_eq_spec a b : Qc_eq a b = true <-> rv a = rv b.
Proof.
  unfold Qc_eq, Qccompare. split; intros H.
  - destruct (this a ?= this b)%Q eqn:E; try discriminate. apply Qeq_alt in E. unfold rv. now apply Qeq_eqR.
  - apply rv_inj in H. subst. replace (this b ?= this b)%Q with Eq; auto. symmetry. apply Qeq_alt. reflexivity.
Qed.
Lemma Qc_lt_false a b : Qc_lt a b = false <-> rv b <= rv a.
Proof. destruct (Qc_lt a b) eqn:E; [apply Qc_lt_spec in E|]; split; intros H; try discriminate; try lra; auto. destruct (Rlt_or_le (rv a) (rv b)); auto. apply Qc_lt_spec in H0. congruence. Qed.
Lemma Qc_eq_false a b : Qc_eq a b = false <-> rv a <> rv b.
Proof. destruct (Qc_eq a b) eqn:E; [apply Qc_eq_spec in E|]; split; intros H; try discriminate; try tauto; auto. intros X. apply Qc_eq_spec in X. congruence. Qed.

(** One direction: [f] is the function j |-> a^(dir j), monotone in the direction of the loop. *)
Section Loop.
Variables (c a : Qc) (dir : Z).
Hypothesis (Ha : 0 < rv a) (Hc : 0 < rv c) (Hdir : dir = 1%Z \/ dir = (-1)%Z).
Notation P z := (Rpower (rv a) (IZR z)).
Definition grows : Prop := (dir = 1%Z /\ 1 < rv a) \/ (dir = (-1)%Z /\ rv a < 1).
Lemma power_mono i j : (0 < j - i)%Z -> rv a <> 1 -> (grows -> P (dir * i) < P (dir * j)) /\ (~ grows -> P (dir * j) < P (dir * i)).
Proof.
  intros Hij Na. unfold Rpower. assert (L : IZR i < IZR j) by (apply IZR_lt; lia).
  assert (S : (1 < rv a -> 0 < ln (rv a)) /\ (rv a < 1 -> ln (rv a) < 0)).
  { split; intros H; rewrite <- ln_1; apply ln_increasing; lra. } destruct S as [S1 S2].
  unfold grows. destruct Hdir as [->| ->]; rewrite !mult_IZR; split; intros G; apply exp_increasing.
  - destruct G as [[_ G]|[G _]]; [|lia]. specialize (S1 G). nra.
  - destruct (Rlt_or_le (rv a) 1) as [H|H]; [specialize (S2 H); nra|]. exfalso. apply G. left. split; auto. lra.
  - destruct G as [[G _]|[_ G]]; [lia|]. specialize (S2 G). nra.
  - destruct (Rlt_or_le (rv a) 1) as [H|H]; [exfalso; apply G; right; auto|]. assert (1 < rv a) by lra. specialize (S1 H0). nra.
Qed.
Lemma loop_spec fuel : forall i r, power_loop fuel c a dir (dir * i) = Some r ->
  match r with
  | Some b => rv c = P b /\ exists j, (i <= j)%Z /\ b = (dir * j)%Z
  | None => rv a <> 1 /\ forall j, (i <= j)%Z -> rv c <> P (dir * j)
  end.
Proof.
  induction fuel as [|fuel IH]; intros i r; cbn [power_loop]; [discriminate|].
  assert (E : rv (qpow a (dir * i)) = P (dir * i)) by now apply rv_qpow.
  destruct (Qc_eq (qpow a (dir * i)) c) eqn:E1; [|apply Qc_eq_false in E1].
  { intros [= <-]. apply Qc_eq_spec in E1. split; [congruence|]. exists i. split; auto; lia. }
  assert (ST : ((grows /\ rv c < P (dir * i)) \/ (rv a <> 1 /\ ~ grows /\ P (dir * i) < rv c)) -> rv a <> 1 /\ forall j, (i <= j)%Z -> rv c <> P (dir * j)).
  { intros H. assert (Na : rv a <> 1). { destruct H as [[[[_ G]|[_ G]] _]|[H _]]; [lra|lra|auto]. } split; auto. intros j Hj.
    destruct (Z.eq_dec i j) as [->|Nij]; [rewrite E in E1; congruence|]. destruct (power_mono i j ltac:(lia) Na) as [M1 M2].
    destruct H as [[G L]|(_ & G & L)]; [specialize (M1 G)|specialize (M2 G)]; lra. }
  assert (NX : forall r', power_loop fuel c a dir (dir * (i + 1)) = Some r' -> match r' with
    | Some b => rv c = P b /\ exists j, (i <= j)%Z /\ b = (dir * j)%Z
    | None => rv a <> 1 /\ forall j, (i <= j)%Z -> rv c <> P (dir * j) end).
  { intros r' H. apply IH in H. destruct r' as [b|].
    - destruct H as [H1 (j & H2 & H3)]. split; auto. exists j. split; auto. lia.
    - destruct H as [Na H]. split; auto. intros j Hj. destruct (Z.eq_dec i j) as [->|Nij]; [rewrite E in E1; congruence|]. apply H. lia. }
  replace (dir * i + dir)%Z with (dir * (i + 1))%Z by ring.
  assert (D1 : (0 <? dir)%Z = true -> dir = 1%Z) by (destruct Hdir as [->| ->]; [auto|discriminate]).
  assert (D2 : (0 <? dir)%Z = false -> dir = (-1)%Z) by (destruct Hdir as [->| ->]; [discriminate|auto]).
  destruct (Qc_lt 1 a) eqn:A1; cbn [andb].
  - apply Qc_lt_spec in A1. rewrite rv_1 in A1. assert (A2 : Qc_lt a 1 = false) by (apply Qc_lt_false; rewrite rv_1; lra). rewrite A2. cbn [andb].
    destruct (0 <? dir)%Z eqn:D.
    + destruct (Qc_lt c (qpow a (dir * i))) eqn:X; [|apply NX]. apply Qc_lt_spec in X. rewrite E in X. intros [= <-]. apply ST. left. split; auto. left. auto.
    + destruct (Qc_lt (qpow a (dir * i)) c) eqn:X; [|apply NX]. apply Qc_lt_spec in X. rewrite E in X. intros [= <-]. apply ST. right. split; [lra|]. split; auto.
      intros [[G _]|[_ G]]; [specialize (D2 eq_refl); lia|lra].
  - apply Qc_lt_false in A1. rewrite rv_1 in A1. destruct (Qc_lt a 1) eqn:A2; cbn [andb]; [|apply NX]. apply Qc_lt_spec in A2. rewrite rv_1 in A2.
    destruct (0 <? dir)%Z eqn:D.
    + destruct (Qc_lt (qpow a (dir * i)) c) eqn:X; [|apply NX]. apply Qc_lt_spec in X. rewrite E in X. intros [= <-]. apply ST. right. split; [lra|]. split; auto.
      intros [[_ G]|[G _]]; [lra|specialize (D1 eq_refl); lia].
    + destruct (Qc_lt c (qpow a (dir * i))) eqn:X; [|apply NX]. apply Qc_lt_spec in X. rewrite E in X. intros [= <-]. apply ST. left. split; auto. right. split; auto.
Qed.
(** Termination: the powers pass c. *)
Lemma loop_total : rv a <> 1 \/ rv c = 1 -> exists f0, forall fuel, (f0 <= fuel)%nat -> power_loop fuel c a dir (dir * 1) <> None.
Proof.
  intros HT. assert (W : exists n : nat, (0 < n)%nat /\ (rv c = P (dir * Z.of_nat n) \/ (rv a <> 1 /\ grows /\ rv c < P (dir * Z.of_nat n)) \/ (rv a <> 1 /\ ~ grows /\ P (dir * Z.of_nat n) < rv c))).
  { destruct (Req_dec (rv a) 1) as [E|Na].
    - destruct HT as [|HT]; [contradiction|]. exists 1%nat. split; [lia|]. left. rewrite E, HT. unfold Rpower. rewrite ln_1, Rmult_0_r. symmetry. apply exp_0.
    - set (t := IZR dir * ln (rv a)).
      assert (Pt : forall n, P (dir * Z.of_nat n) = exp (INR n * t)) by (intros n; unfold Rpower, t; rewrite mult_IZR, INR_IZR_INZ; f_equal; ring).
      assert (Gt : (grows -> 0 < t) /\ (~ grows -> t < 0)).
      { assert (S : (1 < rv a -> 0 < ln (rv a)) /\ (rv a < 1 -> ln (rv a) < 0)).
        { split; intros H; rewrite <- ln_1; apply ln_increasing; lra. } destruct S as [S1 S2]. unfold grows, t.
        destruct Hdir as [->| ->]; split; intros G.
        - destruct G as [[_ G]|[G _]]; [|lia]. specialize (S1 G). lra.
        - destruct (Rlt_or_le (rv a) 1) as [H|H]; [specialize (S2 H); lra|]. exfalso. apply G. left. split; auto. lra.
        - destruct G as [[G _]|[_ G]]; [lia|]. specialize (S2 G). lra.
        - destruct (Rlt_or_le (rv a) 1) as [H|H]; [exfalso; apply G; right; auto|]. assert (1 < rv a) by lra. specialize (S1 H0). lra. }
      destruct Gt as [G1 G2].
      assert (AR : forall x y, 0 < x -> exists n : nat, (0 < n)%nat /\ y < INR n * x).
      { intros x y Hx. destruct (archimed (y / x)) as [H _]. exists (S (Z.to_nat (up (y / x)))). split; [lia|].
        assert (IZR (up (y / x)) <= INR (Z.to_nat (up (y / x)))). { rewrite INR_IZR_INZ. apply IZR_le. lia. }
        rewrite S_INR. apply (Rmult_lt_reg_r (/ x)); [now apply Rinv_0_lt_compat|]. unfold Rdiv in *. rewrite Rmult_assoc, Rinv_r by lra. lra. }
      assert (DG : grows \/ ~ grows).
      { unfold grows. destruct (Rlt_or_le 1 (rv a)), Hdir as [->| ->]; try (left; left; split; auto; fail); try (left; right; split; auto; lra); right; intros [[? ?]|[? ?]]; try lia; lra. }
      destruct DG as [G|G].
      + destruct (AR t (ln (rv c)) (G1 G)) as (n & Hn & H). exists n. split; auto. right. left. split; auto. split; auto. rewrite Pt, <- (exp_ln (rv c)) by auto. now apply exp_increasing.
      + destruct (AR (- t) (- ln (rv c))) as (n & Hn & H); [specialize (G2 G); lra|]. exists n. split; auto. right. right. split; auto. split; auto. rewrite Pt, <- (exp_ln (rv c)) by auto. apply exp_increasing. lra. }
  destruct W as (n & Hn & W). exists n. intros fuel Hf.
  assert (ST : forall fuel i, (n < i + fuel)%nat -> (i <= n)%nat -> power_loop fuel c a dir (dir * Z.of_nat i) <> None).
  { clear Hf fuel. induction fuel as [|fuel IH]; intros i H1 H2; [lia|]. cbn [power_loop].
    assert (E : rv (qpow a (dir * Z.of_nat i)) = P (dir * Z.of_nat i)) by now apply rv_qpow.
    destruct (Qc_eq (qpow a (dir * Z.of_nat i)) c) eqn:E1; [discriminate|]. apply Qc_eq_false in E1.
    replace (dir * Z.of_nat i + dir)%Z with (dir * Z.of_nat (S i))%Z by lia.
    destruct (Nat.eq_dec i n) as [->|Nin].
    - assert (D1 : (0 <? dir)%Z = true <-> dir = 1%Z) by (destruct Hdir as [->| ->]; split; auto; discriminate).
      destruct W as [W|[(Na & G & W)|(Na & G & W)]]; [congruence| |].
      + destruct G as [[G1 G2]|[G1 G2]].
        * replace (Qc_lt 1 a) with true by (symmetry; apply Qc_lt_spec; rewrite rv_1; auto). rewrite (proj2 D1 G1). replace (Qc_lt c (qpow a (dir * Z.of_nat n))) with true by (symmetry; apply Qc_lt_spec; rewrite E; auto). discriminate.
        * replace (Qc_lt 1 a) with false by (symmetry; apply Qc_lt_false; rewrite rv_1; lra). replace (Qc_lt a 1) with true by (symmetry; apply Qc_lt_spec; rewrite rv_1; auto). rewrite G1 in *. cbn [andb Z.ltb Z.compare].
          replace (Qc_lt c (qpow a (-1 * Z.of_nat n))) with true by (symmetry; apply Qc_lt_spec; rewrite E; auto). discriminate.
      + destruct (Rlt_or_le 1 (rv a)) as [A|A].
        * replace (Qc_lt 1 a) with true by (symmetry; apply Qc_lt_spec; rewrite rv_1; auto). cbn [andb]. destruct Hdir as [D|D]; [exfalso; apply G; left; auto|]. rewrite D in *. cbn [Z.ltb Z.compare].
          replace (Qc_lt (qpow a (-1 * Z.of_nat n)) c) with true by (symmetry; apply Qc_lt_spec; rewrite E; auto). discriminate.
        * replace (Qc_lt 1 a) with false by (symmetry; apply Qc_lt_false; rewrite rv_1; lra). replace (Qc_lt a 1) with true by (symmetry; apply Qc_lt_spec; rewrite rv_1; lra). cbn [andb].
          destruct Hdir as [D|D]; [|exfalso; apply G; right; split; auto; lra]. rewrite D in *. cbn [Z.ltb Z.compare]. replace (Qc_lt (qpow a (1 * Z.of_nat n)) c) with true by (symmetry; apply Qc_lt_spec; rewrite E; auto). discriminate.
    - destruct (Qc_lt 1 a && _); [discriminate|]. destruct (Qc_lt a 1 && _); [discriminate|]. apply IH; lia. }
  apply (ST fuel 1%nat); lia.
Qed.
End Loop.

Theorem perfect_power_ok c a : 0 < rv a -> 0 < rv c -> exists f0, forall f, (f0 <= f)%nat -> exists r, is_perfect_power f c a = Some r /\
  match r with Some b => b <> 0%Z /\ rv c = Rpower (rv a) (IZR b) | None => forall b, b <> 0%Z -> rv c <> Rpower (rv a) (IZR b) end.
Proof.
  intros Ha Hc. unfold is_perfect_power. destruct (Qc_eq a 1 && negb (Qc_eq c 1)) eqn:E.
  - exists O. intros f _. eexists. split; [reflexivity|]. apply andb_true_iff in E as [E1 E2]. apply Qc_eq_spec in E1. apply negb_true_iff, Qc_eq_false in E2. rewrite rv_1 in *.
    intros b _ X. apply E2. rewrite X, E1. apply Rpower_1_l.
  - assert (T : rv a <> 1 \/ rv c = 1).
    { apply andb_false_iff in E as [E|E]; [left; apply Qc_eq_false in E; rewrite rv_1 in E; auto|right]. apply negb_false_iff, Qc_eq_spec in E. now rewrite rv_1 in E. }
    destruct (loop_total c a 1 Ha Hc ltac:(auto) T) as [f1 H1]. destruct (loop_total c a (-1) Ha Hc ltac:(auto) T) as [f2 H2].
    exists (max f1 f2). intros f Hf. specialize (H1 f ltac:(lia)). specialize (H2 f ltac:(lia)).
    change (1 * 1)%Z with 1%Z in H1. change (-1 * 1)%Z with (-1)%Z in H2.
    pose proof (loop_spec c a 1 Ha ltac:(auto) f 1) as S1. pose proof (loop_spec c a (-1) Ha ltac:(auto) f 1) as S2.
    change (1 * 1)%Z with 1%Z in S1. change (-1 * 1)%Z with (-1)%Z in S2.
    destruct (power_loop f c a 1 1) as [[b|]|] eqn:L1; [|destruct (power_loop f c a (-1) (-1)) as [[b|]|] eqn:L2|]; try congruence.
    + eexists. split; [reflexivity|]. destruct (S1 _ eq_refl) as (X & j & Hj & ->). split; auto. lia.
    + eexists. split; [reflexivity|]. destruct (S2 _ eq_refl) as (X & j & Hj & ->). split; auto. lia.
    + eexists. split; [reflexivity|]. destruct (S1 _ eq_refl) as [_ X1]. destruct (S2 _ eq_refl) as [_ X2]. intros b Nb X.
      destruct (Z_lt_le_dec 0 b); [apply (X1 b); [lia|]; now rewrite Z.mul_1_l|]. apply (X2 (- b)%Z); [lia|]. now replace (-1 * - b)%Z with b by ring.
Qed.
(** Exponent 0 is never found. *)
Theorem perfect_power_zero_refuted :
  ~ (forall c a f, 0 < rv a -> 0 < rv c -> is_perfect_power f c a = Some None -> forall b, rv c <> Rpower (rv a) (IZR b)).
Proof.
  intros H. specialize (H 1%Qc (Q2Qc 2) 5%nat).
  assert (R2 : rv (Q2Qc 2) = 2) by (unfold rv, Q2Qc, this; rewrite (Qeq_eqR _ _ (Qred_correct _)); unfold Q2R; cbn; lra).
  rewrite R2, rv_1 in H. apply (H ltac:(lra) ltac:(lra) eq_refl 0%Z). unfold Rpower. rewrite Rmult_0_l. symmetry. apply exp_0.
Qed.

(** * ZZ_to_long *)
Local Open Scope Z_scope.
Theorem zz_strict z : ZZ_to_long shl_strict z = Undef.
Proof. reflexivity. Qed.
Lemma bytes_sum a : 0 <= a < 2 ^ 64 -> a = byte a 0 + 2^8 * byte a 1 + 2^16 * byte a 2 + 2^24 * byte a 3 + 2^32 * byte a 4 + 2^40 * byte a 5 + 2^48 * byte a 6 + 2^56 * byte a 7
  /\ forall i, 0 <= byte a i < 256.
Proof.
  intros Ha. split; [|intros i; unfold byte; apply Z.mod_pos_bound; lia].
  set (d := fun i => a / 2 ^ (8 * i)).
  assert (S : forall i, 0 <= i -> d i = 256 * d (i + 1) + byte a i).
  { intros i Hi. unfold d, byte. rewrite (Z.abs_eq a) by lia. replace (8 * (i + 1)) with (8 * i + 8) by ring. rewrite Z.pow_add_r by lia. change (2 ^ 8) with 256. rewrite <- Z.div_div by (try apply Z.pow_pos_nonneg; lia).
    apply Z.div_mod. lia. }
  assert (D0 : d 0 = a) by apply Z.div_1_r. assert (D8 : d 8 = 0) by (apply Z.div_small; exact Ha).
  pose proof (S 0 ltac:(lia)) as S0. pose proof (S 1 ltac:(lia)) as S1. pose proof (S 2 ltac:(lia)) as S2. pose proof (S 3 ltac:(lia)) as S3.
  pose proof (S 4 ltac:(lia)) as S4. pose proof (S 5 ltac:(lia)) as S5. pose proof (S 6 ltac:(lia)) as S6. pose proof (S 7 ltac:(lia)) as S7. clear S. clearbody d.
  cbn [Z.add Pos.add Pos.succ] in *. change (2^8) with 256. change (2^16) with 65536. change (2 ^ 24) with 16777216. change (2 ^ 32) with 4294967296. change (2 ^ 40) with 1099511627776.
  change (2 ^ 48) with 281474976710656. change (2 ^ 56) with 72057594037927936. lia.
Qed.
Lemma zz_value z : Z.abs z < 2 ^ 63 \/ z = - 2 ^ 63 -> ZZ_to_long shl32 z = Ret z <-> - 2 ^ 31 < z < 2 ^ 31.
Proof.
  intros Hz. assert (Hb : 0 <= Z.abs z < 2 ^ 64) by lia. destruct (bytes_sum _ Hb) as [BS BR].
  assert (BA : forall i, byte (Z.abs z) i = byte z i) by (intros i; unfold byte; now rewrite Z.abs_involutive).
  rewrite !BA in BS. assert (BR' : forall i, 0 <= byte z i < 256) by (intros i; rewrite <- BA; auto). clear BA BR.
  pose proof (BR' 0) as B0. pose proof (BR' 1) as B1. pose proof (BR' 2) as B2. pose proof (BR' 3) as B3. pose proof (BR' 4) as B4. pose proof (BR' 5) as B5. pose proof (BR' 6) as B6. pose proof (BR' 7) as B7. clear BR'.
  unfold ZZ_to_long. cbn [zz_loop shl32 Z.of_nat Pos.of_succ_nat Pos.succ].
  change (6 * 8 mod 32) with 16. change (5 * 8 mod 32) with 8. change (4 * 8 mod 32) with 0. change (3 * 8 mod 32) with 24. change (2 * 8 mod 32) with 16. change (1 * 8 mod 32) with 8. change (0 * 8 mod 32) with 0.
  set (b0 := byte z 0) in *. set (b1 := byte z 1) in *. set (b2 := byte z 2) in *. set (b3 := byte z 3) in *. set (b4 := byte z 4) in *. set (b5 := byte z 5) in *. set (b6 := byte z 6) in *. set (b7 := byte z 7) in *.
  clearbody b0 b1 b2 b3 b4 b5 b6 b7.
  assert (W : forall b k, 0 <= b < 256 -> k = 0 \/ k = 8 \/ k = 16 -> wrap 32 (b * 2 ^ k) = b * 2 ^ k).
  { intros b k Hb' Hk. unfold wrap. assert (L : 0 <= b * 2 ^ k < 2 ^ 24) by (destruct Hk as [->|[->| ->]]; cbn; lia). rewrite Z.mod_small by lia.
    destruct (Z.ltb_spec (b * 2 ^ k) (2 ^ (32 - 1))) as [|X]; auto. change (2 ^ (32 - 1)) with 2147483648 in X. lia. }
  rewrite (W b6 16), (W b5 8), (W b4 0), (W b2 16), (W b1 8), (W b0 0) by (auto; lia). clear W.
  assert (W3 : wrap 32 (b3 * 2 ^ 24) = if b3 <? 128 then b3 * 2 ^ 24 else (b3 - 256) * 2 ^ 24).
  { unfold wrap. rewrite Z.mod_small by (cbn; lia). change (2 ^ (32 - 1)) with 2147483648. change (2 ^ 24) with 16777216. change (2 ^ 32) with 4294967296.
    destruct (Z.ltb_spec (b3 * 16777216) 2147483648), (Z.ltb_spec b3 128); lia. }
  rewrite W3. clear W3.
  set (s3 := if b3 <? 128 then b3 * 2 ^ 24 else (b3 - 256) * 2 ^ 24).
  set (T := b6 * 2 ^ 16 + b5 * 2 ^ 8 + b4 * 2 ^ 0 + s3 + b2 * 2 ^ 16 + b1 * 2 ^ 8 + b0 * 2 ^ 0).
  match goal with |- context [Ret (wrap 64 (if _ then - ?r else ?r))] => set (rr := r) end.
  assert (RT : exists q, rr = T + q * 2 ^ 64).
  { assert (Hm : forall x, exists q, x mod 2 ^ 64 = x + q * 2 ^ 64) by (intros x; exists (- (x / 2 ^ 64)); rewrite Z.mod_eq by lia; ring).
    unfold rr. destruct (Hm (0 + b6 * 2 ^ 16)) as [q1 ->].
    repeat match goal with |- context [?x mod 2 ^ 64] => lazymatch x with context [_ mod _] => fail | _ => let q := fresh "q" in destruct (Hm x) as [q ->] end end.
    exists (q1 + q + q0 + q2 + q3 + q4 + q5). unfold T. clear. ring. }
  destruct RT as [q RT]. rewrite RT. clearbody rr. clear rr RT.
  set (v := if z <? 0 then - (T + q * 2 ^ 64) else T + q * 2 ^ 64).
  assert (WV : wrap 64 v = z <-> exists h, (if z <? 0 then - T else T) = z + h * 2 ^ 64).
  { unfold wrap. assert (Hv : exists h', v = (if z <? 0 then - T else T) + h' * 2 ^ 64) by (unfold v; destruct (z <? 0); [exists (- q)|exists q]; ring).
    destruct Hv as [h' Hv]. clearbody v. pose proof (Z.div_mod v (2 ^ 64) ltac:(lia)) as DM. pose proof (Z.mod_pos_bound v (2 ^ 64) ltac:(lia)) as MB.
    change (2 ^ (64 - 1)) with (2 ^ 63). split.
    - destruct (Z.ltb_spec (v mod 2 ^ 64) (2 ^ 63)) as [L|L]; intros E; [exists (v / 2 ^ 64 - h')|exists (v / 2 ^ 64 + 1 - h')]; nia.
    - intros [h Hh]. rewrite Hh in Hv. assert (E : exists w, v mod 2 ^ 64 = z + w * 2 ^ 64) by (exists (h + h' - v / 2 ^ 64); lia). destruct E as [w Hw]. rewrite Hw in *.
      destruct (Z.ltb_spec (z + w * 2 ^ 64) (2 ^ 63)) as [L|L]; lia. }
  assert (RW : (Ret (wrap 64 v) = Ret z <-> wrap 64 v = z) ) by (split; [intros [= E]; auto|intros ->; auto]).
  rewrite RW, WV. clear RW WV v q. unfold T, s3. clear T s3.
  change (2 ^ 8) with 256 in *. change (2 ^ 16) with 65536 in *. change (2 ^ 24) with 16777216 in *. change (2 ^ 32) with 4294967296 in *. change (2 ^ 40) with 1099511627776 in *.
  change (2 ^ 48) with 281474976710656 in *. change (2 ^ 56) with 72057594037927936 in *. change (2 ^ 63) with 9223372036854775808 in *. change (2 ^ 64) with 18446744073709551616 in *. change (2 ^ 31) with 2147483648 in *. change (2 ^ 0) with 1 in *.
  split.
  - intros [h Hh]. destruct (Z.ltb_spec b3 128), (Z.ltb_spec z 0); lia.
  - intros HR. exists 0. destruct (Z.ltb_spec b3 128), (Z.ltb_spec z 0); lia.
Qed.
