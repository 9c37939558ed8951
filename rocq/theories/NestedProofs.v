(** Proofs for is_nested_polynomial. *)
From Coq Require Import ZArith QArith Qcanon List Bool Lia Arith.
From Verif Require Import Ast Fld FPoly PolyMore FindRootModel.
Import ListNotations.
Local Open Scope list_scope.
Local Open Scope nat_scope.

Lemma qzero_spec q : reflect (q = 0%Qc) (qzero q).
Proof. exact (Qc_eqb_spec q 0%Qc). Qed.
Lemma coeff_trim (p : poly) i : coeff (trim (K:=QcF) p) i = coeff p i.
Proof. exact (trim_nth (K:=QcF) p i). Qed.
Lemma degree_lead (p : poly) : 0 < degree p -> coeff p (degree p) <> 0%Qc.
Proof.
  intros H E. unfold degree, pdegree in H.
  assert (N : trim (K:=QcF) p <> []) by (intros X; rewrite X in H; cbn in H; lia).
  apply (trim_last (K:=QcF) p N). rewrite (last_nth (K:=QcF)). rewrite <- coeff_trim in E. exact E.
Qed.
Lemma coeff_above (p : poly) i : degree p < i -> coeff p i = 0%Qc.
Proof.
  intros H. rewrite <- coeff_trim. apply nth_overflow. unfold degree, pdegree in H. lia.
Qed.
Lemma first_nonzero_spec (p : poly) fuel i d : i <= d < i + fuel -> coeff p d <> 0%Qc ->
  let r := first_nonzero fuel p i in i <= r <= d /\ coeff p r <> 0%Qc /\ forall k, i <= k < r -> coeff p k = 0%Qc.
Proof.
  revert i. induction fuel as [|fuel IH]; intros i H N; [lia|]. cbn [first_nonzero]. destruct (qzero_spec (coeff p i)) as [E|E].
  - assert (i <> d) by (intros ->; auto). destruct (IH (S i)) as (A & B & C); auto; [lia|].
    split; [lia|]. split; auto. intros k Hk. destruct (Nat.eq_dec k i) as [->|]; auto. apply C. lia.
  - split; [lia|]. split; auto. intros k Hk. lia.
Qed.
Lemma gcd_loop_spec (p : poly) cnt : forall j n, 0 < n ->
  let r := gcd_loop cnt j p n in 0 < r /\ Nat.divide r n /\ (forall k, j <= k < j + cnt -> coeff p k <> 0%Qc -> Nat.divide r k) /\
  forall m, Nat.divide m n -> (forall k, j <= k < j + cnt -> coeff p k <> 0%Qc -> Nat.divide m k) -> Nat.divide m r.
Proof.
  induction cnt as [|cnt IH]; intros j n Hn; cbn [gcd_loop].
  - split; auto. split; [exists 1; lia|]. split; [intros k Hk; lia|auto].
  - destruct (Nat.ltb_spec 1 n) as [L|L].
    + set (n' := if qzero (coeff p j) then n else Nat.gcd n j).
      assert (N' : 0 < n').
      { unfold n'. destruct (qzero (coeff p j)); auto. destruct (Nat.eq_dec (Nat.gcd n j) 0) as [E|]; [|lia]. apply Nat.gcd_eq_0_l in E. lia. }
      destruct (IH (S j) n' N') as (A & B & C & D). split; auto.
      assert (Bn : Nat.divide (gcd_loop cnt (S j) p n') n).
      { unfold n' in B |- *. destruct (qzero (coeff p j)); auto. eapply Nat.divide_trans; [exact B|apply Nat.gcd_divide_l]. }
      split; auto. split.
      * intros k Hk Nk. destruct (Nat.eq_dec k j) as [->|]; [|apply C; auto; lia].
        unfold n' in B |- *. destruct (qzero_spec (coeff p j)); [congruence|]. eapply Nat.divide_trans; [exact B|apply Nat.gcd_divide_r].
      * intros m Hm Hk. apply D.
        -- unfold n'. destruct (qzero_spec (coeff p j)); auto. apply Nat.gcd_greatest; auto. apply Hk; auto; lia.
        -- intros k Hk' Nk. apply Hk; auto; lia.
    + assert (n = 1) by lia. subst n. split; auto. split; [exists 1; lia|]. split; [intros; apply Nat.divide_1_l|auto].
Qed.
Lemma nth_map_seq (f : nat -> Qc) n i s : i < n -> nth i (map f (seq s n)) 0%Qc = f (s + i).
Proof. intros H. rewrite (nth_indep _ _ (f 0)) by (rewrite map_length, seq_length; auto). rewrite map_nth, seq_nth; auto. Qed.

Lemma nested_ok (p : poly) : 0 < degree p -> let '(n, q) := is_nested_polynomial p in
  0 < n /\ (forall i, coeff p i = nth i (spread (K:=QcF) n q) 0%Qc) /\
  forall m, 0 < m -> (forall i, coeff p i <> 0%Qc -> Nat.divide m i) -> Nat.divide m n.
Proof.
  intros Hd. unfold is_nested_polynomial. destruct (Nat.eqb_spec (degree p) 0) as [Hz|Hz]; [lia|].
  assert (ONE : 0 < 1 /\ (forall i, coeff p i = nth i (spread (K:=QcF) 1 p) 0%Qc)).
  { split; auto. intros i. change (nth i (spread (K:=QcF) 1 p) 0%Qc) with (nth i (spread (K:=QcF) 1 p) f0). rewrite nth_spread by auto.
    rewrite Nat.mod_1_r, Nat.div_1_r. reflexivity. }
  destruct (qzero_spec (coeff p 1)) as [E1|N1]; cbn [negb].
  2: { split; [apply ONE|]. split; [apply ONE|]. intros m Hm Hk. apply Hk. auto. }
  assert (D2 : 2 <= degree p).
  { destruct (Nat.eq_dec (degree p) 1) as [E|]; [|lia]. exfalso. apply (degree_lead p Hd). rewrite E. auto. }
  pose proof (first_nonzero_spec p (degree p) 2 (degree p) ltac:(lia) (degree_lead p Hd)) as (A & B & C).
  set (i0 := first_nonzero (degree p) p 2) in *. clearbody i0.
  destruct (gcd_loop_spec p (degree p - i0) (i0 + 1) i0 ltac:(lia)) as (G1 & G2 & G3 & G4).
  set (n := gcd_loop (degree p - i0) (i0 + 1) p i0) in *. clearbody n.
  assert (DIV : forall i, coeff p i <> 0%Qc -> Nat.divide n i).
  { intros i Hi. destruct (Nat.eq_dec i 0) as [->|]; [exists 0; reflexivity|].
    destruct (Nat.eq_dec i 1) as [->|]; [congruence|]. destruct (Nat.lt_ge_cases i i0) as [L|L]; [exfalso; apply Hi, C; lia|].
    destruct (Nat.eq_dec i i0) as [->|]; auto. apply G3; auto.
    destruct (Nat.le_gt_cases i (degree p)); [lia|]. exfalso. apply Hi, coeff_above. auto. }
  assert (MAX : forall m, 0 < m -> (forall i, coeff p i <> 0%Qc -> Nat.divide m i) -> Nat.divide m n).
  { intros m Hm Hk. apply G4; auto. }
  destruct (Nat.ltb_spec 1 n) as [L|L].
  - split; auto. split; auto. intros i.
    change (nth i (spread (K:=QcF) n ?q) 0%Qc) with (nth i (spread (K:=QcF) n q) f0).
    match goal with |- _ = nth i (spread n ?q) _ => set (q' := q); change (coeff p i = nth i (spread (K:=QcF) n q') f0) end.
    rewrite nth_spread by auto.
    assert (Q : forall j, nth j q' (@f0 QcF) = if Nat.leb j (degree p / n) then coeff p (n * j) else 0%Qc).
    { intros j. unfold q'. destruct j as [|j]; [cbn [nth]; rewrite Nat.mul_0_r; reflexivity|]. cbn [nth].
      destruct (Nat.leb_spec (S j) (degree p / n)) as [Lj|Lj].
      - etransitivity; [apply (nth_map_seq (fun j => coeff p (n * j))); lia|]. reflexivity.
      - apply nth_overflow. rewrite map_length, seq_length. lia. }
    destruct (Nat.eqb_spec (i mod n) 0) as [Em|Em].
    + rewrite Q. apply Nat.mod_divides in Em; [|lia]. destruct Em as [k ->]. rewrite Nat.mul_comm, Nat.div_mul by lia.
      destruct (Nat.leb_spec k (degree p / n)) as [Lk|Lk]; [rewrite Nat.mul_comm; reflexivity|].
      apply coeff_above. apply (Nat.div_lt_upper_bound (degree p) n k) in Lk || idtac.
      destruct (Nat.le_gt_cases (k * n) (degree p)) as [X|X]; auto. exfalso.
      assert (k <= degree p / n) by (apply Nat.div_le_lower_bound; lia). lia.
    + destruct (qzero_spec (coeff p i)) as [Z|Z]; auto. exfalso. apply Em. apply Nat.mod_divide; [lia|]. apply DIV; auto.
  - assert (n = 1) by lia. subst n. split; [apply ONE|]. split; [apply ONE|]. auto.
Qed.

(** The form used in the statements. *)
Lemma nested_polynomial (p : poly) : 0 < degree p -> let '(n, q) := is_nested_polynomial p in
  0 < n /\ (forall x : QcF, peval p x = peval q (fpow x n)) /\
  forall m (q' : poly), 0 < m -> (forall x : QcF, peval p x = peval q' (fpow x m)) -> Nat.divide m n.
Proof.
  intros H. pose proof (nested_ok p H) as N. destruct (is_nested_polynomial p) as [n q]. destruct N as (A & B & C).
  split; auto. split.
  - intros x. rewrite <- peval_spread by auto. apply peval_nth_ext. exact B.
  - intros m q' Hm E. apply C; auto. intros i Hi.
    assert (X : nth i p (@f0 QcF) = nth i (spread m q') f0).
    { apply nth_peval_ext. intros x. rewrite peval_spread by auto. apply E. }
    rewrite nth_spread in X by auto. destruct (Nat.eqb_spec (i mod m) 0) as [Em|Em].
    + apply Nat.mod_divide; [lia|auto].
    + exfalso. apply Hi. exact X.
Qed.
Lemma nested_constant (p : poly) : degree p = 0 -> is_nested_polynomial p = (0, p).
Proof. intros H. unfold is_nested_polynomial. rewrite H. reflexivity. Qed.
