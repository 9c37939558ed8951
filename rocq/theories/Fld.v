(** Fields of characteristic zero with decidable equality: the number domains in
    which the expressions manipulated by PURRS take their values (rationals, reals,
    complex numbers, ...).  A plain record, instantiated below by Q (canonical) and R. *)
From Coq Require Import ZArith QArith Qcanon Reals Field List Bool Lia.
Import ListNotations.

Record Fld : Type := MkFld {
  car :> Type;
  f0 : car; f1 : car;
  fadd : car -> car -> car; fmul : car -> car -> car; fsub : car -> car -> car;
  fopp : car -> car; fdiv : car -> car -> car; finv : car -> car;
  feqb : car -> car -> bool;
  fth : field_theory f0 f1 fadd fmul fsub fopp fdiv finv (@eq car);
  feqb_spec : forall x y, reflect (x = y) (feqb x y);
  (** characteristic zero *)
  fchar0 : forall n : nat, Nat.iter (S n) (fadd f1) f0 <> f0
}.

Declare Scope fld_scope.
Delimit Scope fld_scope with F.
Arguments f0 {_} : simpl never.
Arguments f1 {_} : simpl never.
Arguments fadd {_} _ _ : simpl never.
Arguments fmul {_} _ _ : simpl never.
Arguments fsub {_} _ _ : simpl never.
Arguments fopp {_} _ : simpl never.
Arguments fdiv {_} _ _ : simpl never.
Arguments finv {_} _ : simpl never.
Arguments feqb {_} _ _ : simpl never.
Notation "0" := f0 : fld_scope.
Notation "1" := f1 : fld_scope.
Infix "+" := fadd : fld_scope.
Infix "*" := fmul : fld_scope.
Infix "-" := fsub : fld_scope.
Notation "- x" := (fopp x) : fld_scope.
Infix "/" := fdiv : fld_scope.
Notation "/ x" := (finv x) : fld_scope.
Infix "=?" := feqb (at level 70) : fld_scope.

(** Embedding of the naturals and of the integers. *)
Definition ofn {K : Fld} (n : nat) : K := Nat.iter n (fadd f1) f0.
Definition ofz {K : Fld} (z : Z) : K :=
  match z with Z0 => f0 | Zpos p => ofn (Pos.to_nat p) | Zneg p => fopp (ofn (Pos.to_nat p)) end.

(** Powers with natural and with integer exponent. *)
Fixpoint fpow {K : Fld} (x : K) (n : nat) : K :=
  match n with O => f1 | S n => fmul x (fpow x n) end.
Definition zpow {K : Fld} (x : K) (z : Z) : K :=
  match z with
  | Z0 => f1 | Zpos p => fpow x (Pos.to_nat p) | Zneg p => finv (fpow x (Pos.to_nat p))
  end.
Infix "^" := fpow : fld_scope.

(** f 0 + f 1 + ... + f (n-1) and the corresponding product. *)
Fixpoint bsum {K : Fld} (n : nat) (f : nat -> K) : K :=
  match n with O => f0 | S n => fadd (bsum n f) (f n) end.
Fixpoint bprod {K : Fld} (n : nat) (f : nat -> K) : K :=
  match n with O => f1 | S n => fmul (bprod n f) (f n) end.

(** n! *)
Fixpoint ffact {K : Fld} (n : nat) : K :=
  match n with O => f1 | S m => fmul (ofn (S m)) (ffact m) end.

Section Lemmas.
Context {K : Fld}.
Add Field KF : (fth K).
Local Open Scope fld_scope.

Lemma feqb_eq (x y : K) : (x =? y) = true <-> x = y.
Proof. destruct (feqb_spec K x y); intuition congruence. Qed.
Lemma feqb_neq (x y : K) : (x =? y) = false <-> x <> y.
Proof. destruct (feqb_spec K x y); intuition congruence. Qed.
Lemma feqb_refl (x : K) : (x =? x) = true.
Proof. apply feqb_eq; auto. Qed.
Lemma feq_dec (x y : K) : {x = y} + {x <> y}.
Proof. destruct (feqb_spec K x y); auto. Qed.

Lemma one_neq_zero : (1 : K) <> 0.
Proof. exact (F_1_neq_0 (fth K)). Qed.

Lemma ofn_0 : ofn 0 = (0 : K). Proof. reflexivity. Qed.
Lemma ofn_1 : ofn 1 = (1 : K). Proof. cbn. ring. Qed.
Lemma ofn_S n : ofn (S n) = 1 + (ofn n : K). Proof. reflexivity. Qed.
Lemma ofn_S' n : ofn (S n) = (ofn n : K) + 1. Proof. rewrite ofn_S. ring. Qed.
Lemma ofn_add a b : ofn (a + b) = (ofn a : K) + ofn b.
Proof. induction a; cbn [Nat.add]; rewrite ?ofn_S, ?ofn_0; [ring|]. rewrite IHa. ring. Qed.
Lemma ofn_mul a b : ofn (a * b) = (ofn a : K) * ofn b.
Proof. induction a; cbn [Nat.mul]; rewrite ?ofn_S, ?ofn_0, ?ofn_add; [ring|]. rewrite IHa. ring. Qed.
Lemma ofn_sub a b : (b <= a)%nat -> ofn (a - b) = (ofn a : K) - ofn b.
Proof. intros H. assert (E : ofn (a - b + b) = (ofn a : K)) by (f_equal; lia). rewrite ofn_add in E. rewrite <- E. ring. Qed.
Lemma ofn_neq0 n : ofn (S n) <> (0 : K).
Proof. apply fchar0. Qed.
Lemma ofn_neq0' n : (n <> 0)%nat -> ofn n <> (0 : K).
Proof. destruct n; [lia|]. intros _. apply ofn_neq0. Qed.
Lemma ofn_inj a b : (ofn a : K) = ofn b -> a = b.
Proof.
  intros H. destruct (Nat.lt_trichotomy a b) as [L|[L|L]]; auto; exfalso.
  - apply (ofn_neq0' (b - a)); [lia|]. rewrite ofn_sub by lia. rewrite H. ring.
  - apply (ofn_neq0' (a - b)); [lia|]. rewrite ofn_sub by lia. rewrite H. ring.
Qed.
Lemma ofn_pow a n : ofn (Nat.pow a n) = (ofn a : K) ^ n.
Proof. induction n; cbn [Nat.pow fpow]; [apply ofn_1|]. rewrite ofn_mul, IHn. reflexivity. Qed.

Lemma mul_eq0 (a b : K) : a * b = 0 -> a = 0 \/ b = 0.
Proof.
  intros H. destruct (feq_dec a 0) as [|Ha]; auto. right.
  transitivity (/ a * (a * b)); [field; auto|]. rewrite H. ring.
Qed.
Lemma mul_neq0 (a b : K) : a <> 0 -> b <> 0 -> a * b <> 0.
Proof. intros Ha Hb H. apply mul_eq0 in H. tauto. Qed.
Lemma inv_neq0 (a : K) : a <> 0 -> / a <> 0.
Proof. intros Ha H. apply one_neq_zero. transitivity (a * / a); [field; auto|]. rewrite H. ring. Qed.
Lemma sub_eq0 (a b : K) : a - b = 0 -> a = b.
Proof. intros H. transitivity (a - b + b); [ring|]. rewrite H. ring. Qed.
Lemma sub_neq0 (a b : K) : a <> b -> a - b <> 0.
Proof. intros H E. apply H, sub_eq0, E. Qed.
Lemma mul_cancel_l (a b c : K) : a <> 0 -> a * b = a * c -> b = c.
Proof. intros Ha H. transitivity (/ a * (a * b)); [field; auto|]. rewrite H. field; auto. Qed.
Lemma opp_eq0 (a : K) : - a = 0 -> a = 0.
Proof. intros H. transitivity (- (- a)); [ring|]. rewrite H; ring. Qed.

Lemma fpow_S (x : K) n : x ^ S n = x * x ^ n. Proof. reflexivity. Qed.
Lemma fpow_0 (x : K) : x ^ 0%nat = 1. Proof. reflexivity. Qed.
Lemma fpow_add (x : K) a b : x ^ (a + b)%nat = x ^ a * x ^ b.
Proof. induction a; cbn [Nat.add fpow]; [ring|]. rewrite IHa. ring. Qed.
Lemma fpow_mul_l (x y : K) n : (x * y) ^ n = x ^ n * y ^ n.
Proof. induction n; cbn [fpow]; [ring|]. rewrite IHn. ring. Qed.
Lemma fpow_mul (x : K) a b : x ^ (a * b)%nat = (x ^ a) ^ b.
Proof.
  revert a. induction b; intros a; [rewrite Nat.mul_0_r; reflexivity|].
  rewrite Nat.mul_succ_r, fpow_add, IHb. cbn [fpow]. ring.
Qed.
Lemma fpow_neq0 (x : K) n : x <> 0 -> x ^ n <> 0.
Proof. intros Hx; induction n; cbn [fpow]; [apply one_neq_zero|]. apply mul_neq0; auto. Qed.
Lemma fpow_1l n : (1 : K) ^ n = 1.
Proof. induction n; cbn [fpow]; auto. rewrite IHn. ring. Qed.
Lemma fpow_inv (x : K) n : x <> 0 -> (/ x) ^ n = / (x ^ n).
Proof.
  intros Hx. induction n; cbn [fpow]; [field; apply one_neq_zero|].
  rewrite IHn. field. split; auto. apply fpow_neq0; auto.
Qed.
Lemma fpow_0l n : (n <> 0)%nat -> (0 : K) ^ n = 0.
Proof. destruct n; [lia|]. intros _. cbn [fpow]. ring. Qed.

Lemma zpow_ofnat (x : K) n : zpow x (Z.of_nat n) = x ^ n.
Proof. destruct n; [reflexivity|]. cbn [Z.of_nat zpow]. rewrite SuccNat2Pos.id_succ. reflexivity. Qed.
Lemma zpow_neg (x : K) z : x <> 0 -> zpow x (- z) = / zpow x z.
Proof.
  intros Hx. destruct z; cbn [Z.opp zpow]; auto.
  - field. apply one_neq_zero.
  - field. split; [apply fpow_neq0; auto|apply one_neq_zero].
Qed.
Lemma zpow_neq0 (x : K) z : x <> 0 -> zpow x z <> 0.
Proof.
  intros Hx. destruct z; cbn [zpow].
  - apply one_neq_zero.
  - apply fpow_neq0; auto.
  - apply inv_neq0, fpow_neq0; auto.
Qed.
Lemma zpow_sub_nat (x : K) a b : x <> 0 ->
  zpow x (Z.of_nat a - Z.of_nat b) = x ^ a / x ^ b.
Proof.
  intros Hx. destruct (Nat.le_gt_cases b a) as [L|L].
  - replace (Z.of_nat a - Z.of_nat b)%Z with (Z.of_nat (a - b)) by lia.
    rewrite zpow_ofnat. replace a with (a - b + b)%nat at 2 by lia.
    rewrite fpow_add. field. apply fpow_neq0; auto.
  - replace (Z.of_nat a - Z.of_nat b)%Z with (- Z.of_nat (b - a))%Z by lia.
    rewrite zpow_neg, zpow_ofnat by auto.
    replace b with (b - a + a)%nat at 2 by lia. rewrite fpow_add. field.
    split; apply fpow_neq0; auto.
Qed.
Lemma Z_as_sub (z : Z) : exists a b : nat, z = (Z.of_nat a - Z.of_nat b)%Z.
Proof. exists (Z.to_nat z), (Z.to_nat (- z)). lia. Qed.
Lemma zpow_add (x : K) a b : x <> 0 -> zpow x (a + b) = zpow x a * zpow x b.
Proof.
  intros Hx. destruct (Z_as_sub a) as (a1 & a2 & ->). destruct (Z_as_sub b) as (b1 & b2 & ->).
  replace (Z.of_nat a1 - Z.of_nat a2 + (Z.of_nat b1 - Z.of_nat b2))%Z
    with (Z.of_nat (a1 + b1) - Z.of_nat (a2 + b2))%Z by lia.
  rewrite !zpow_sub_nat by auto. rewrite !fpow_add. field. split; apply fpow_neq0; auto.
Qed.
Lemma zpow_succ (x : K) a : x <> 0 -> zpow x (a + 1) = zpow x a * x.
Proof. intros Hx. rewrite zpow_add by auto. f_equal. change (zpow x 1) with (x * 1). ring. Qed.
Lemma zpow_mul_l (x y : K) z : x <> 0 -> y <> 0 -> zpow (x * y) z = zpow x z * zpow y z.
Proof.
  intros Hx Hy. destruct z; cbn [zpow]; [ring|apply fpow_mul_l|].
  rewrite fpow_mul_l. field. split; apply fpow_neq0; auto.
Qed.

Lemma ofz_ofnat n : ofz (Z.of_nat n) = (ofn n : K).
Proof. destruct n; [reflexivity|]. cbn [Z.of_nat ofz]. rewrite SuccNat2Pos.id_succ. reflexivity. Qed.
Lemma ofz_sub_nat a b : ofz (Z.of_nat a - Z.of_nat b) = (ofn a : K) - ofn b.
Proof.
  destruct (Nat.le_gt_cases b a) as [L|L].
  - replace (Z.of_nat a - Z.of_nat b)%Z with (Z.of_nat (a - b)) by lia.
    rewrite ofz_ofnat. apply ofn_sub; auto.
  - replace (Z.of_nat a - Z.of_nat b)%Z with (- Z.of_nat (b - a))%Z by lia.
    assert (E : ofz (- Z.of_nat (b - a)) = - (ofz (Z.of_nat (b - a)) : K)).
    { destruct (Z.of_nat (b - a)); cbn; ring. }
    rewrite E, ofz_ofnat, ofn_sub by lia. ring.
Qed.
Lemma ofz_add a b : ofz (a + b) = (ofz a : K) + ofz b.
Proof.
  destruct (Z_as_sub a) as (a1 & a2 & ->). destruct (Z_as_sub b) as (b1 & b2 & ->).
  replace (Z.of_nat a1 - Z.of_nat a2 + (Z.of_nat b1 - Z.of_nat b2))%Z
    with (Z.of_nat (a1 + b1) - Z.of_nat (a2 + b2))%Z by lia.
  rewrite !ofz_sub_nat, !ofn_add. ring.
Qed.
Lemma ofz_mul a b : ofz (a * b) = (ofz a : K) * ofz b.
Proof.
  destruct (Z_as_sub a) as (a1 & a2 & ->). destruct (Z_as_sub b) as (b1 & b2 & ->).
  replace ((Z.of_nat a1 - Z.of_nat a2) * (Z.of_nat b1 - Z.of_nat b2))%Z
    with (Z.of_nat (a1 * b1 + a2 * b2) - Z.of_nat (a1 * b2 + a2 * b1))%Z by lia.
  rewrite !ofz_sub_nat, !ofn_add, !ofn_mul. ring.
Qed.
Lemma ofz_opp a : ofz (- a) = - (ofz a : K).
Proof. destruct a; cbn; ring. Qed.
Lemma ofz_sub a b : ofz (a - b) = (ofz a : K) - ofz b.
Proof. unfold Z.sub. rewrite ofz_add, ofz_opp. ring. Qed.
Lemma ofz_inj a b : (ofz a : K) = ofz b -> a = b.
Proof.
  destruct (Z_as_sub a) as (a1 & a2 & ->). destruct (Z_as_sub b) as (b1 & b2 & ->).
  rewrite !ofz_sub_nat. intros H.
  assert (E : ofn (a1 + b2) = (ofn (b1 + a2) : K)).
  { rewrite !ofn_add. transitivity ((ofn a1 - ofn a2) + (ofn a2 + ofn b2) : K); [ring|].
    rewrite H. ring. }
  apply ofn_inj in E. lia.
Qed.
Lemma ofz_0 : ofz 0 = (0 : K). Proof. reflexivity. Qed.
Lemma ofz_1 : ofz 1 = (1 : K). Proof. exact ofn_1. Qed.

Lemma bsum_S n (f : nat -> K) : bsum (S n) f = bsum n f + f n. Proof. reflexivity. Qed.
Lemma bsum_ext n (f g : nat -> K) : (forall i, (i < n)%nat -> f i = g i) -> bsum n f = bsum n g.
Proof. induction n; intros H; cbn [bsum]; auto. rewrite IHn, H; auto. Qed.
Lemma bsum_add n (f g : nat -> K) : bsum n (fun i => f i + g i) = bsum n f + bsum n g.
Proof. induction n; cbn [bsum]; [ring|]. rewrite IHn. ring. Qed.
Lemma bsum_sub n (f g : nat -> K) : bsum n (fun i => f i - g i) = bsum n f - bsum n g.
Proof. induction n; cbn [bsum]; [ring|]. rewrite IHn. ring. Qed.
Lemma bsum_opp n (f : nat -> K) : bsum n (fun i => - f i) = - bsum n f.
Proof. induction n; cbn [bsum]; [ring|]. rewrite IHn. ring. Qed.
Lemma bsum_scal n c (f : nat -> K) : bsum n (fun i => c * f i) = c * bsum n f.
Proof. induction n; cbn [bsum]; [ring|]. rewrite IHn. ring. Qed.
Lemma bsum_scal_r n c (f : nat -> K) : bsum n (fun i => f i * c) = bsum n f * c.
Proof. induction n; cbn [bsum]; [ring|]. rewrite IHn. ring. Qed.
Lemma bsum_zero n : bsum n (fun _ => 0 : K) = 0.
Proof. induction n; cbn [bsum]; [ring|]. rewrite IHn. ring. Qed.
Lemma bsum_0 n (f : nat -> K) : (forall i, (i < n)%nat -> f i = 0) -> bsum n f = 0.
Proof. intros H. rewrite <- (bsum_zero n). apply bsum_ext. auto. Qed.
Lemma bsum_first n (f : nat -> K) : bsum (S n) f = f 0%nat + bsum n (fun i => f (S i)).
Proof. induction n; [cbn; ring|]. rewrite bsum_S, IHn. cbn [bsum]. ring. Qed.
Lemma bsum_app a b (f : nat -> K) : bsum (a + b) f = bsum a f + bsum b (fun i => f (a + i)%nat).
Proof.
  induction b; [rewrite Nat.add_0_r; cbn; ring|].
  rewrite Nat.add_succ_r. cbn [bsum]. rewrite IHb. ring.
Qed.
Lemma bsum_swap a b (f : nat -> nat -> K) :
  bsum a (fun i => bsum b (fun j => f i j)) = bsum b (fun j => bsum a (fun i => f i j)).
Proof.
  induction a; cbn [bsum]; [rewrite bsum_zero; auto|].
  rewrite IHa, <- bsum_add. reflexivity.
Qed.
Lemma bsum_rev n (f : nat -> K) : bsum n f = bsum n (fun i => f (n - 1 - i)%nat).
Proof.
  induction n as [|n IH]; auto. rewrite bsum_S, bsum_first.
  replace (S n - 1 - 0)%nat with n by lia.
  rewrite (bsum_ext n (fun i => f (S n - 1 - S i)%nat) (fun i => f (n - 1 - i)%nat)).
  - rewrite <- IH. ring.
  - intros i Hi. f_equal. lia.
Qed.
Lemma bsum_single n j (f : nat -> K) : (j < n)%nat ->
  (forall i, (i < n)%nat -> i <> j -> f i = 0) -> bsum n f = f j.
Proof.
  revert j. induction n; intros j Hj H; [lia|]. rewrite bsum_S.
  destruct (Nat.eq_dec j n) as [->|].
  - rewrite bsum_0; [ring|]. intros; apply H; lia.
  - rewrite (IHn j), (H n); try lia; [ring|]. intros; apply H; lia.
Qed.

Lemma bprod_S n (f : nat -> K) : bprod (S n) f = bprod n f * f n. Proof. reflexivity. Qed.
Lemma bprod_ext n (f g : nat -> K) : (forall i, (i < n)%nat -> f i = g i) -> bprod n f = bprod n g.
Proof. induction n; intros H; cbn [bprod]; auto. rewrite IHn, H; auto. Qed.
Lemma bprod_neq0 n (f : nat -> K) : (forall i, (i < n)%nat -> f i <> 0) -> bprod n f <> 0.
Proof. induction n; intros H; cbn [bprod]; [apply one_neq_zero|]. apply mul_neq0; auto. Qed.
Lemma bprod_first n (f : nat -> K) : bprod (S n) f = f 0%nat * bprod n (fun i => f (S i)).
Proof. induction n; [cbn; ring|]. rewrite bprod_S, IHn. cbn [bprod]. ring. Qed.
Lemma bprod_mul n (f g : nat -> K) : bprod n (fun i => f i * g i) = bprod n f * bprod n g.
Proof. induction n; cbn [bprod]; [ring|]. rewrite IHn. ring. Qed.
Lemma bprod_const n c : bprod n (fun _ => c : K) = c ^ n.
Proof. induction n; cbn [bprod fpow]; auto. rewrite IHn. ring. Qed.
Lemma bprod_app a b (f : nat -> K) : bprod (a + b) f = bprod a f * bprod b (fun i => f (a + i)%nat).
Proof.
  induction b; [rewrite Nat.add_0_r; cbn; ring|].
  rewrite Nat.add_succ_r. cbn [bprod]. rewrite IHb. ring.
Qed.

Lemma ffact_neq0 n : ffact n <> (0 : K).
Proof. induction n; cbn [ffact]; [apply one_neq_zero|]. apply mul_neq0; auto. apply ofn_neq0. Qed.
Lemma ffact_S n : ffact (S n) = ofn (S n) * (ffact n : K). Proof. reflexivity. Qed.
End Lemmas.

(** * Instances (used in the non-vacuity examples and refutations) *)
Lemma iter_Qc n : Nat.iter n (Qcplus 1%Qc) 0%Qc = Q2Qc (inject_Z (Z.of_nat n)).
Proof.
  induction n; [reflexivity|]. cbn [Nat.iter nat_rect]. fold (Nat.iter n (Qcplus 1%Qc) 0%Qc).
  change (nat_rect (fun _ : nat => Qc) 0%Qc (fun _ : nat => Qcplus 1%Qc) n) with (Nat.iter n (Qcplus 1%Qc) 0%Qc).
  rewrite IHn. apply Qc_is_canon. cbn [this Q2Qc Qcplus]. rewrite !Qred_correct.
  rewrite Nat2Z.inj_succ, <- Z.add_1_l, inject_Z_plus. reflexivity.
Qed.

Lemma Qc_char0 : forall n : nat, Nat.iter (S n) (Qcplus 1%Qc) 0%Qc <> 0%Qc.
Proof.
  intros n. rewrite iter_Qc. intros H.
  apply (f_equal this) in H. cbn [this Q2Qc] in H.
  assert (E : (inject_Z (Z.of_nat (S n)) == 0)%Q).
  { rewrite <- Qred_correct. rewrite H. reflexivity. }
  unfold Qeq in E. cbn in E. lia.
Qed.

Definition Qc_eqb (x y : Qc) : bool := Qeq_bool x y.
Lemma Qc_eqb_spec (x y : Qc) : reflect (x = y) (Qc_eqb x y).
Proof.
  unfold Qc_eqb. destruct (Qeq_bool x y) eqn:E; constructor.
  - apply Qc_is_canon. apply Qeq_bool_iff. auto.
  - intros ->. rewrite (proj2 (Qeq_bool_iff y y)) in E; [discriminate|reflexivity].
Qed.

Definition QcF : Fld := MkFld Qc 0%Qc 1%Qc Qcplus Qcmult Qcminus Qcopp Qcdiv Qcinv
  Qc_eqb Qcft Qc_eqb_spec Qc_char0.

Definition R_eqb (x y : R) : bool := if Req_EM_T x y then true else false.
Lemma R_eqb_spec (x y : R) : reflect (x = y) (R_eqb x y).
Proof. unfold R_eqb. destruct (Req_EM_T x y); constructor; auto. Qed.
Lemma iter_R n : Nat.iter n (Rplus 1%R) 0%R = INR n.
Proof.
  induction n; [reflexivity|]. rewrite S_INR. rewrite <- IHn.
  change (Nat.iter (S n) (Rplus 1%R) 0%R) with (1 + Nat.iter n (Rplus 1%R) 0%R)%R.
  apply Rplus_comm.
Qed.
Lemma R_char0 : forall n : nat, Nat.iter (S n) (Rplus 1%R) 0%R <> 0%R.
Proof. intros n. rewrite iter_R. apply not_0_INR. discriminate. Qed.

Definition RF : Fld := MkFld R 0%R 1%R Rplus Rmult Rminus Ropp Rdiv Rinv
  R_eqb Rfield R_eqb_spec R_char0.

Lemma ofn_RF n : (ofn n : RF) = INR n.
Proof. apply iter_R. Qed.

(** Side conditions of [field]. *)
Ltac fside :=
  repeat match goal with |- _ /\ _ => split end;
  first [ assumption | apply one_neq_zero | apply ofn_neq0 | apply ffact_neq0
        | apply fpow_neq0; fside | apply zpow_neq0; fside | apply inv_neq0; fside
        | apply mul_neq0; fside | idtac ].
