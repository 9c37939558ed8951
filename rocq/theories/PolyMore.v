(** More on polynomials as coefficient lists: leading coefficients, equality of functions,
    substitution of a power, factorisation through distinct roots. *)
From Coq Require Import ZArith List Bool Lia Field Arith.
From Verif Require Import Fld FPoly.
Import ListNotations.
Section Poly.
Context {K : Fld}.
Add Field KFpm : (fth K).
Local Open Scope fld_scope.
Implicit Types (p q g : list K) (pts : list K) (a x : K).

Definition psub p q : list K := padd p (pscal (- (1)) q).
Lemma peval_psub p q x : peval (psub p q) x = peval p x - peval q x.
Proof. unfold psub. rewrite peval_padd, peval_pscal. ring. Qed.
Lemma nth_pscal c p i : nth i (pscal c p) 0 = c * nth i p 0.
Proof. unfold pscal. revert i. induction p as [|b p IH]; intros [|i]; cbn [map nth]; auto; ring. Qed.
Lemma peval_nth_ext p q : (forall i, nth i p 0 = nth i q 0) -> forall x, peval p x = peval q x.
Proof.
  intros H x. apply sub_eq0. rewrite <- peval_psub. apply peval_allzero, allzero_nth. intros i.
  unfold psub. rewrite nth_padd, nth_pscal, H. ring.
Qed.
Lemma nth_peval_ext p q : (forall x, peval p x = peval q x) -> forall i, nth i p 0 = nth i q 0.
Proof.
  intros H i. assert (A : allzero (psub p q)).
  { apply pevals_zero_allzero. intros x. rewrite peval_psub, H. ring. }
  apply sub_eq0. transitivity (nth i (psub p q) 0); [|apply allzero_nth'; auto].
  unfold psub. rewrite nth_padd, nth_pscal. ring.
Qed.

(** Normal form. *)
Definition normal p : Prop := p <> [] /\ last p 0 <> 0.
Lemma normal_trim p : normal p -> trim p = p.
Proof.
  intros [H1 H2]. induction p as [|c p IH]; [congruence|]. cbn [trim].
  destruct p as [|d p].
  - cbn [trim]. cbn in H2. destruct (feqb_spec _ c 0); congruence.
  - rewrite IH; auto. discriminate.
Qed.
Lemma normal_degree p : normal p -> pdegree p = pred (length p).
Proof. intros H. unfold pdegree. rewrite normal_trim; auto. Qed.
Lemma last_nth p : last p 0 = nth (pred (length p)) p 0.
Proof. induction p as [|c p IH]; auto. destruct p as [|d p]; auto. Qed.
Lemma last_quot p a : (2 <= length p)%nat -> last (quot p a) 0 = last p 0.
Proof.
  induction p as [|c p IH]; [cbn; lia|]. destruct p as [|d p]; [cbn; lia|]. intros _.
  change (quot (c :: d :: p) a) with (peval (d :: p) a :: quot (d :: p) a).
  destruct p as [|e p].
  - cbn [quot last peval]. ring.
  - assert (E : quot (d :: e :: p) a <> []) by (cbn; discriminate).
    change (last (c :: d :: e :: p) 0) with (last (d :: e :: p) 0). rewrite <- IH by (cbn; lia).
    destruct (quot (d :: e :: p) a) as [|u v]; [congruence|reflexivity].
Qed.
Lemma normal_quot p a : normal p -> (2 <= length p)%nat -> normal (quot p a).
Proof.
  intros [_ H] L. split.
  - intros E. pose proof (length_quot p a) as Q. rewrite E in Q. cbn [length] in Q. lia.
  - rewrite last_quot; auto.
Qed.
Lemma normal_not_zero p : normal p -> exists x, peval p x <> 0.
Proof.
  intros [H1 H2].
  assert (D : forall l : list K, (forall y, In y l -> peval p y = 0) \/ exists y, peval p y <> 0).
  { induction l as [|y l IH]; [left; intros y []|]. destruct IH as [IH|]; auto.
    destruct (feq_dec (peval p y) 0); [left|right; eauto]. intros u [<-|I]; auto. }
  destruct (D (npts (length p))) as [A|]; auto. exfalso.
  assert (Z : allzero p) by (apply (too_many_roots (npts (length p))); auto using npts_NoDup; rewrite npts_length; auto).
  apply H2. rewrite last_nth. apply allzero_nth'; auto.
Qed.

(** A polynomial of degree k with k distinct roots is the product of the linear factors. *)
Definition lin_prod pts x : K := fold_right (fun a acc => (x - a) * acc) 1 pts.
Lemma distinct_roots_product pts : forall p, NoDup pts -> length p = S (length pts) -> (forall a, In a pts -> peval p a = 0) ->
  forall x, peval p x = last p 0 * lin_prod pts x.
Proof.
  induction pts as [|a pts IH]; intros p ND L Z x.
  - destruct p as [|c [|d p]]; cbn in L; try lia. cbn. ring.
  - inversion ND; subst. cbn [length] in L.
    assert (R : peval p a = 0) by (apply Z; left; auto).
    rewrite (quot_spec p a x), R, (IH (quot p a)); auto.
    + rewrite last_quot by lia. cbn [lin_prod fold_right]. fold (lin_prod pts x). ring.
    + rewrite length_quot. lia.
    + intros b Hb. assert (Hab : b <> a) by (intros ->; auto).
      pose proof (quot_spec p a b) as Q. rewrite (Z b), R in Q by (cbn; auto).
      assert (E : (b - a) * peval (quot p a) b = 0) by (transitivity ((b - a) * peval (quot p a) b + 0); [ring|symmetry; exact Q]).
      apply mul_eq0 in E. destruct E as [E|E]; auto. exfalso; apply Hab, sub_eq0, E.
Qed.

(** q(x^n). *)
Fixpoint spread (n : nat) q : list K :=
  match q with [] => [] | c :: q => (c :: repeat 0 (n - 1)) ++ spread n q end.
Lemma peval_zeros n x : peval (repeat 0 n) x = 0.
Proof. induction n; cbn [repeat peval]; [reflexivity|]. rewrite IHn. ring. Qed.
Lemma peval_spread n q x : (0 < n)%nat -> peval (spread n q) x = peval q (x ^ n).
Proof.
  intros Hn. induction q as [|c q IH]; [reflexivity|]. cbn [spread]. rewrite peval_app, IH. cbn [length peval].
  rewrite repeat_length, peval_zeros. replace (S (n - 1)) with n by lia. ring.
Qed.
Lemma nth_zeros n i : nth i (repeat 0 n) 0 = (0 : K).
Proof. revert i. induction n; intros [|i]; cbn; auto. Qed.
Lemma nth_spread n q i : (0 < n)%nat -> nth i (spread n q) 0 = if Nat.eqb (i mod n) 0 then nth (i / n) q 0 else 0.
Proof.
  intros Hn. revert i. induction q as [|c q IH]; intros i; cbn [spread].
  - rewrite !nth_nil. destruct (Nat.eqb _ _); reflexivity.
  - destruct (Nat.ltb_spec i n) as [L|L].
    + rewrite app_nth1 by (cbn [length]; rewrite repeat_length; lia).
      rewrite Nat.mod_small, Nat.div_small by lia. destruct i as [|i]; [reflexivity|]. cbn [nth Nat.eqb]. apply nth_zeros.
    + rewrite app_nth2 by (cbn [length]; rewrite repeat_length; lia).
      cbn [length]. rewrite repeat_length. replace (S (n - 1)) with n by lia. rewrite IH.
      assert (E : i = ((i - n) + 1 * n)%nat) by lia. set (k := (i - n)%nat) in *. clearbody k. subst i.
      rewrite Nat.mod_add, Nat.div_add by lia. rewrite Nat.add_1_r. reflexivity.
Qed.

(** The roots of unity. *)
Lemma lin_prod_unity (w : nat -> K) n (a x : K) : (0 < n)%nat -> a <> 0 -> (forall j, w j = w 1%nat ^ j) -> w 1%nat ^ n = 1 ->
  (forall j, (0 < j < n)%nat -> w j <> 1) -> lin_prod (map (fun j => a * w j) (seq 0 n)) x = x ^ n - a ^ n.
Proof.
  intros Hn Ha W1 W2 W3.
  assert (W0 : w 1%nat <> 0).
  { intros E. rewrite E, fpow_0l in W2 by lia. symmetry in W2. revert W2. apply one_neq_zero. }
  set (p := - (a ^ n) :: repeat 0 (n - 1) ++ [1]).
  assert (P : forall y, peval p y = y ^ n - a ^ n).
  { intros y. unfold p. cbn [peval]. rewrite peval_app, peval_zeros, repeat_length. cbn [peval].
    assert (E : y ^ n = y * y ^ (n - 1)%nat) by (rewrite <- fpow_S; f_equal; lia). rewrite E. ring. }
  assert (INJ : forall i j, (i < j < n)%nat -> w i <> w j).
  { intros i j Hij E. apply (W3 (j - i)%nat); [lia|]. rewrite (W1 i), (W1 j) in E. rewrite (W1 (j - i)%nat).
    replace j with (i + (j - i))%nat in E by lia. rewrite fpow_add in E.
    apply (mul_cancel_l (w 1%nat ^ i)); [apply fpow_neq0; auto|]. rewrite <- E. ring. }
  assert (ND : NoDup (map (fun j => a * w j) (seq 0 n))).
  { rewrite <- (map_map w (fun v => a * v)).
    apply FinFun.Injective_map_NoDup; [intros u v E; apply mul_cancel_l in E; auto|].
    apply NoDup_nth with (d := w 0%nat). rewrite map_length, seq_length. intros i j Hi Hj E.
    rewrite !map_nth, !seq_nth in E by lia. cbn [Nat.add] in E.
    destruct (Nat.lt_trichotomy i j) as [L|[L|L]]; auto; [destruct (INJ i j)|destruct (INJ j i)]; auto; lia. }
  rewrite <- P. rewrite (distinct_roots_product (map (fun j => a * w j) (seq 0 n)) p); auto.
  - assert (LP : last p 0 = 1) by (unfold p; rewrite app_comm_cons, last_last; reflexivity). rewrite LP. ring.
  - unfold p. cbn [length]. rewrite app_length, map_length, seq_length, repeat_length. cbn [length]. lia.
  - intros b Hb. apply in_map_iff in Hb. destruct Hb as (j & <- & Hj). rewrite P.
    rewrite fpow_mul_l, W1, <- fpow_mul, Nat.mul_comm, fpow_mul, W2, fpow_1l. ring.
Qed.
Lemma lin_prod_unity0 (w : nat -> K) n x : lin_prod (map (fun j => 0 * w j) (seq 0 n)) x = x ^ n.
Proof.
  generalize 0%nat. induction n as [|n IH]; intros s; [reflexivity|]. cbn [seq map lin_prod fold_right fpow].
  fold (lin_prod (map (fun j => 0 * w j) (seq (S s) n)) x). rewrite IH. ring.
Qed.
End Poly.
