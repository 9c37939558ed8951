(** Polynomials over a field as coefficient lists, lowest degree first. *)
From Coq Require Import ZArith List Bool Lia Field FinFun.
From Verif Require Import Fld.
Import ListNotations.

Section Poly.
Context {K : Fld}.
Add Field KFp : (fth K).
Local Open Scope fld_scope.

(** Value of the polynomial [p] at [x]. *)
Fixpoint peval (p : list K) (x : K) : K :=
  match p with [] => 0 | c :: p => c + x * peval p x end.

Fixpoint padd (p q : list K) : list K :=
  match p, q with
  | [], q => q
  | p, [] => p
  | a :: p, b :: q => (a + b) :: padd p q
  end.
Definition pscal (c : K) (p : list K) : list K := map (fmul c) p.
Fixpoint pmul (p q : list K) : list K :=
  match p with [] => [] | a :: p => padd (pscal a q) (0 :: pmul p q) end.

Definition allzero (p : list K) : Prop := Forall (fun c => c = 0) p.

(** Remove the trailing zero coefficients. *)
Fixpoint trim (p : list K) : list K :=
  match p with
  | [] => []
  | c :: p => match trim p with
              | [] => if c =? 0 then [] else [c]
              | t => c :: t
              end
  end.
(** Degree as GiNaC's [degree]: 0 for the zero polynomial. *)
Definition pdegree (p : list K) : nat := pred (length (trim p)).

Lemma peval_padd p q x : peval (padd p q) x = peval p x + peval q x.
Proof.
  revert q. induction p as [|a p IH]; intros [|b q]; cbn [padd peval]; try ring.
  rewrite IH. ring.
Qed.
Lemma peval_pscal c p x : peval (pscal c p) x = c * peval p x.
Proof. induction p as [|a p IH]; cbn [pscal map peval]; [ring|]. unfold pscal in IH. rewrite IH. ring. Qed.
Lemma peval_pmul p q x : peval (pmul p q) x = peval p x * peval q x.
Proof.
  induction p as [|a p IH]; cbn [pmul peval]; [ring|].
  rewrite peval_padd, peval_pscal. cbn [peval]. rewrite IH. ring.
Qed.
Lemma length_padd p q : length (padd p q) = Nat.max (length p) (length q).
Proof. revert q. induction p as [|a p IH]; intros [|b q]; cbn; auto. Qed.
Lemma length_pscal c p : length (pscal c p) = length p.
Proof. apply map_length. Qed.
Lemma length_pmul p q : p <> [] -> q <> [] -> length (pmul p q) = (length p + length q - 1)%nat.
Proof.
  intros Hp Hq. assert (1 <= length q)%nat by (destruct q; [congruence|cbn; lia]).
  induction p as [|a p IH]; [congruence|]. cbn [pmul].
  rewrite length_padd, length_pscal. cbn [length].
  destruct p as [|b p]; [cbn; lia|]. specialize (IH ltac:(discriminate)). cbn [length] in *. lia.
Qed.

Lemma peval_allzero p x : allzero p -> peval p x = 0.
Proof. induction 1; cbn [peval]; auto. subst. rewrite IHForall. ring. Qed.
Lemma peval_trim p x : peval (trim p) x = peval p x.
Proof.
  induction p as [|c p IH]; auto. cbn [trim peval].
  destruct (trim p) as [|t l] eqn:E.
  - cbn [peval] in IH. rewrite <- IH. destruct (feqb_spec K c 0); subst; cbn [peval]; ring.
  - change (peval (c :: t :: l) x) with (c + x * peval (t :: l) x). rewrite IH. reflexivity.
Qed.
Lemma length_trim p : length (trim p) <= length p.
Proof.
  induction p as [|c p IH]; auto. cbn [trim length]. destruct (trim p) as [|t l]; cbn [length] in *.
  - destruct (c =? 0); cbn; lia.
  - lia.
Qed.
Lemma trim_nil_allzero p : trim p = [] <-> allzero p.
Proof.
  induction p as [|c p IH]; cbn [trim]; [split; [constructor|auto]|].
  destruct (trim p) as [|t l] eqn:E.
  - destruct (feqb_spec K c 0).
    + split; auto. intros _. constructor; auto. apply IH; auto.
    + split; [discriminate|]. intros H; inversion H; congruence.
  - split; [discriminate|]. intros H. inversion H; subst. apply IH in H3. discriminate.
Qed.
Lemma nth_nil i : nth i (@nil K) 0 = 0.
Proof. destruct i; reflexivity. Qed.
Lemma trim_nth p i : nth i (trim p) 0 = nth i p 0.
Proof.
  revert i; induction p as [|c p IH]; intros i; auto. cbn [trim].
  destruct (trim p) as [|t l] eqn:E.
  - destruct (feqb_spec K c 0) as [->|].
    + destruct i; cbn [nth]; auto. rewrite <- IH. rewrite nth_nil. reflexivity.
    + destruct i; [reflexivity|]. change (nth i (@nil K) 0 = nth i p 0). apply IH.
  - destruct i; [reflexivity|]. change (nth i (t :: l) 0 = nth i p 0). apply IH.
Qed.
Lemma trim_idem p : trim (trim p) = trim p.
Proof.
  induction p as [|c p IH]; auto. cbn [trim].
  destruct (trim p) as [|t l] eqn:E.
  - destruct (feqb_spec K c 0); auto. cbn. apply feqb_neq in n. rewrite n. reflexivity.
  - cbn [trim] in *. rewrite IH. reflexivity.
Qed.
Lemma trim_last p : trim p <> [] -> last (trim p) 0 <> 0.
Proof.
  induction p as [|c p IH]; cbn [trim]; [congruence|].
  destruct (trim p) as [|t l] eqn:E.
  - destruct (feqb_spec K c 0); [congruence|]. auto.
  - intros _. change (last (c :: t :: l) 0) with (last (t :: l) 0). apply IH. discriminate.
Qed.
Lemma peval_0 p : peval p 0 = nth 0 p 0.
Proof. destruct p; cbn [peval nth]; ring. Qed.

(** * Division by (x - a) *)
Fixpoint quot (p : list K) (a : K) : list K :=
  match p with
  | [] => []
  | c :: p' => match p' with [] => [] | _ => peval p' a :: quot p' a end
  end.
Lemma quot_spec p a x : peval p x = (x - a) * peval (quot p a) x + peval p a.
Proof.
  induction p as [|c p IH]; [cbn; ring|].
  destruct p as [|d p]; [cbn [quot peval]; ring|].
  change (quot (c :: d :: p) a) with (peval (d :: p) a :: quot (d :: p) a).
  change (peval (c :: d :: p) x) with (c + x * peval (d :: p) x).
  change (peval (c :: d :: p) a) with (c + a * peval (d :: p) a).
  rewrite IH. set (q := quot (d :: p) a). set (r := peval (d :: p) a). cbn [peval]. ring.
Qed.
Lemma length_quot p a : length (quot p a) = pred (length p).
Proof.
  induction p as [|c p IH]; auto. destruct p as [|d p]; auto.
  change (quot (c :: d :: p) a) with (peval (d :: p) a :: quot (d :: p) a).
  cbn [length] in *. rewrite IH. reflexivity.
Qed.
Lemma quot_allzero p a : allzero (quot p a) -> peval p a = 0 -> allzero p.
Proof.
  induction p as [|c p IH]; intros H E; [constructor|].
  destruct p as [|d p].
  - cbn in E. constructor; [|constructor]. rewrite <- E. ring.
  - change (quot (c :: d :: p) a) with (peval (d :: p) a :: quot (d :: p) a) in H.
    apply Forall_cons_iff in H. destruct H as [H2 H3].
    change (peval (c :: d :: p) a) with (c + a * peval (d :: p) a) in E.
    rewrite H2 in E. constructor; [|apply IH; auto].
    rewrite <- E. ring.
Qed.

(** A polynomial with fewer coefficients than roots is zero. *)
Theorem too_many_roots : forall pts p, NoDup pts -> length p <= length pts ->
  (forall a, In a pts -> peval p a = 0) -> allzero p.
Proof.
  induction pts as [|a pts IH]; intros p Hnd Hl Hz.
  - destruct p; [constructor|cbn in Hl; lia].
  - inversion Hnd; subst. apply (quot_allzero p a); [|apply Hz; left; auto].
    apply IH; auto.
    + rewrite length_quot. cbn in Hl. lia.
    + intros b Hb. assert (Hab : b <> a) by (intros ->; auto).
      pose proof (quot_spec p a b) as Q.
      rewrite (Hz b), (Hz a) in Q by (cbn; auto).
      assert (E : (b - a) * peval (quot p a) b = 0) by (transitivity ((b - a) * peval (quot p a) b + 0); [ring|symmetry; exact Q]).
      apply mul_eq0 in E. destruct E as [E|E]; auto. exfalso; apply Hab, sub_eq0, E.
Qed.

Definition npts (n : nat) : list K := map ofn (seq 0 n).
Lemma npts_NoDup n : NoDup (npts n).
Proof.
  unfold npts. apply FinFun.Injective_map_NoDup; [|apply seq_NoDup].
  intros a b; apply ofn_inj.
Qed.
Lemma npts_length n : length (npts n) = n.
Proof. unfold npts. rewrite map_length, seq_length. reflexivity. Qed.

(** Polynomials that agree at all naturals are equal everywhere. *)
Lemma peval_ext_nat p q : (forall n, peval p (ofn n) = peval q (ofn n)) ->
  forall x, peval p x = peval q x.
Proof.
  intros H x.
  set (d := padd p (pscal (- (1)) q)).
  assert (A : allzero d).
  { apply (too_many_roots (npts (length d))); [apply npts_NoDup|rewrite npts_length; auto|].
    intros a Ha. unfold npts in Ha. apply in_map_iff in Ha. destruct Ha as (n & <- & _).
    unfold d. rewrite peval_padd, peval_pscal, H. ring. }
  apply sub_eq0. transitivity (peval d x); [unfold d; rewrite peval_padd, peval_pscal; ring|].
  apply peval_allzero; auto.
Qed.

Lemma peval_app p q x : peval (p ++ q) x = peval p x + x ^ length p * peval q x.
Proof. induction p as [|c p IH]; cbn [app peval length fpow]; [ring|]. rewrite IH. ring. Qed.

Lemma peval_bsum p x : peval p x = bsum (length p) (fun i => nth i p 0 * x ^ i).
Proof.
  induction p as [|c p IH]; auto. cbn [length]. rewrite bsum_first. cbn [peval nth fpow].
  rewrite IH, <- bsum_scal. rewrite (bsum_ext (length p) (fun i => x * (nth i p 0 * x ^ i)) (fun i => nth i p 0 * (x * x ^ i))).
  - ring.
  - intros; ring.
Qed.

(** * Derivative and translation *)
(** Coefficients of the derivative. *)
Fixpoint pderiv (p : list K) : list K :=
  match p with [] => [] | _ :: p => padd p (0 :: pderiv p) end.
Definition pd (p : list K) (x : K) : K := peval (pderiv p) x.

Lemma pd_cons c p x : pd (c :: p) x = peval p x + x * pd p x.
Proof. unfold pd. cbn [pderiv]. rewrite peval_padd. cbn [peval]. ring. Qed.
Lemma pd_nil x : pd [] x = 0. Proof. reflexivity. Qed.
Lemma pd_padd p q x : pd (padd p q) x = pd p x + pd q x.
Proof.
  revert q. induction p as [|a p IH]; intros [|b q]; cbn [padd]; rewrite ?pd_nil; try ring.
  rewrite !pd_cons, peval_padd, IH. ring.
Qed.
Lemma pd_pscal c p x : pd (pscal c p) x = c * pd p x.
Proof.
  induction p as [|a p IH]; [cbn; rewrite ?pd_nil; ring|].
  change (pscal c (a :: p)) with (c * a :: pscal c p). rewrite !pd_cons, peval_pscal, IH. ring.
Qed.
Lemma pd_pmul p q x : pd (pmul p q) x = pd p x * peval q x + peval p x * pd q x.
Proof.
  induction p as [|a p IH]; cbn [pmul]; [rewrite !pd_nil; cbn; ring|].
  rewrite pd_padd, pd_pscal, !pd_cons, IH, peval_pmul. cbn [peval]. ring.
Qed.
(** p(x - 1) *)
Fixpoint pshift (p : list K) : list K :=
  match p with [] => [] | c :: p => padd [c] (pmul [- (1); 1] (pshift p)) end.
Lemma peval_pshift p x : peval (pshift p) x = peval p (x - 1).
Proof.
  induction p as [|c p IH]; auto. cbn [pshift]. rewrite peval_padd, peval_pmul, IH. cbn [peval]. ring.
Qed.
Lemma pd_pshift p x : pd (pshift p) x = pd p (x - 1).
Proof.
  induction p as [|c p IH]; auto. cbn [pshift]. rewrite pd_padd, pd_pmul, IH, peval_pshift.
  rewrite !pd_cons, !pd_nil. cbn [peval]. ring.
Qed.
Lemma nth_padd p q i : nth i (padd p q) 0 = nth i p 0 + nth i q 0.
Proof.
  revert q i. induction p as [|a p IH]; intros [|b q] [|i]; cbn [padd nth]; try ring.
  apply IH.
Qed.
Lemma nth_pderiv p i : nth i (pderiv p) 0 = ofn (S i) * nth (S i) p 0.
Proof.
  revert i. induction p as [|c p IH]; intros i; cbn [pderiv]; [rewrite !nth_nil; ring|].
  rewrite nth_padd. destruct i as [|i]; cbn [nth].
  - rewrite ofn_1. ring.
  - rewrite IH, (ofn_S (S i)). ring.
Qed.
Lemma allzero_nth p : (forall i, nth i p 0 = 0) -> allzero p.
Proof.
  induction p as [|c p IH]; intros H; constructor.
  - apply (H 0%nat).
  - apply IH. intros i. apply (H (S i)).
Qed.
Lemma allzero_nth' p i : allzero p -> nth i p 0 = 0.
Proof. intros H; revert i; induction H; intros [|i]; cbn; auto. Qed.
Lemma pevals_zero_allzero p : (forall x, peval p x = 0) -> allzero p.
Proof.
  intros H. apply (too_many_roots (npts (length p))); auto using npts_NoDup.
  rewrite npts_length; auto.
Qed.
(** A polynomial with zero derivative is constant. *)
Lemma pd_zero_const p : (forall x, pd p x = 0) -> forall x y, peval p x = peval p y.
Proof.
  intros H. assert (A : allzero (pderiv p)) by (apply pevals_zero_allzero; auto).
  assert (T : forall i, nth (S i) p 0 = 0).
  { intros i. pose proof (allzero_nth' _ i A) as E. rewrite nth_pderiv in E.
    apply mul_eq0 in E. destruct E as [E|E]; auto. exfalso; eapply ofn_neq0; eauto. }
  intros x y. destruct p as [|c p]; auto. cbn [peval].
  assert (Z : allzero p) by (apply allzero_nth; intros i; apply (T i)).
  rewrite !peval_allzero by auto. ring.
Qed.

End Poly.
