(** What the search of the rational roots leaves. *)
From Coq Require Import ZArith QArith Qcanon Qfield List Bool Lia Reals Lra Field Arith.
From Coquelicot Require Import Complex.
From Verif Require Import Ast ExprModel ExprProofs1 Fld FPoly PolyMore CplxF RootModel RootProofs FindRootModel FindRootSpec NestedProofs RatRootProofs.
Import ListNotations.
Local Open Scope list_scope.
Local Open Scope nat_scope.

(** * Rational numbers as complex ones *)
Lemma qC_add a b : qC (a + b) = (qC a + qC b)%C.
Proof. unfold qC. rewrite rv_add, RtoC_plus. reflexivity. Qed.
Lemma qC_mul a b : qC (a * b) = (qC a * qC b)%C.
Proof. unfold qC. rewrite rv_mul, RtoC_mult. reflexivity. Qed.
Lemma qC_opp a : qC (- a) = (- qC a)%C.
Proof. unfold qC. rewrite rv_opp, RtoC_opp. reflexivity. Qed.
Lemma qC_0 : qC 0 = RtoC 0. Proof. unfold qC. rewrite rv_0. reflexivity. Qed.
Lemma qC_1 : qC 1 = RtoC 1. Proof. unfold qC. rewrite rv_1. reflexivity. Qed.
Lemma qC_inj a b : qC a = qC b -> a = b.
Proof. intros H. apply rv_inj. unfold qC, RtoC in H. congruence. Qed.
Lemma qC_neq0 a : a <> 0%Qc -> qC a <> RtoC 0.
Proof. intros N E. apply N, qC_inj. rewrite qC_0. exact E. Qed.
Lemma qC_inv a : qC (/ a) = (/ qC a)%C.
Proof.
  destruct (Qc_eq_dec a 0%Qc) as [->|N].
  - unfold qC. rewrite rv_inv, rv_0, Rinv_0. unfold Cinv, RtoC. cbn. f_equal; unfold Rdiv; ring.
  - apply (mul_cancel_l (K:=CF) (qC a)); [apply qC_neq0; auto|]. change (@fmul CF) with Cmult.
    rewrite <- qC_mul, Qcmult_inv_r, qC_1 by auto. rewrite Cinv_r; auto. apply qC_neq0; auto.
Qed.
Lemma qC_div a b : qC (a / b) = (qC a / qC b)%C.
Proof. unfold Qcdiv, Cdiv. rewrite qC_mul, qC_inv. reflexivity. Qed.

Lemma pval_nil z : pval [] z = RtoC 0. Proof. reflexivity. Qed.
Lemma pval_cons c p z : pval (c :: p) z = (qC c + z * pval p z)%C. Proof. reflexivity. Qed.
Lemma pval_q (p : poly) r : pval p (qC r) = qC (peval (K:=QcF) p r).
Proof.
  induction p as [|c p IH]; [rewrite pval_nil; symmetry; apply qC_0|]. rewrite pval_cons, IH. cbn [peval].
  change (@fadd QcF) with Qcplus. change (@fmul QcF) with Qcmult. rewrite qC_add, qC_mul. reflexivity.
Qed.
Lemma map_quot (p : poly) r : map qC (quot (K:=QcF) p r) = quot (K:=CF) (map qC p) (qC r).
Proof.
  induction p as [|c p IH]; [reflexivity|]. destruct p as [|d p]; [reflexivity|].
  change (quot (K:=QcF) (c :: d :: p) r) with (peval (K:=QcF) (d :: p) r :: quot (K:=QcF) (d :: p) r).
  change (quot (K:=CF) (map qC (c :: d :: p)) (qC r)) with (peval (K:=CF) (map qC (d :: p)) (qC r) :: quot (K:=CF) (map qC (d :: p)) (qC r)).
  rewrite <- IH. cbn [map]. f_equal. rewrite <- pval_q. reflexivity.
Qed.
Lemma pval_quot (p : poly) r x : pval p x = ((x - qC r) * pval (quot (K:=QcF) p r) x + qC (peval (K:=QcF) p r))%C.
Proof. unfold pval at 1. rewrite (quot_spec (K:=CF) (map qC p) (qC r) x), <- map_quot. fold (pval p (qC r)). rewrite pval_q. reflexivity. Qed.
Lemma map_padd (p q : poly) : map qC (padd (K:=QcF) p q) = padd (K:=CF) (map qC p) (map qC q).
Proof.
  revert q. induction p as [|a p IH]; intros [|b q]; cbn [padd map]; auto. rewrite IH.
  change (@fadd QcF a b) with (a + b)%Qc. rewrite qC_add. reflexivity.
Qed.
Lemma map_pmul (p q : poly) : map qC (pmul (K:=QcF) p q) = pmul (K:=CF) (map qC p) (map qC q).
Proof.
  induction p as [|a p IH]; cbn [pmul map]; auto. rewrite map_padd. cbn [map]. rewrite IH. change (@f0 QcF) with 0%Qc. rewrite qC_0.
  assert (E : map qC (pscal (K:=QcF) a q) = pscal (K:=CF) (qC a) (map qC q)).
  { unfold pscal. rewrite !map_map. apply map_ext. intros b. apply qC_mul. }
  rewrite E. reflexivity.
Qed.
Lemma pval_pmul (p q : poly) x : pval (pmul (K:=QcF) p q) x = (pval p x * pval q x)%C.
Proof. exact (eq_trans (f_equal (fun l => peval (K:=CF) l x) (map_pmul p q)) (peval_pmul (K:=CF) (map qC p) (map qC q) x)). Qed.
Lemma map_spread n (q : poly) : map qC (spread (K:=QcF) n q) = spread (K:=CF) n (map qC q).
Proof.
  assert (E : forall k, map qC (repeat (@f0 QcF) k) = repeat (@f0 CF) k).
  { induction k as [|k IHk]; cbn [repeat map]; auto. rewrite IHk. change (@f0 QcF) with 0%Qc. rewrite qC_0. reflexivity. }
  induction q as [|c q IH]; [reflexivity|].
  change (spread (K:=QcF) n (c :: q)) with ((c :: repeat (@f0 QcF) (n - 1)) ++ spread (K:=QcF) n q).
  change (spread (K:=CF) n (map qC (c :: q))) with ((qC c :: repeat (@f0 CF) (n - 1)) ++ spread (K:=CF) n (map qC q)).
  rewrite <- IH, <- E. apply map_app.
Qed.
Lemma pval_spread n (q : poly) x : 0 < n -> pval (spread (K:=QcF) n q) x = pval q (fpow (K:=CF) x n).
Proof. intros H. exact (eq_trans (f_equal (fun l => peval (K:=CF) l x) (map_spread n q)) (peval_spread (K:=CF) n (map qC q) x H)). Qed.
Lemma nth_map_qC (p : poly) i : nth i (map qC p) (@f0 CF) = qC (coeff p i).
Proof. transitivity (nth i (map qC p) (qC 0%Qc)); [f_equal; symmetry; apply qC_0|]. apply map_nth. Qed.
Lemma pval_nth_ext (p q : poly) : (forall i, coeff p i = coeff q i) -> forall x, pval p x = pval q x.
Proof.
  intros H x. refine (peval_nth_ext (K:=CF) (map qC p) (map qC q) _ x). intros i.
  exact (eq_trans (nth_map_qC p i) (eq_trans (f_equal qC (H i)) (eq_sym (nth_map_qC q i)))).
Qed.
Lemma nth_pval_ext (p q : poly) : (forall x, pval p x = pval q x) -> forall i, coeff p i = coeff q i.
Proof.
  intros H i. apply qC_inj. pose proof (nth_peval_ext (K:=CF) (map qC p) (map qC q) H i) as E.
  exact (eq_trans (eq_sym (nth_map_qC p i)) (eq_trans E (nth_map_qC q i))).
Qed.
Lemma proper_map p : proper p -> normal (K:=CF) (map qC p).
Proof.
  intros [H1 H2]. split; [destruct p; cbn; congruence|]. rewrite last_nth, nth_map_qC, map_length. apply qC_neq0.
  intros X. apply H2. exact (eq_trans (last_nth (K:=QcF) p) X).
Qed.
Lemma proper_degree p : proper p -> degree p = pred (length p).
Proof. intros H. apply (normal_degree (K:=QcF) p). exact H. Qed.
Lemma proper_lcoeff p : proper p -> lcoeff p = last p 0%Qc.
Proof. intros H. unfold lcoeff. rewrite proper_degree; auto. symmetry. apply (last_nth (K:=QcF) p). Qed.
Lemma proper_tl p : proper p -> 2 <= length p -> proper (tl p).
Proof. intros [_ H] L. destruct p as [|c [|d p]]; cbn [length] in L; try lia. split; [discriminate|exact H]. Qed.
Lemma proper_length p : proper p -> 1 <= length p.
Proof. intros [H _]. destruct p; [congruence|cbn; lia]. Qed.
(** A root implies degree at least one. *)
Lemma root_length p r : proper p -> peval (K:=QcF) p r = 0%Qc -> 2 <= length p.
Proof.
  intros [H1 H2] E. destruct p as [|c [|d p]]; [congruence| |cbn; lia]. exfalso. apply H2. cbn [last].
  cbn [peval] in E. rewrite <- E. change (@fadd QcF) with Qcplus. change (@fmul QcF) with Qcmult. change (@f0 QcF) with 0%Qc.
  change (car QcF) with Qc in *. ring.
Qed.

(** * Divisors of square-free polynomials *)
Lemma square_free_divisor (p q : list Qc) (g : list C) : square_free p -> (forall x, pval p x = (pval q x * peval (K:=CF) g x)%C) -> square_free q.
Proof.
  intros H E z h F. apply (H z (pmul (K:=CF) h g)). intros x. rewrite E, F, peval_pmul. change (@fmul CF) with Cmult. ring.
Qed.
Fixpoint lin_poly (l : list C) : list C := match l with [] => [RtoC 1] | a :: l => pmul (K:=CF) [(- a)%C; RtoC 1] (lin_poly l) end.
Lemma peval_lin_poly l x : peval (K:=CF) (lin_poly l) x = lin_prod (K:=CF) l x.
Proof.
  induction l as [|a l IH]; cbn [lin_poly lin_prod fold_right peval].
  - change (@fadd CF) with Cplus. change (@fmul CF) with Cmult. change (@f0 CF) with (RtoC 0). change (@f1 CF) with (RtoC 1). change (car CF) with C in *. ring.
  - rewrite peval_pmul, IH. fold (lin_prod (K:=CF) l x). cbn [peval].
    change (@fsub CF) with Cminus. change (@fadd CF) with Cplus. change (@fmul CF) with Cmult. change (@f0 CF) with (RtoC 0). change (car CF) with C in *. ring.
Qed.

(** * The search *)
Definition rational_root (m : nat) (r : Qc) : root := MkRoot (Rational r) m.
Lemma tries_ok m cs : forall q rs q' rs', tries m cs (q, rs) = (q', rs') -> proper q -> exists new,
  rs' = rs ++ map (rational_root m) new /\ proper q' /\ (length q = length q' + length new) /\ last q' 0%Qc = last q 0%Qc /\
  (integer_coefficients q -> integer_coefficients q') /\
  (forall x, pval q x = (pval q' x * lin_prod (K:=CF) (map qC new) x)%C) /\
  (forall r, In r new -> In r cs) /\
  (forall r, In r cs -> peval (K:=QcF) q r = 0%Qc -> In r new) /\
  (forall r, In r cs -> peval (K:=QcF) q' r = 0%Qc -> In r new).
Proof.
  induction cs as [|c cs IH]; intros q rs q' rs' HT Hq.
  - assert (q = q' /\ rs = rs') as [<- <-] by (unfold tries in HT; cbn [fold_left] in HT; split; congruence). clear HT. exists []. cbn [map app length]. rewrite app_nil_r. split; [reflexivity|]. split; auto. split; [symmetry; apply Nat.add_0_r|]. split; auto. split; auto.
    split; [|repeat split; intros r []]. intros x. cbn [lin_prod fold_right map]. change (@f1 CF) with (RtoC 1). ring.
  - change (tries m (c :: cs) (q, rs)) with (tries m cs (if qzero (peval (K:=QcF) q c) then (quot (K:=QcF) q c, rs ++ [MkRoot (Rational c) m]) else (q, rs))) in HT.
    destruct (qzero_spec (peval (K:=QcF) q c)) as [E|E].
    + pose proof (root_length q c Hq E) as L.
      assert (HQ : proper (quot (K:=QcF) q c)) by (apply (normal_quot (K:=QcF)); auto).
      destruct (IH (quot (K:=QcF) q c) (rs ++ [MkRoot (Rational c) m]) q' rs' HT HQ) as (new & E1 & P1 & L1 & LA & I1 & V1 & M1 & C1 & D1). exists (c :: new).
      split; [rewrite E1, <- app_assoc; reflexivity|]. split; auto.
      split; [pose proof (length_quot (K:=QcF) q c) as LQ; unfold poly in *; change (car QcF) with Qc in *; cbn [length]; lia|].
      split; [rewrite LA; apply (last_quot (K:=QcF)); auto|].
      split.
      { intros Hi. apply I1. destruct (rational_form c) as (u & v & Hv & Huv & Hc). subst c. apply (rational_root_theorem u v); auto. }
      split.
      { intros x. rewrite (pval_quot q c x), E, V1, qC_0. cbn [map lin_prod fold_right]. fold (lin_prod (K:=CF) (map qC new) x).
        change (@fsub CF) with Cminus. change (@fmul CF) with Cmult. change (car CF) with C in *. ring. }
      split; [intros r [->|Hr]; [left; auto|right; auto]|].
      split.
      { intros r Hr Er. destruct (Qc_eq_dec r c) as [->|N]; [left; reflexivity|]. destruct Hr as [->|Hr]; [congruence|]. right. apply C1; auto.
        apply qC_inj. rewrite qC_0, <- pval_q. pose proof (pval_quot q c (qC r)) as X. rewrite E, qC_0, pval_q, Er, qC_0 in X.
        assert (Y : ((qC r - qC c) * pval (quot (K:=QcF) q c) (qC r))%C = RtoC 0) by (rewrite X; ring).
        apply C_eq0 in Y. destruct Y as [Y|Y]; auto. exfalso. apply N, qC_inj. apply (sub_eq0 (K:=CF)). exact Y. }
      intros r [->|Hr] Er; [left; auto|right; auto].
    + destruct (IH q rs q' rs' HT Hq) as (new & E1 & P1 & L1 & LA & I1 & V1 & M1 & C1 & D1). exists new. repeat (split; [assumption|]).
      split; [intros r Hr; right; auto|]. split.
      * intros r [->|Hr] Er; [congruence|auto].
      * intros r [->|Hr] Er; auto. exfalso. apply E. apply qC_inj. rewrite <- pval_q, V1, pval_q, Er, qC_0. apply Cmult_0_l.
Qed.
Lemma tries_square_free m cs q rs q' rs' : tries m cs (q, rs) = (q', rs') -> proper q -> square_free q ->
  square_free q' /\ forall r, In r cs -> peval (K:=QcF) q' r <> 0%Qc.
Proof.
  intros HT Hq HS.
  destruct (tries_ok m cs q rs q' rs' HT Hq) as (new & E1 & P1 & L1 & LA & I1 & V1 & M1 & C1 & D1). split.
  - apply (square_free_divisor q q' (lin_poly (map qC new))); auto. intros x. rewrite V1, peval_lin_poly. reflexivity.
  - intros r Hr Er. pose proof (D1 r Hr Er) as I. apply in_split in I. destruct I as (l1 & l2 & ->).
    apply (HS (qC r) (pmul (K:=CF) (map qC (quot (K:=QcF) q' r)) (lin_poly (map qC (l1 ++ l2))))). intros x.
    rewrite V1, peval_pmul, peval_lin_poly. fold (pval (quot (K:=QcF) q' r) x). rewrite (pval_quot q' r x), Er, qC_0.
    rewrite !map_app. cbn [map].
    assert (LP : forall u v : list C, lin_prod (K:=CF) (u ++ v) x = (lin_prod (K:=CF) u x * lin_prod (K:=CF) v x)%C).
    { intros u v. unfold lin_prod. induction u as [|a u IHu]; cbn [app fold_right].
      - change (@f1 CF) with (RtoC 1). change (car CF) with C in *. ring.
      - rewrite IHu. change (@fsub CF) with Cminus. change (@fmul CF) with Cmult. change (car CF) with C in *. ring. }
    rewrite !LP. cbn [lin_prod fold_right]. fold (lin_prod (K:=CF) (map qC l2) x).
    change (@fsub CF) with Cminus. change (@fmul CF) with Cmult. change (car CF) with C in *. ring.
Qed.
