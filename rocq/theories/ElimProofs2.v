From Coq Require Import ZArith QArith Qcanon Qreals Reals List String Bool Lia Lra.
From Verif Require Import Ast ExprModel ExprSpec ExprProofs1 ExprProofs2 FactProofs2 SeqInterp ElimModel ElimSpec ElimProofs.
Import ListNotations.
Local Open Scope list_scope.
Local Open Scope R_scope.

Section Null.
Context (I : interp) (G : ginac).
Hypothesis HG : forall x, ginac_ok (with_x I x) G.
Context (collect : expr -> expr).
Hypothesis Hcol : forall x e, refines (with_x I x) e (collect e).

Lemma drop_none l : ~ In x_n l -> fst (drop_x_n G l) = false.
Proof.
  induction l as [|f l IH]; intros H; auto. cbn [drop_x_n fold_right]. fold (drop_x_n G l). destruct (expr_eqb f x_n) eqn:E.
  - apply expr_eqb_eq in E. exfalso. apply H. now left.
  - cbn [fst]. apply IH. intros ?. apply H. now right.
Qed.
Lemma drop_val J rho l v : ginac_ok J G -> ~ In x_n l -> eprod J rho l = Some v -> eval J rho (snd (drop_x_n G l)) = Some v.
Proof.
  intros Hg. revert v. induction l as [|f l IH]; intros v H Hv.
  - rewrite eprod_nil in Hv. injection Hv as <-. cbn. now rewrite rv_1.
  - rewrite eprod_cons in Hv. apply olift2_some in Hv as (p & q & Ep & Eq & ->). cbn [drop_x_n fold_right]. fold (drop_x_n G l). destruct (expr_eqb f x_n) eqn:E.
    + apply expr_eqb_eq in E. exfalso. apply H. now left.
    + cbn [snd]. rewrite Rmult_comm. apply (gmul_val _ _ Hg); auto. apply IH; auto. intros ?. apply H. now right.
Qed.
Lemma drop_app f1 f2 : drop_x_n G (f1 ++ x_n :: f2) = fold_right (fun f st => if expr_eqb f x_n then (true, snd st) else (fst st, gmul G (snd st) f)) (true, snd (drop_x_n G f2)) f1.
Proof. unfold drop_x_n. rewrite fold_right_app. cbn [fold_right]. now rewrite expr_eqb_refl. Qed.
Lemma drop_found f1 f2 : ~ In x_n (f1 ++ f2) -> drop_x_n G (f1 ++ x_n :: f2) = (true, snd (drop_x_n G (f1 ++ f2))).
Proof.
  intros H. rewrite drop_app. induction f1 as [|f f1 IH]; [reflexivity|]. cbn [fold_right app]. rewrite IH by (intros ?; apply H; now right).
  cbn [drop_x_n fold_right]. fold (drop_x_n G (f1 ++ f2)). destruct (expr_eqb f x_n) eqn:E; [|reflexivity].
  apply expr_eqb_eq in E. exfalso. apply H. now left.
Qed.
Lemma coeff_other t st : ~ has_x_n t -> coeff_step G t st = st.
Proof.
  intros H. destruct t as [| | | |l| |f l| |]; try reflexivity.
  - cbn [coeff_step]. rewrite (surjective_pairing (drop_x_n G l)), drop_none; auto. intros Hin. apply H. right. eauto.
  - cbn [coeff_step]. destruct (expr_eqb (Fun f l) x_n) eqn:E; auto. apply expr_eqb_eq in E. exfalso. apply H. left. exact E.
Qed.
Lemma coeff_others l st : Forall (fun t => ~ has_x_n t) l -> fold_right (coeff_step G) st l = st.
Proof. induction 1; cbn [fold_right]; auto. rewrite IHForall. now apply coeff_other. Qed.

(** The coefficient and the remainder found. *)
Lemma coeff_val rho x n l cs rest a b v : one_x_n l cs rest -> coeff_x_n G (Add l) = (a, b) ->
  at_n I rho x n (Add l) = Some v ->
  exists A B, eprod (with_x I x) (upd rho "n" (INR n)) cs = Some A /\ esum (with_x I x) (upd rho "n" (INR n)) rest = Some B /\
    at_n I rho x n a = Some A /\ at_n I rho x n b = Some B /\ v = A * x n + B.
Proof.
  intros (l1 & t & l2 & -> & -> & Hr & Ht) C Hv. unfold coeff_x_n in C. cbn [ops] in C. apply Forall_app in Hr as [H1 H2].
  rewrite fold_right_app in C. cbn [fold_right] in C. rewrite (coeff_others l2) in C by auto.
  unfold at_n in *. set (r := upd rho "n" (INR n)) in *. rewrite eval_Add, esum_app, esum_cons in Hv.
  apply olift2_some in Hv as (B1 & y & E1 & Hy & ->). apply olift2_some in Hy as (T & B2 & ET & E2 & ->).
  assert (HS : eval (with_x I x) r (Add (l1 ++ t :: l2)) = Some (B1 + (T + B2))).
  { rewrite eval_Add, esum_app, esum_cons, E1, ET, E2. reflexivity. }
  assert (HR : eval (with_x I x) r (gsub G (Add (l1 ++ t :: l2)) t) = Some (B1 + B2)).
  { replace (B1 + B2) with (B1 + (T + B2) - T) by lra. now apply (gsub_val _ _ (HG x)). }
  assert (Step : exists c A, coeff_step G t (Num 0%Qc, Add (l1 ++ t :: l2)) = (c, gsub G (Add (l1 ++ t :: l2)) t) /\
     eprod (with_x I x) r cs = Some A /\ eval (with_x I x) r c = Some A /\ T = A * x n).
  { destruct Ht as [[-> ->]|(f1 & f2 & -> & -> & Hn)].
    - exists (Num 1%Qc), 1. cbn [coeff_step]. fold x_n. rewrite expr_eqb_refl. split; [reflexivity|]. split; [reflexivity|]. split; [rewrite eval_num, rv_1; auto|].
      pose proof (x_n_val I rho x n) as X. unfold at_n in X. fold r in X. fold x_n in ET. rewrite X in ET. assert (T = x n) by congruence. lra.
    - cbn [coeff_step]. fold x_n. rewrite drop_found by auto. fold x_n in ET. rewrite eval_Mul, eprod_app, eprod_cons in ET.
      apply olift2_some in ET as (p & q & Ep & Eq & ->). apply olift2_some in Eq as (z & s & Ez & Es & ->).
      pose proof (x_n_val I rho x n) as X. unfold at_n in X. fold r in X. rewrite X in Ez. assert (z = x n) as -> by congruence.
      assert (EP : eprod (with_x I x) r (f1 ++ f2) = Some (p * s)) by (rewrite eprod_app, Ep, Es; reflexivity).
      exists (snd (drop_x_n G (f1 ++ f2))), (p * s). split; [reflexivity|]. split; [auto|]. split; [|lra]. now apply (drop_val _ _ _ _ (HG x)). }
  destruct Step as (c & A & Sc & EA & Ec & ->). rewrite Sc, (coeff_others l1) in C by auto. assert (a = c /\ b = gsub G (Add (l1 ++ t :: l2)) t) as [-> ->] by (split; congruence).
  exists A, (B1 + B2). split; [auto|]. split; [rewrite esum_app, E1, E2; reflexivity|]. split; [auto|]. split; [auto|]. lra.
Qed.

(** a <> 1. *)
Theorem null_solved rho rhs l cs rest new x n v A : collect rhs = Add l -> one_x_n l cs rest -> eliminate_null G collect rhs = Rewritten new ->
  at_n I rho x n rhs = Some v -> eprod (with_x I x) (upd rho "n" (INR n)) cs = Some A -> A <> 1 ->
  (holds_at I rho rhs x n <-> holds_at I rho new x n).
Proof.
  intros C O E Hv HA NA. unfold eliminate_null in E. rewrite C in E. destruct (coeff_x_n G (Add l)) as [a b] eqn:Eab.
  assert (Hc : at_n I rho x n (Add l) = Some v) by (rewrite <- C; unfold at_n; now apply Hcol).
  destruct (coeff_val rho x n l cs rest a b v O Eab Hc) as (A' & B & E1 & E2 & E3 & E4 & ->). assert (A' = A) as -> by congruence.
  destruct (is_num 1 a) eqn:E1a.
  { apply is_num_eq in E1a. subst a. unfold at_n in E3. cbn in E3. rewrite rv_1 in E3. exfalso. apply NA. congruence. }
  assert (new = gmul G b (gpow G (gsub G (Num 1%Qc) a) (Num (-(1))%Qc))) as -> by congruence.
  assert (V : at_n I rho x n (gmul G b (gpow G (gsub G (Num 1%Qc) a) (Num (-(1))%Qc))) = Some (B * / (1 - A))).
  { unfold at_n. apply (gmul_val _ _ (HG x)); auto. apply (rinv_val _ _ (HG x)); [|lra]. apply (gsub_val _ _ (HG x)); auto. rewrite eval_num. now rewrite rv_1. }
  unfold holds_at. unfold at_n in *. rewrite V, Hv. split; intros H.
  - assert (A * x n + B = x n) as Q by congruence. f_equal. replace B with (x n * (1 - A)) by lra. field. lra.
  - assert (B * / (1 - A) = x n) as Q by congruence. f_equal. rewrite <- Q. field. lra.
Qed.
(** a = 1, reported as unsolvable. *)
Theorem null_unsolvable_at rho rhs l cs rest x n : collect rhs = Add l -> one_x_n l cs rest -> eliminate_null G collect rhs = Unsolvable ->
  holds_at I rho rhs x n -> esum (with_x I x) (upd rho "n" (INR n)) rest = Some 0.
Proof.
  intros C O E Hv. unfold eliminate_null in E. rewrite C in E. destruct (coeff_x_n G (Add l)) as [a b] eqn:Eab.
  assert (Hc : at_n I rho x n (Add l) = Some (x n)) by (rewrite <- C; unfold at_n; now apply Hcol).
  destruct (coeff_val rho x n l cs rest a b _ O Eab Hc) as (A & B & E1 & E2 & E3 & E4 & Q).
  destruct (is_num 1 a) eqn:E1a; [|discriminate].
  apply is_num_eq in E1a. subst a. unfold at_n in E3. cbn in E3. rewrite rv_1 in E3. assert (A = 1) by congruence. subst A.
  rewrite E2. f_equal. lra.
Qed.
Theorem null_unsolvable rho rhs l cs rest n B : collect rhs = Add l -> one_x_n l cs rest -> eliminate_null G collect rhs = Unsolvable ->
  (forall x, esum (with_x I x) (upd rho "n" (INR n)) rest = Some B) -> B <> 0 -> forall x, ~ holds_at I rho rhs x n.
Proof.
  intros C O E HB NB x H. apply (null_unsolvable_at rho rhs l cs rest x n C O E) in H. rewrite HB in H. congruence.
Qed.
(** rhs = x(n). *)
Theorem null_indeterminate rho rhs x n v : eliminate_null G collect rhs = Indeterminate -> at_n I rho x n rhs = Some v -> holds_at I rho rhs x n.
Proof.
  intros E Hv. unfold eliminate_null in E.
  assert (C : collect rhs = x_n).
  { destruct (collect rhs) as [| | |l|l| | | |] eqn:C; try (destruct (expr_eqb _ x_n) eqn:E'; [apply expr_eqb_eq in E'; congruence|discriminate]).
    - destruct (coeff_x_n G (Add l)) as [a b]. destruct (is_num 1 a); [|discriminate]. destruct (contains_x b) as [[]|]; try discriminate. destruct (find_max G b); discriminate.
    - destruct (existsb _ l); discriminate. }
  assert (at_n I rho x n (collect rhs) = Some v) by (unfold at_n; now apply Hcol). rewrite C, x_n_val in H. unfold holds_at. unfold at_n in Hv. congruence.
Qed.
(** rhs = a x(n). *)
Theorem null_multiple rho rhs cs f1 f2 new x n v A : collect rhs = Mul (f1 ++ Fun FX [Sym "n"] :: f2) -> cs = f1 ++ f2 ->
  eliminate_null G collect rhs = Rewritten new ->
  at_n I rho x n rhs = Some v -> eprod (with_x I x) (upd rho "n" (INR n)) cs = Some A -> A <> 1 ->
  (holds_at I rho rhs x n <-> holds_at I rho new x n).
Proof.
  intros C -> E Hv HA NA. unfold eliminate_null in E. rewrite C in E.
  replace (existsb _ _) with true in E by (symmetry; rewrite existsb_app; cbn [existsb]; fold x_n; rewrite expr_eqb_refl; now rewrite orb_true_r).
  assert (new = Num 0%Qc) as -> by congruence. assert (Hc : at_n I rho x n (collect rhs) = Some v) by (unfold at_n; now apply Hcol). rewrite C in Hc.
  unfold at_n in *. set (r := upd rho "n" (INR n)) in *. rewrite eval_Mul, eprod_app, eprod_cons in Hc. apply olift2_some in Hc as (p & q & Ep & Eq & ->).
  apply olift2_some in Eq as (z & s & Ez & Es & ->). pose proof (x_n_val I rho x n) as X. unfold at_n in X. fold r in X. fold x_n in Ez. rewrite X in Ez. assert (z = x n) as -> by congruence.
  rewrite eprod_app, Ep, Es in HA. cbn [olift2] in HA. assert (A = p * s) as -> by congruence.
  unfold holds_at. fold r. rewrite Hv, eval_num, rv_0. split; intros H.
  - f_equal. assert (Q : p * (x n * s) = x n) by congruence. assert (x n * (1 - p * s) = 0) as Z0 by lra. apply Rmult_integral in Z0. destruct Z0; lra.
  - assert (Q : 0 = x n) by congruence. rewrite <- Q. f_equal. lra.
Qed.

(** a = 1, with other occurrences of x. *)
Hypothesis HB : no_new_binders G.
Lemma sub_nb a b : no_binders a -> no_binders b -> no_binders (gsub G a b).
Proof. intros. unfold gsub. apply HB; auto. apply HB; [exact Logic.I|auto]. Qed.
Lemma coeff_nb l st : Forall no_binders l -> no_binders (snd st) -> no_binders (snd (fold_right (coeff_step G) st l)).
Proof.
  intros Hl Hs. induction Hl as [|t l Ht Hl IH]; auto. cbn [fold_right]. set (s' := fold_right (coeff_step G) st l) in *. clearbody s'.
  destruct t; cbn [coeff_step]; try (destruct (expr_eqb _ x_n); cbn [snd]; auto; now apply sub_nb).
  destruct (drop_x_n G l0) as [[] c]; cbn [snd]; auto. now apply sub_nb.
Qed.
Theorem null_shifted rho rhs l cs rest a b m c new x n k v w : collect rhs = Add l -> one_x_n l cs rest -> no_binders (Add l) ->
  coeff_x_n G (Add l) = (a, b) -> a = Num 1%Qc -> find_max G b = (m, c) ->
  eliminate_null G collect rhs = Rewritten new -> (Z.of_nat n + m)%Z = Z.of_nat k ->
  at_n I rho x n rhs = Some v -> at_n I rho x n c = Some w -> at_n I rho x k c = Some w -> w <> 0 ->
  (holds_at I rho rhs x n <-> holds_at I rho new x k).
Proof.
  intros C O NB Eab -> F E Hk Hv Hw Hw' Nw. unfold eliminate_null in E. rewrite C, Eab in E. replace (is_num 1 (Num 1%Qc)) with true in E by (symmetry; apply is_num_eq; auto).
  destruct (contains_x b) as [[]|]; try discriminate. rewrite F in E.
  assert (Nb : no_binders b).
  { unfold coeff_x_n in Eab. cbn [ops] in Eab. pose proof (coeff_nb l (Num 0%Qc, Add l)) as N. rewrite Eab in N. apply N; auto. cbn in NB. now rewrite no_binders_all in NB. }
  assert (Nc : no_binders c) by (pose proof (find_nb G HB b Nb) as N; rewrite F in N; exact N).
  assert (Hc : at_n I rho x n (Add l) = Some v) by (rewrite <- C; unfold at_n; now apply Hcol).
  destruct (coeff_val rho x n l cs rest _ b v O Eab Hc) as (A & B & E1 & E2 & E3 & E4 & ->). unfold at_n in E3. rewrite eval_num, rv_1 in E3. assert (A = 1) by congruence. subst A.
  set (e0 := gsub G b (gmul G c (x_n_plus m))) in *.
  assert (N0 : no_binders e0). { apply sub_nb; auto. apply HB; auto. unfold x_n_plus. destruct (m =? 0)%Z; cbn; tauto. }
  assert (V0 : at_n I rho x n e0 = Some (B - w * x k)).
  { unfold at_n, e0. apply (gsub_val _ _ (HG x)); auto. apply (gmul_val _ _ (HG x)); auto. now apply (x_n_plus_val I rho x). }
  pose proof (shift_val I rho x G e0 n m k _ HG N0 Hk V0) as V1. clearbody e0.
  assert (new = gmul G (gmul G (substitute G (Sym "n") (n_shift m) e0) (Num (-(1))%Qc)) (gpow G c (Num (-(1))%Qc))) as -> by congruence.
  assert (V2 : at_n I rho x k (gmul G (gmul G (substitute G (Sym "n") (n_shift m) e0) (Num (-(1))%Qc)) (gpow G c (Num (-(1))%Qc))) = Some ((B - w * x k) * -1 * / w)).
  { unfold at_n in *. apply (gmul_val _ _ (HG x)); [apply (gmul_val _ _ (HG x)); auto; rewrite eval_num, rv_opp, rv_1; f_equal; lra|]. now apply (rinv_val _ _ (HG x)). }
  unfold holds_at. unfold at_n in *. rewrite V2, Hv. split; intros H.
  - assert (Q : 1 * x n + B = x n) by congruence. f_equal. replace B with 0 by lra. field. auto.
  - assert (Q : (B - w * x k) * -1 * / w = x k) by congruence. f_equal.
    assert (B = 0); [|lra]. replace B with (w * (x k - ((B - w * x k) * -1 * / w))) by (field; auto). rewrite Q. lra.
Qed.
End Null.
