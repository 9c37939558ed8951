From Coq Require Import ZArith QArith Qcanon Reals List String Bool Lia Lra.
From Verif Require Import Ast ExprModel ExprSpec ExprProofs1 ExprProofs2 ExprCases SeqInterp ElimModel ElimSpec ElimProofs NonLinModel NonLinProofs ClassModel VerifySpec VerifyProofs2 WClassModel WClassSpec.
Import ListNotations.
Local Open Scope R_scope.
Local Open Scope list_scope.

Lemma range_sum_ext x y lo c : (forall i, (i < c)%nat -> x (lo + i)%nat = y (lo + i)%nat) -> range_sum x lo c = range_sum y lo c.
Proof. induction c as [|c IH]; intros H; cbn [range_sum]; auto. rewrite IH by (intros; apply H; lia). now rewrite H by lia. Qed.
Lemma range_sum_S x lo c : range_sum x lo (S c) = range_sum x lo c + x (lo + c)%nat. Proof. reflexivity. Qed.

(** * collect_term *)
Section Collect.
Context (I : interp) (G : ginac) (HG : ginac_ok I G) (si : expr -> expr) (Hsi : forall e, refines I e (si e)).
Context (rho : string -> R) (s : expr) (sv : R) (Hs : eval I rho s = Some sv).
Notation ev e := (eval I rho e).
Lemma num1 : ev (Num 1) = Some 1. Proof. cbn. f_equal. apply rv_1. Qed.
Lemma num0 : ev (Num 0) = Some 0. Proof. cbn. f_equal. apply rv_0. Qed.

Lemma amo_cons f l : at_most_once s (f :: l) -> at_most_once s l /\ (carries s f -> Forall (fun u => ~ carries s u) l) /\
  match f with Pow a b => a = s -> exists z, (1 <= z)%Z /\ b = Num (zq z) | _ => True end.
Proof.
  intros [H1 H2]. inversion H1; subst. split; [split; auto|split; auto].
  - intros l1 t l2 -> C. specialize (H2 (f :: l1) t l2 eq_refl C). now inversion H2.
  - intros C. exact (H2 [] f l eq_refl C).
Qed.
Lemma mul_for_out l : Forall (fun u => ~ carries s u) l -> forall v, eprod I rho l = Some v -> fst (mul_for G s l) = false /\ ev (snd (mul_for G s l)) = Some v.
Proof.
  induction 1 as [|f l N NL IH]; intros v E.
  - cbn in E. injection E as <-. split; [reflexivity|]. exact num1.
  - rewrite eprod_cons in E. apply olift2_some in E as (a & b & Ea & Eb & ->).
    destruct (IH b Eb) as [F M]. cbn [mul_for]. destruct (mul_for G s l) as [fd m]. cbn [fst snd] in *. subst fd.
    replace (expr_eqb f s) with false by (symmetry; apply not_true_is_false; intros C; apply expr_eqb_eq in C; subst; apply N; now left).
    assert (R : ev (gmul G m f) = Some (a * b)) by (rewrite Rmult_comm; now apply (gmul_val I G HG)).
    destruct f; cbn [fst snd]; auto. destruct (expr_eqb f1 s) eqn:E1; auto. apply expr_eqb_eq in E1. subst. elim N. right. eexists. reflexivity.
Qed.
(** s^(z-1). *)
Lemma power_less z a : (1 <= z)%Z -> ev (Pow s (Num (zq z))) = Some a -> exists w, ev (gpow G s (gsub G (Num (zq z)) (Num 1))) = Some w /\ a = sv * w.
Proof.
  intros Hz E. exists (sv ^ Z.to_nat (z - 1)). cbn [eval] in E. rewrite Hs in E. cbn [obind] in E. rewrite rv_zq in E.
  assert (Q : IZR z = INR (S (Z.to_nat (z - 1)))) by (rewrite INR_IZR_INZ; f_equal; lia). rewrite Q, rpow_nat in E. split.
  - eapply (gpow_val I G HG); [exact Hs|apply (gsub_val I G HG); [reflexivity|exact num1]|]. rewrite rv_zq, Q, S_INR. replace (INR (Z.to_nat (z - 1)) + 1 - 1) with (INR (Z.to_nat (z - 1))) by ring. apply rpow_nat.
  - cbn [pow] in E. congruence.
Qed.
Lemma mul_for_val l v : at_most_once s l -> eprod I rho l = Some v ->
  exists m, ev (snd (mul_for G s l)) = Some m /\ v = if fst (mul_for G s l) then sv * m else m.
Proof.
  revert v. induction l as [|f l IH]; intros v A E.
  - exists v. cbn in *. injection E as <-. split; [exact num1|reflexivity].
  - pose proof A as A0. apply amo_cons in A as (A & U & NP). rewrite eprod_cons in E. apply olift2_some in E as (a & b & Ea & Eb & ->).
    cbn [mul_for]. destruct (expr_eqb f s) eqn:Efs.
    + apply expr_eqb_eq in Efs. subst f. destruct (mul_for_out l (U (or_introl eq_refl)) b Eb) as [F M]. destruct (mul_for G s l) as [fd m]. cbn [fst snd] in *.
      exists b. split; auto. congruence.
    + destruct (IH b A Eb) as (m & M & V). pose proof (fun F => mul_for_out l F b Eb) as Out. destruct (mul_for G s l) as [fd m0]. cbn [fst snd] in *.
      assert (R : exists u, ev (gmul G m0 f) = Some u /\ a * b = if fd then sv * u else u).
      { exists (m * a). split; [now apply (gmul_val I G HG)|]. subst b. destruct fd; ring. }
      destruct f; cbn [fst snd]; auto. destruct (expr_eqb f1 s) eqn:E1; auto. apply expr_eqb_eq in E1. subst f1.
      destruct (NP eq_refl) as (z & Hz & ->). destruct (power_less z a Hz Ea) as (w & W & ->).
      destruct (Out (U (or_intror (ex_intro _ _ eq_refl)))) as [_ M']. exists (b * w). cbn [fst snd]. split; [|ring]. now apply (gmul_val I G HG).
Qed.
Lemma collect_addends_val l v : linear_in_term s (Add l) -> esum I rho l = Some v ->
  exists c r, ev (fst (fold_right (collect_addend G s) (Num 0, Num 0) l)) = Some c /\ ev (snd (fold_right (collect_addend G s) (Num 0, Num 0) l)) = Some r /\ v = r + sv * c.
Proof.
  cbn [linear_in_term]. intros NP. revert v. induction NP as [|t l Ht Hl IH]; intros v E.
  - cbn in E. injection E as <-. exists 0, 0. cbn [fold_right fst snd]. repeat split; try exact num0. ring.
  - rewrite esum_cons in E. apply olift2_some in E as (a & b & Ea & Eb & ->). destruct (IH b Eb) as (c & r & C & R & ->). cbn [fold_right].
    destruct (fold_right (collect_addend G s) (Num 0, Num 0) l) as [cx rx]. cbn [fst snd] in *.
    assert (Plain : exists c r0, ev (fst (cx, gadd G rx t)) = Some c /\ ev (snd (cx, gadd G rx t)) = Some r0 /\ a + (r + sv * c) = r0 + sv * c).
    { exists c, (r + a). cbn [fst snd]. repeat split; auto; [now apply (gadd_val I G HG)|ring]. }
    assert (Plain' : exists c0 r0, ev (fst (cx, gadd G rx t)) = Some c0 /\ ev (snd (cx, gadd G rx t)) = Some r0 /\ a + (r + sv * c) = r0 + sv * c0).
    { exists c, (r + a). cbn [fst snd]. repeat split; auto; [now apply (gadd_val I G HG)|ring]. }
    clear Plain.
    assert (NM : (forall fs, t <> Mul fs) -> at_most_once s [t] -> exists c0 r0,
       ev (fst (collect_addend G s t (cx, rx))) = Some c0 /\ ev (snd (collect_addend G s t (cx, rx))) = Some r0 /\ a + (r + sv * c) = r0 + sv * c0).
    { intros NMul A1. apply amo_cons in A1 as (_ & _ & A1). unfold collect_addend.
      assert (One : expr_eqb t s = true -> exists c0 r0, ev (fst (gadd G cx (Num 1), rx)) = Some c0 /\ ev (snd (gadd G cx (Num 1), rx)) = Some r0 /\ a + (r + sv * c) = r0 + sv * c0).
      { intros Ets. apply expr_eqb_eq in Ets. subst t. assert (a = sv) by congruence. subst a. exists (c + 1), r. cbn [fst snd]. repeat split; auto; [|ring].
        apply (gadd_val I G HG); auto. exact num1. }
      destruct t; try (destruct (expr_eqb _ s) eqn:Ets; [now apply One|exact Plain']); [now elim (NMul l0)|].
      destruct (expr_eqb (Pow t1 t2) s) eqn:Ets; [now apply One|]. destruct (expr_eqb t1 s) eqn:E1; [|exact Plain']. apply expr_eqb_eq in E1. subst t1.
      destruct (A1 eq_refl) as (z & Hz & ->). destruct (power_less z a Hz Ea) as (w & W & ->). exists (c + w), r. cbn [fst snd]. repeat split; auto; [|ring]. now apply (gadd_val I G HG). }
    destruct t; try (apply NM; [discriminate|exact Ht]).
    clear NM. unfold collect_addend. rewrite eval_Mul in Ea. destruct (mul_for_val l0 a Ht Ea) as (m & M & ->). destruct (mul_for G s l0) as [fd m0]. cbn [fst snd] in *.
    destruct fd; [|exact Plain']. exists (c + m), r. cbn [fst snd]. repeat split; auto; [now apply (gadd_val I G HG)|ring].
Qed.
Lemma collect_term_val e v : linear_in_term s (si e) -> ev e = Some v -> ev (fst (collect_term G si s e)) = Some v.
Proof.
  intros L E. apply Hsi in E. unfold collect_term. destruct (si e) as [q|c|t|l|l|a b|f l|k lo up b|k lo up b]; try exact E.
  rewrite eval_Add in E. destruct (collect_addends_val l v L E) as (c & r & C & R & ->). destruct (fold_right _ _ l) as [cx rx]. cbn [fst snd] in *.
  apply (gadd_val I G HG); auto. now apply (gmul_val I G HG).
Qed.
End Collect.

(** * The parts *)
Lemma self_pow s : (forall a b, s <> Pow a b) -> match s with Pow a _ => a <> s | _ => True end.
Proof. intros H. destruct s; auto. now elim (H s1 s2). Qed.
Section Parts.
Context (I : interp) (G : ginac) (HG : ginac_ok I G).
Context (rho : string -> R) (s : expr) (sv : R) (Hs : eval I rho s = Some sv) (NS : has_x_function s = true) (NA : forall l, s <> Add l /\ s <> Mul l).
Notation ev e := (eval I rho e).
Lemma not_s f : x_free f -> f <> s. Proof. unfold x_free. intros H ->. congruence. Qed.
Lemma not_pow a b : x_free (Pow a b) -> a <> s. Proof. unfold x_free. cbn. intros H ->. rewrite NS in H. discriminate. Qed.
Lemma free_amo l : Forall x_free l -> Forall (fun u => ~ carries s u) l.
Proof.
  intros F. eapply Forall_impl; [|exact F]. intros a Ha [->|(b & ->)]; [exact (not_s s Ha eq_refl)|exact (not_pow _ _ Ha eq_refl)].
Qed.
Context (NP : forall a b, s <> Pow a b).
Lemma term_parts_val t c r : term_parts I rho s t c r -> ev t = Some (c * sv + r).
Proof.
  intros [t' v F E| |f1 f2 c' F E].
  - rewrite E. f_equal. ring.
  - rewrite Hs. f_equal. ring.
  - rewrite eval_Mul, eprod_app in E. rewrite eval_Mul, eprod_app, eprod_cons, Hs. apply olift2_some in E as (a & b & -> & -> & ->). cbn. f_equal. ring.
Qed.
Lemma sum_parts_val l c r : sum_parts I rho s l c r -> esum I rho l = Some (c * sv + r).
Proof.
  induction 1 as [|t l c r c' r' T S IH]; [cbn; f_equal; ring|]. rewrite esum_cons, (term_parts_val _ _ _ T), IH. cbn. f_equal. ring.
Qed.
Lemma has_parts_val e c r : has_parts I rho s e c r -> ev e = Some (c * sv + r).
Proof. destruct e; cbn [has_parts]; try apply term_parts_val. rewrite eval_Add. apply sum_parts_val. Qed.
Lemma mul_for_parts f1 f2 c : Forall x_free (f1 ++ f2) -> ev (Mul (f1 ++ f2)) = Some c ->
  fst (mul_for G s (f1 ++ s :: f2)) = true /\ ev (snd (mul_for G s (f1 ++ s :: f2))) = Some c.
Proof.
  intros F E. revert c E. induction f1 as [|a f1 IH]; intros c E; cbn [app] in *.
  - pose proof (free_amo _ F) as N. rewrite eval_Mul in E. destruct (mul_for_out I G HG rho s f2 N c E) as [Q M]. cbn [mul_for]. destruct (mul_for G s f2) as [fd m].
    rewrite expr_eqb_refl. cbn [fst snd] in *. auto.
  - inversion F as [|? ? Fa Fl]; subst. rewrite eval_Mul, eprod_cons in E. apply olift2_some in E as (u & w & Eu & Ew & ->).
    destruct (IH Fl w) as [Q M]; [now rewrite eval_Mul|]. cbn [mul_for]. destruct (mul_for G s (f1 ++ s :: f2)) as [fd m]. cbn [fst snd] in *. subst fd.
    replace (expr_eqb a s) with false by (symmetry; apply not_true_is_false; intros C; apply expr_eqb_eq in C; now apply (not_s a)).
    assert (R : ev (gmul G m a) = Some (u * w)) by (rewrite Rmult_comm; now apply (gmul_val I G HG)).
    destruct a; cbn [fst snd]; auto. destruct (expr_eqb a1 s) eqn:E1; auto. apply expr_eqb_eq in E1. now apply not_pow in Fa.
Qed.
Lemma free_addend t v cx rx c r : x_free t -> ev t = Some v -> ev cx = Some c -> ev rx = Some r ->
  ev (fst (collect_addend G s t (cx, rx))) = Some c /\ ev (snd (collect_addend G s t (cx, rx))) = Some (r + v).
Proof.
  intros F E C R. assert (A : ev (gadd G rx t) = Some (r + v)) by now apply (gadd_val I G HG).
  assert (Q : expr_eqb t s = false) by (apply not_true_is_false; intros H; apply expr_eqb_eq in H; now apply (not_s t)).
  unfold collect_addend. destruct t; try (rewrite Q; cbn [fst snd]; auto; fail).
  - assert (Fl : Forall x_free l) by now apply VerifyProofs.existsb_free. pose proof (free_amo _ Fl) as N. rewrite eval_Mul in E.
    destruct (mul_for_out I G HG rho s l N v E) as [Q1 _]. destruct (mul_for G s l) as [fd m]. cbn [fst] in Q1. subst fd. cbn [fst snd]. auto.
  - rewrite Q. destruct (expr_eqb t1 s) eqn:E1; [apply expr_eqb_eq in E1; now apply not_pow in F|]. cbn [fst snd]. auto.
Qed.
Lemma sum_parts_collect l c r : sum_parts I rho s l c r ->
  ev (fst (fold_right (collect_addend G s) (Num 0, Num 0) l)) = Some c /\ ev (snd (fold_right (collect_addend G s) (Num 0, Num 0) l)) = Some r.
Proof.
  induction 1 as [|t l c r c' r' T S [IH1 IH2]]; [split; apply num0|]. cbn [fold_right].
  destruct (fold_right (collect_addend G s) (Num 0, Num 0) l) as [cx rx]. cbn [fst snd] in *.
  destruct T as [t v F E| |f1 f2 c F E].
  - rewrite Rplus_0_l. rewrite (Rplus_comm v). eapply free_addend; eauto.
  - assert (Q : collect_addend G s s (cx, rx) = (gadd G cx (Num 1), rx)).
    { unfold collect_addend. destruct (NA []) as [_ _]. destruct s; rewrite ?expr_eqb_refl; try reflexivity. now destruct (NA l0) as [_ H]; elim H. }
    rewrite Q. cbn [fst snd]. rewrite Rplus_0_l. split; auto. rewrite Rplus_comm. apply (gadd_val I G HG); auto. apply num1.
  - unfold collect_addend. destruct (mul_for_parts f1 f2 c F E) as [Q M]. destruct (mul_for G s (f1 ++ s :: f2)) as [fd m]. cbn [fst snd] in *. subst fd. cbn [fst snd].
    rewrite Rplus_0_l. split; auto. rewrite Rplus_comm. now apply (gadd_val I G HG).
Qed.
(** Weight and right-hand side as used. *)
Context (si : expr -> expr).
Definition used_weight (rhs addend : expr) : expr := weight_of G addend s (snd (collect_term G si s rhs)).
Definition unit_clash (rhs addend : expr) : Prop := (exists l, si rhs = Add l) /\ (exists fs, addend = Mul fs) /\ snd (collect_term G si s rhs) = Num 1.
Lemma weight_val rhs addend c r : multiple_of s addend -> term_of addend (si rhs) -> ~ unit_clash rhs addend -> has_parts I rho s (si rhs) c r ->
  ev (used_weight rhs addend) = Some c /\ ev (fst (collect_term G si s rhs)) = Some (c * sv + r).
Proof.
  intros Mu Te NU P. assert (D : (exists l, si rhs = Add l) \/ forall l, si rhs <> Add l) by (destruct (si rhs); eauto; right; intros; discriminate).
  destruct D as [[l El]|NAdd].
  - unfold used_weight. unfold unit_clash in NU. unfold collect_term in *. rewrite El in *. cbn [has_parts] in P. destruct (sum_parts_collect l c r P) as [C R].
    destruct (fold_right (collect_addend G s) (Num 0, Num 0) l) as [cx rx]. cbn [fst snd] in *. split.
    + unfold weight_of. destruct addend; auto. destruct (is_num 1 cx) eqn:N1; auto. exfalso. apply NU. split; eauto. split; eauto.
      unfold is_num in N1. destruct cx; try discriminate. apply Qc_eqb_eq in N1. now subst.
    + rewrite Rplus_comm. apply (gadd_val I G HG); auto. rewrite Rmult_comm. now apply (gmul_val I G HG).
  - assert (Ea : si rhs = addend) by (destruct Te as [H|(l & H & _)]; auto; now elim (NAdd l)).
    assert (P' : term_parts I rho s addend c r) by (rewrite Ea in *; destruct addend; auto; now elim (NAdd l)).
    assert (Ct : collect_term G si s rhs = (addend, Num 1)) by (unfold collect_term; rewrite Ea; destruct addend; auto; now elim (NAdd l)).
    unfold used_weight. rewrite Ct. cbn [fst snd]. split; [|now apply term_parts_val].
    destruct P' as [t v F E| |f1 f2 c F E].
    + exfalso. destruct Mu as [->|(f1 & f2 & ->)]; [unfold x_free in F; congruence|]. unfold x_free in F. cbn [has_x_function] in F. rewrite existsb_app in F. cbn [existsb] in F. rewrite NS, orb_true_r in F. discriminate.
    + unfold weight_of. destruct s; try apply num1. now destruct (NA l) as [_ H]; elim H.
    + unfold weight_of. cbn [is_num Qc_eqb]. replace (is_num 1 (Num 1)) with true by reflexivity. replace (Qc_eqb 1 1) with true by reflexivity.
      assert (Gen : forall l v, ~ In s l -> eprod I rho l = Some v -> forall z zv, ev z = Some zv ->
                ev (fold_right (fun f acc => if expr_eqb f s then acc else gmul G acc f) z l) = Some (zv * v)).
      { clear - HG. induction l as [|a l IH]; intros v N E z zv Hz; [cbn in *; injection E as <-; rewrite Rmult_1_r; auto|].
        rewrite eprod_cons in E. apply olift2_some in E as (x & y & Ex & Ey & ->). cbn [fold_right].
        replace (expr_eqb a s) with false by (symmetry; apply not_true_is_false; intros C; apply expr_eqb_eq in C; subst; apply N; now left).
        replace (zv * (x * y)) with (zv * y * x) by ring. apply (gmul_val I G HG); auto. apply IH; auto. intros H; apply N; now right. }
      rewrite eval_Mul, eprod_app in E. apply olift2_some in E as (a & b & Ea' & Eb & ->). pose proof (free_amo _ F) as N0. assert (N : ~ In s (f1 ++ f2)) by (intros Hin; rewrite Forall_forall in N0; exact (N0 s Hin (or_introl eq_refl))).
      rewrite fold_right_app. cbn [fold_right]. rewrite expr_eqb_refl.
      rewrite (Gen f1 a) with (zv := b); auto; [f_equal; ring|intros H; apply N; apply in_or_app; auto|].
      rewrite (Gen f2 b) with (zv := 1); auto; [f_equal; ring|intros H; apply N; apply in_or_app; auto|apply num1].
Qed.
End Parts.
