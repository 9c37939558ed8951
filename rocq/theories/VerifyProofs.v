(** Proofs for C31, C32. *)
From Coq Require Import ZArith QArith Qcanon Reals List String Bool Lia Lra.
From Verif Require Import Fld Ast ExprModel ExprSpec ExprProofs1 ExprProofs2 ExprProofs3 SeqInterp ElimModel ElimSpec ElimProofs VerifyModel VerifySpec.
Import ListNotations.
Local Open Scope R_scope.
Local Open Scope list_scope.

(** * Annihilators *)
Definition dstep (d : R) (s : nat -> R) : nat -> R := fun n => s (S n) - d * s n.
Fixpoint killed (ds : list R) (s : nat -> R) : Prop :=
  match ds with [] => forall n, s n = 0 | d :: ds => killed ds (dstep d s) end.
Lemma killed_ext ds : forall s t, (forall n, s n = t n) -> killed ds s -> killed ds t.
Proof.
  induction ds as [|d ds IH]; cbn [killed]; intros s t E H; [intros n; rewrite <- E; auto|].
  eapply IH; [|exact H]. intros n. unfold dstep. now rewrite !E.
Qed.
Lemma killed_add ds : forall s t, killed ds s -> killed ds t -> killed ds (fun n => s n + t n).
Proof.
  induction ds as [|d ds IH]; cbn [killed]; intros s t Hs Ht; [intros n; rewrite Hs, Ht; lra|].
  eapply killed_ext; [|exact (IH _ _ Hs Ht)]. intros n. unfold dstep. ring.
Qed.
Lemma killed_zero ds : killed ds (fun _ => 0).
Proof. induction ds as [|d ds IH]; cbn [killed]; auto. eapply killed_ext; [|exact IH]. intros n. unfold dstep. ring. Qed.
Lemma killed_geo ds d : In d ds -> forall c, killed ds (fun n => c * d ^ n).
Proof.
  induction ds as [|a ds IH]; intros H c; [destruct H|]. cbn [killed]. destruct H as [->|H].
  - eapply killed_ext; [|apply killed_zero]. intros n. unfold dstep. cbn [pow]. ring.
  - eapply killed_ext; [|apply (IH H (c * (d - a)))]. intros n. unfold dstep. cbn [pow]. ring.
Qed.
Lemma killed_linear ds : (2 <= count_occ Req_EM_T ds 1%R)%nat -> forall a b, killed ds (fun n => a * INR n + b).
Proof.
  induction ds as [|d ds IH]; cbn [count_occ]; [lia|]. intros H a b. cbn [killed]. destruct (Req_EM_T d 1) as [->|Ne].
  - assert (In 1 ds) by (apply (count_occ_In Req_EM_T); lia).
    eapply killed_ext; [|apply (killed_geo ds 1 H0 a)]. intros n. unfold dstep. rewrite pow1, S_INR. ring.
  - eapply killed_ext; [|apply (IH ltac:(lia) (a * (1 - d)) (a + b - d * b))]. intros n. unfold dstep. rewrite S_INR. ring.
Qed.
Lemma killed_vanish ds : forall s, killed ds s -> (forall i, (i < List.length ds)%nat -> s i = 0) -> forall n, s n = 0.
Proof.
  induction ds as [|d ds IH]; cbn [killed List.length]; intros s K H; auto.
  assert (Z : forall n, dstep d s n = 0).
  { apply IH; auto. intros i Hi. unfold dstep. rewrite !H by lia. ring. }
  induction n as [|n IHn]; [apply H; lia|]. specialize (Z n). unfold dstep in Z. rewrite IHn in Z. lra.
Qed.

(** The same over any field, for sums of exponentials. *)
Section Field.
Context {K : Fld}.
Add Field KFve : (fth K).
Local Open Scope fld_scope.
Lemma exp_sum_cons (c d : K) l n : exp_sum_at ((c, d) :: l) n = c * d ^ n + exp_sum_at l n. Proof. reflexivity. Qed.
Lemma exp_sum_cancel (c d : K) n : exp_sum_at [(c, d); (- c, d)] n = 0. Proof. unfold exp_sum_at. cbn [fold_right fst snd]. ring. Qed.
Lemma exp_sum_vanish : forall m (l : list (K * K)), List.length l = m -> (forall i, (i < m)%nat -> exp_sum_at l i = 0) -> forall n, exp_sum_at l n = 0.
Proof.
  induction m as [|m IH]; intros l L H n.
  - destruct l; [reflexivity|discriminate].
  - destruct l as [|[c d] l]; [discriminate|]. injection L as L.
    (* remove the first exponential *)
    pose (l' := map (fun cd => (fst cd * (snd cd - d), snd cd)) l).
    assert (E : forall k, exp_sum_at l' k = exp_sum_at ((c, d) :: l) (S k) - d * exp_sum_at ((c, d) :: l) k).
    { intros k. rewrite !exp_sum_cons, fpow_S.
      assert (F : exp_sum_at l' k = exp_sum_at l (S k) - d * exp_sum_at l k).
      { unfold l'. clear. induction l as [|[a b] l IHl]; [cbn; ring|]. cbn [map fst snd].
        rewrite !exp_sum_cons, IHl, fpow_S. ring. }
      rewrite F. ring. }
    assert (Z : forall k, exp_sum_at l' k = 0).
    { apply IH; [unfold l'; now rewrite map_length|]. intros i Hi. rewrite E, !H by lia. ring. }
    induction n as [|n IHn]; [apply H; lia|]. specialize (Z n). rewrite E, IHn in Z.
    transitivity (exp_sum_at ((c, d) :: l) (S n) - d * 0); [ring|exact Z].
Qed.
End Field.

(** * Substitution of x(.) *)
Section Subst.
Context (I : interp) (G : ginac).
Context (HG : forall x, ginac_ok (with_x I x) G) (HK : x_kept G).
Notation sub a r := (substitute G (Fun FX a) r).
Lemma existsb_free l : existsb has_x_function l = false <-> Forall x_free l.
Proof.
  unfold x_free. induction l as [|a l IH]; cbn [existsb]; [split; auto|]. rewrite orb_false_iff, IH.
  split; [intros [? ?]; constructor; auto|intros H; inversion H; auto].
Qed.
Lemma forallb_out l : forallb x_outside l = true <-> Forall (fun a => x_outside a = true) l.
Proof. rewrite forallb_forall, Forall_forall. reflexivity. Qed.
Lemma add_all_free l : Forall x_free l -> x_free (add_all G l).
Proof. induction 1 as [|a l Ha Hl IH]; [reflexivity|]. cbn [add_all fold_right]. apply (xk_add _ HK); auto. Qed.
Lemma mul_all_free l : Forall x_free l -> x_free (mul_all G l).
Proof. induction 1 as [|a l Ha Hl IH]; [reflexivity|]. cbn [mul_all fold_right]. apply (xk_mul _ HK); auto. Qed.
Lemma add_all_out l : Forall (fun a => x_outside a = true) l -> x_outside (add_all G l) = true.
Proof. induction 1 as [|a l Ha Hl IH]; [reflexivity|]. cbn [add_all fold_right]. apply (xo_add _ HK); auto. Qed.
Lemma mul_all_out l : Forall (fun a => x_outside a = true) l -> x_outside (mul_all G l) = true.
Proof. induction 1 as [|a l Ha Hl IH]; [reflexivity|]. cbn [mul_all fold_right]. apply (xo_mul _ HK); auto. Qed.

Lemma sub_free a r e : x_free e -> x_free (sub a r e) /\ forall x rho v, eval (with_x I x) rho e = Some v -> eval (with_x I x) rho (sub a r e) = Some v.
Proof.
  unfold x_free at 1. induction e using expr_ind'; intros F; cbn [has_x_function] in F; cbn [substitute].
  - cbn [expr_eqb]. split; auto.
  - cbn [expr_eqb]. split; auto.
  - cbn [expr_eqb]. split; auto.
  - cbn [expr_eqb]. apply existsb_free in F. split.
    + apply add_all_free. rewrite Forall_forall in *. intros b Hb. apply in_map_iff in Hb as (c & <- & Hc). now apply H, F.
    + intros x rho v E. apply (add_all_ok (with_x I x) G (HG x)). rewrite eval_Add in *. eapply esum_map; [|exact E]. rewrite Forall_forall in *. intros b Hb u Hu. refine (proj2 (H b Hb _) x rho u Hu). now apply F.
  - cbn [expr_eqb]. apply existsb_free in F. split.
    + apply mul_all_free. rewrite Forall_forall in *. intros b Hb. apply in_map_iff in Hb as (c & <- & Hc). now apply H, F.
    + intros x rho v E. apply (mul_all_ok (with_x I x) G (HG x)). rewrite eval_Mul in *. eapply eprod_map; [|exact E]. rewrite Forall_forall in *. intros b Hb u Hu. refine (proj2 (H b Hb _) x rho u Hu). now apply F.
  - cbn [expr_eqb]. apply orb_false_iff in F as [F1 F2]. destruct (IHe1 F1) as [A1 B1], (IHe2 F2) as [A2 B2]. split; [now apply (xk_pow _ HK)|].
    intros x rho v E. apply (gpow_ok _ _ (HG x)). cbn [eval] in *.
    destruct (eval (with_x I x) rho e1) as [u|] eqn:E1; [|discriminate]. cbn [obind] in *.
    destruct (eval (with_x I x) rho e2) as [w|] eqn:E2; [|discriminate]. cbn [obind] in *.
    rewrite (B1 _ _ _ E1), (B2 _ _ _ E2). exact E.
  - assert (Nf : f <> FX) by (intros ->; discriminate).
    assert (F' : existsb has_x_function l = false) by (destruct f; auto; discriminate). clear F.
    assert (E : expr_eqb (Fun f l) (Fun FX a) = false) by (apply expr_eqb_neq; intros C; injection C as -> _; auto).
    rewrite E. apply existsb_free in F'. split.
    + apply (xk_fun _ HK); auto. rewrite Forall_forall in *. intros b Hb. apply in_map_iff in Hb as (c & <- & Hc). now apply H, F'.
    + intros x rho v Hv. apply (gfun_ok _ _ (HG x)). cbn [eval] in *.
      destruct (omap (eval (with_x I x) rho) l) as [vs|] eqn:Ev; [|discriminate].
      rewrite (omap_map (with_x I x) rho rho _ l vs); auto. rewrite Forall_forall in *. intros b Hb u Hu. refine (proj2 (H b Hb _) x rho u Hu). now apply F'.
  - cbn [expr_eqb apply_sum]. rewrite !orb_false_iff in F. destruct F as [[F1 F2] F3].
    destruct (IHe1 F1) as [A1 B1], (IHe2 F2) as [A2 B2], (IHe3 F3) as [A3 B3]. split; [now apply (xk_sum _ HK)|].
    intros x rho v E. apply (gsum_ok _ _ (HG x)). apply eval_sum_inv in E as (p & q & Ea & Eb & Es).
    apply (eval_sum_intro _ _ _ _ _ _ _ p q); eauto. eapply osum_mono; [|exact Es]. intros i Hi u Hu. apply B3, Hu.
  - cbn [expr_eqb apply_prod]. rewrite !orb_false_iff in F. destruct F as [[F1 F2] F3].
    destruct (IHe1 F1) as [A1 B1], (IHe2 F2) as [A2 B2], (IHe3 F3) as [A3 B3]. split; [now apply (xk_prod _ HK)|].
    intros x rho v E. apply (gprod_ok _ _ (HG x)). apply eval_prod_inv in E as (p & q & Ea & Eb & Es).
    apply (eval_prod_intro _ _ _ _ _ _ _ p q); eauto. eapply oprod_mono; [|exact Es]. intros i Hi u Hu. apply B3, Hu.
Qed.
Lemma free_outside e : x_free e -> x_outside e = true.
Proof.
  unfold x_free. induction e using expr_ind'; cbn [has_x_function x_outside]; intros F; auto.
  - apply forallb_out. apply existsb_free in F. rewrite Forall_forall in *. intros a Ha. apply H, F; auto.
  - apply forallb_out. apply existsb_free in F. rewrite Forall_forall in *. intros a Ha. apply H, F; auto.
  - apply orb_false_iff in F as [F1 F2]. now rewrite IHe1, IHe2.
  - assert (F' : existsb has_x_function l = false) by (destruct f; auto; discriminate).
    apply forallb_out. apply existsb_free in F'. rewrite Forall_forall in *. intros a Ha. apply H, F'; auto.
  - now rewrite F.
  - now rewrite F.
Qed.
(** Replacing x(a) by something with the same value. *)
Lemma sub_x a r e x rho : x_outside e = true -> x_free r ->
  (forall w, eval (with_x I x) rho (Fun FX a) = Some w -> eval (with_x I x) rho r = Some w) ->
  x_outside (sub a r e) = true /\ forall v, eval (with_x I x) rho e = Some v -> eval (with_x I x) rho (sub a r e) = Some v.
Proof.
  intros O Fr Hr. assert (Or : x_outside r = true) by now apply free_outside.
  induction e using expr_ind'; cbn [x_outside] in O; cbn [substitute].
  - cbn [expr_eqb]. split; auto.
  - cbn [expr_eqb]. split; auto.
  - cbn [expr_eqb]. split; auto.
  - cbn [expr_eqb]. apply forallb_out in O. rewrite Forall_forall in H, O. split.
    + apply add_all_out. rewrite Forall_forall. intros b Hb. apply in_map_iff in Hb as (c & <- & Hc). now apply H, O.
    + intros v E. apply (add_all_ok (with_x I x) G (HG x)). rewrite eval_Add in *. eapply esum_map; [|exact E]. rewrite Forall_forall. intros b Hb u Hu. apply H; auto.
  - cbn [expr_eqb]. apply forallb_out in O. rewrite Forall_forall in H, O. split.
    + apply mul_all_out. rewrite Forall_forall. intros b Hb. apply in_map_iff in Hb as (c & <- & Hc). now apply H, O.
    + intros v E. apply (mul_all_ok (with_x I x) G (HG x)). rewrite eval_Mul in *. eapply eprod_map; [|exact E]. rewrite Forall_forall. intros b Hb u Hu. apply H; auto.
  - cbn [expr_eqb]. apply andb_true_iff in O as [O1 O2]. destruct (IHe1 O1) as [A1 B1], (IHe2 O2) as [A2 B2]. split; [now apply (xo_pow _ HK)|].
    intros v E. apply (gpow_ok _ _ (HG x)). cbn [eval] in *.
    destruct (eval (with_x I x) rho e1) as [u|] eqn:E1; [|discriminate]. cbn [obind] in *.
    destruct (eval (with_x I x) rho e2) as [w|] eqn:E2; [|discriminate]. cbn [obind] in *.
    rewrite (B1 _ eq_refl), (B2 _ eq_refl). exact E.
  - destruct (expr_eqb (Fun f l) (Fun FX a)) eqn:E.
    + apply expr_eqb_eq in E. injection E as -> ->. split; auto.
    + apply forallb_out in O. rewrite Forall_forall in H, O. split.
      * apply (xo_fun _ HK). rewrite Forall_forall. intros b Hb. apply in_map_iff in Hb as (c & <- & Hc). now apply H, O.
      * intros v Hv. apply (gfun_ok _ _ (HG x)). cbn [eval] in *.
        destruct (omap (eval (with_x I x) rho) l) as [vs|] eqn:Ev; [|discriminate].
        rewrite (omap_map (with_x I x) rho rho _ l vs); auto. rewrite Forall_forall. intros b Hb u Hu. apply H; auto.
  - apply negb_true_iff in O. assert (F : x_free (SumE k e1 e2 e3)) by exact O.
    destruct (sub_free a r (SumE k e1 e2 e3) F) as [A B]. split; [now apply free_outside|]. intros v E. apply B, E.
  - apply negb_true_iff in O. assert (F : x_free (ProdE k e1 e2 e3)) by exact O.
    destruct (sub_free a r (ProdE k e1 e2 e3) F) as [A B]. split; [now apply free_outside|]. intros v E. apply B, E.
Qed.
(** Substitution for n in an expression free of x. *)
Lemma sub_n_free r e : x_free r -> x_free e -> x_free (substitute G (Sym "n") r e).
Proof.
  intros Fr. unfold x_free at 1. induction e using expr_ind'; cbn [has_x_function]; intros F; cbn [substitute].
  - reflexivity.
  - reflexivity.
  - destruct (expr_eqb (Sym s) (Sym "n")); auto.
  - apply add_all_free. apply existsb_free in F. rewrite Forall_forall in *. intros b Hb. apply in_map_iff in Hb as (c & <- & Hc). now apply H, F.
  - apply mul_all_free. apply existsb_free in F. rewrite Forall_forall in *. intros b Hb. apply in_map_iff in Hb as (c & <- & Hc). now apply H, F.
  - apply orb_false_iff in F as [F1 F2]. apply (xk_pow _ HK); auto.
  - assert (Nf : f <> FX) by (intros ->; discriminate).
    assert (F' : existsb has_x_function l = false) by (destruct f; auto; discriminate). cbn [expr_eqb].
    apply (xk_fun _ HK); auto. apply existsb_free in F'. rewrite Forall_forall in *. intros b Hb. apply in_map_iff in Hb as (c & <- & Hc). now apply H, F'.
  - rewrite !orb_false_iff in F. destruct F as [[F1 F2] F3]. specialize (IHe1 F1). specialize (IHe2 F2). specialize (IHe3 F3).
    change (x_free (apply_sum G (if expr_eqb (Sym k) (Sym "n") then r else Sym k) (substitute G (Sym "n") r e1) (substitute G (Sym "n") r e2) (substitute G (Sym "n") r e3))).
    destruct (expr_eqb (Sym k) (Sym "n")).
    + assert (D : (exists s, r = Sym s) \/ apply_sum G r (substitute G (Sym "n") r e1) (substitute G (Sym "n") r e2) (substitute G (Sym "n") r e3) = gfun G (FOther "sum") [r; substitute G (Sym "n") r e1; substitute G (Sym "n") r e2; substitute G (Sym "n") r e3]) by (destruct r; eauto).
      destruct D as [(s & Es)| ->].
      * rewrite Es in *. cbn [apply_sum]. apply (xk_sum _ HK); auto.
      * apply (xk_fun _ HK); [discriminate|repeat constructor; auto].
    + cbn [apply_sum]. apply (xk_sum _ HK); auto.
  - rewrite !orb_false_iff in F. destruct F as [[F1 F2] F3]. specialize (IHe1 F1). specialize (IHe2 F2). specialize (IHe3 F3).
    change (x_free (apply_prod G (if expr_eqb (Sym k) (Sym "n") then r else Sym k) (substitute G (Sym "n") r e1) (substitute G (Sym "n") r e2) (substitute G (Sym "n") r e3))).
    destruct (expr_eqb (Sym k) (Sym "n")).
    + assert (D : (exists s, r = Sym s) \/ apply_prod G r (substitute G (Sym "n") r e1) (substitute G (Sym "n") r e2) (substitute G (Sym "n") r e3) = gfun G (FOther "prod") [r; substitute G (Sym "n") r e1; substitute G (Sym "n") r e2; substitute G (Sym "n") r e3]) by (destruct r; eauto).
      destruct D as [(s & Es)| ->].
      * rewrite Es in *. cbn [apply_prod]. apply (xk_prod _ HK); auto.
      * apply (xk_fun _ HK); [discriminate|repeat constructor; auto].
    + cbn [apply_prod]. apply (xk_prod _ HK); auto.
Qed.
End Subst.
