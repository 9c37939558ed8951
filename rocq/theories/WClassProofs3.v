(** Accepted summands are linear in x(k). *)
From Coq Require Import ZArith QArith Qcanon Reals List String Bool Lia Lra.
From Verif Require Import Ast ExprModel ExprSpec ExprProofs1 ExprProofs2 SeqInterp ElimModel ElimSpec ElimProofs NonLinModel NonLinProofs VerifySpec VerifyProofs WClassModel WClassSpec.
Import ListNotations.
Local Open Scope R_scope.
Local Open Scope list_scope.

Section Affine.
Context (I : interp) (rho : string -> R) (s : string).
Definition affine_by (d : nat) (f : R -> option R) : Prop := exists a b, (d = 0%nat -> a = 0) /\ forall t v, f t = Some v -> v = a * t + b.
Lemma affine_const d (f : R -> option R) : (forall t t' v v', f t = Some v -> f t' = Some v' -> v = v') -> affine_by d f.
Proof.
  intros H. destruct (Classical_Prop.classic (exists t v, f t = Some v)) as [(t0 & v0 & E0)|N].
  - exists 0, v0. split; auto. intros t v E. rewrite (H _ _ _ _ E E0). ring.
  - exists 0, 0. split; auto. intros t v E. elim N. eauto.
Qed.
Lemma degree_affine e : forall d, degree_in s e = Some d -> (d <= 1)%nat -> affine_by d (fun t => eval I (upd rho s t) e).
Proof.
  assert (Free : forall e d, has s e = false -> affine_by d (fun t => eval I (upd rho s t) e)).
  { intros e0 d H. apply affine_const. intros t t' v v' E E'. rewrite eval_upd_fresh in E, E' by auto. congruence. }
  assert (Other : forall e d, (if has s e then None else Some 0%nat) = Some d -> affine_by d (fun t => eval I (upd rho s t) e)).
  { intros e0 d H. destruct (has s e0) eqn:Hh; [discriminate|]. now apply Free. }
  induction e using expr_ind'; intros d E L; cbn [degree_in] in E; try (apply Other; exact E).
  - assert (Ed : d = if String.eqb s s0 then 1%nat else 0%nat) by congruence. destruct (String.eqb_spec s s0) as [->|N].
    + exists 1, 0. split; [lia|]. intros t v V. cbn [eval] in V. unfold upd in V. rewrite String.eqb_refl in V. assert (t = v) by congruence. subst. ring.
    + apply Free. cbn [has]. apply String.eqb_neq. congruence.
  - revert d E L. induction H as [|a l Ha Hl IH]; intros d E L.
    + exists 0, 0. split; auto. intros t v V. cbn in V. assert (v = 0) by congruence. subst. ring.
    + cbn [fold_right] in E. destruct (degree_in s a) as [da|] eqn:Da; [|discriminate]. destruct (fold_right _ (Some 0%nat) l) as [dl|] eqn:Dl; [|discriminate].
      assert (d = Nat.max da dl) by congruence. subst d. destruct (Ha da eq_refl ltac:(lia)) as (a1 & b1 & Z1 & A1). destruct (IH dl eq_refl ltac:(lia)) as (a2 & b2 & Z2 & A2).
      exists (a1 + a2), (b1 + b2). split; [intros Z0; rewrite Z1, Z2 by lia; ring|]. intros t v V. rewrite eval_Add, esum_cons in V. apply olift2_some in V as (u & w & U & W & ->).
      rewrite (A1 t u U), (A2 t w ltac:(now rewrite eval_Add)). ring.
  - revert d E L. induction H as [|a l Ha Hl IH]; intros d E L.
    + exists 0, 1. split; auto. intros t v V. cbn in V. assert (v = 1) by congruence. subst. ring.
    + cbn [fold_right] in E. destruct (degree_in s a) as [da|] eqn:Da; [|discriminate]. destruct (fold_right _ (Some 0%nat) l) as [dl|] eqn:Dl; [|discriminate].
      assert (d = (da + dl)%nat) by congruence. subst d. destruct (Ha da eq_refl ltac:(lia)) as (a1 & b1 & Z1 & A1). destruct (IH dl eq_refl ltac:(lia)) as (a2 & b2 & Z2 & A2).
      assert (Zero : a1 = 0 \/ a2 = 0) by (destruct da; [left; auto|right; apply Z2; lia]).
      exists (a1 * b2 + b1 * a2), (b1 * b2). split; [intros Z0; rewrite Z1, Z2 by lia; ring|]. intros t v V. rewrite eval_Mul, eprod_cons in V. apply olift2_some in V as (u & w & U & W & ->).
      rewrite (A1 t u U), (A2 t w ltac:(now rewrite eval_Mul)). destruct Zero as [-> | ->]; ring.
  - destruct e2 as [q| | | | | | | |]; try (apply Other; exact E). destruct (degree_in s e1) as [[|d1]|] eqn:D1; [| |discriminate].
    + destruct (IHe1 0%nat eq_refl ltac:(lia)) as (a1 & b1 & Z1 & A1). rewrite (Z1 eq_refl) in A1. apply affine_const. intros t t' v v' V V'. cbn [eval] in V, V'.
      destruct (eval I (upd rho s t) e1) as [u|] eqn:U; [|discriminate]. destruct (eval I (upd rho s t') e1) as [u'|] eqn:U'; [|discriminate].
      rewrite (A1 _ _ U) in V. rewrite (A1 _ _ U') in V'. rewrite !Rmult_0_l in *. congruence.
    + destruct (q_is_int q && (0 <=? q_int q)%Z) eqn:Q; [|discriminate]. apply andb_true_iff in Q as [Q1 Q2]. apply Z.leb_le in Q2.
      assert (Ed : d = (S d1 * Z.to_nat (q_int q))%nat) by congruence. pose proof (proj1 (q_is_int_spec q) Q1) as Hz.
      assert (Rq : rv q = INR (Z.to_nat (q_int q))).
      { rewrite Hz, INR_IZR_INZ. rewrite Z2Nat.id by auto. reflexivity. }
      destruct (Z.to_nat (q_int q)) as [|[|m]]; [| |cbn in Ed; lia].
      * apply affine_const. intros t t' v v' V V'. cbn [eval] in V, V'. rewrite Rq in V, V'.
        destruct (eval I (upd rho s t) e1) as [u|] eqn:U; [|discriminate]. destruct (eval I (upd rho s t') e1) as [u'|] eqn:U'; [|discriminate]. cbn [obind] in V, V'. rewrite rpow_nat in V, V'. cbn in V, V'. congruence.
      * rewrite Nat.mul_1_r in Ed. subst d. destruct (IHe1 (S d1) eq_refl L) as (a1 & b1 & Z1 & A1). exists a1, b1. split; auto. intros t v V. apply A1. cbn [eval] in V. rewrite Rq in V.
        destruct (eval I (upd rho s t) e1) as [u|] eqn:U; [|discriminate]. cbn [obind] in V. rewrite rpow_nat, pow_1 in V. exact V.
Qed.
End Affine.

Section Accepted.
Context (I : interp) (G : ginac) (HG : forall x, ginac_ok (with_x I x) G) (HK : x_kept G).
Lemma x_only_all k l : fold_right (fun a P => x_only_at k a /\ P) True l -> Forall (x_only_at k) l.
Proof. induction l as [|a l IH]; cbn; [constructor|]. intros [H1 H2]. constructor; auto. Qed.
Lemma x_only_outside k e : x_only_at k e -> x_outside e = true.
Proof.
  induction e using expr_ind'; cbn [x_only_at x_outside]; intros O; auto.
  - apply forallb_forall. rewrite Forall_forall in H. apply x_only_all in O. rewrite Forall_forall in O. intros a Ha. auto.
  - apply forallb_forall. rewrite Forall_forall in H. apply x_only_all in O. rewrite Forall_forall in O. intros a Ha. auto.
  - destruct O as [O1 O2]. now rewrite IHe1, IHe2.
  - destruct (match f with FX => true | _ => false end) eqn:F.
    + destruct f; try discriminate. subst l. reflexivity.
    + assert (O' : Forall (x_only_at k) l) by (apply x_only_all; destruct f; auto; discriminate). apply forallb_forall. rewrite Forall_forall in H, O'. intros a Ha. auto.
  - destruct O as (O1 & O2 & O3). unfold x_free in *. now rewrite O1, O2, O3.
  - destruct O as (O1 & O2 & O3). unfold x_free in *. now rewrite O1, O2, O3.
Qed.
Lemma sub_x_free k r e : x_only_at k e -> x_free r -> x_free (substitute G (Fun FX [Sym k]) r e).
Proof.
  intros O Fr. induction e using expr_ind'; cbn [x_only_at] in O; try reflexivity.
  - cbn [substitute expr_eqb]. apply (add_all_free G HK). apply x_only_all in O. rewrite Forall_forall in *. intros b Hb. apply in_map_iff in Hb as (c & <- & Hc). auto.
  - cbn [substitute expr_eqb]. apply (mul_all_free G HK). apply x_only_all in O. rewrite Forall_forall in *. intros b Hb. apply in_map_iff in Hb as (c & <- & Hc). auto.
  - cbn [substitute expr_eqb]. destruct O. apply (xk_pow _ HK); auto.
  - destruct (match f with FX => true | _ => false end) eqn:F.
    + destruct f; try discriminate. subst l. unfold substitute. rewrite expr_eqb_refl. exact Fr.
    + assert (O' : Forall (x_only_at k) l) by (apply x_only_all; destruct f; auto; discriminate). cbn [substitute].
      replace (expr_eqb (Fun f l) (Fun FX [Sym k])) with false by (symmetry; apply expr_eqb_neq; intros C; injection C as -> _; discriminate).
      apply (xk_fun _ HK); [intros ->; discriminate|]. rewrite Forall_forall in *. intros b Hb. apply in_map_iff in Hb as (c & <- & Hc). auto.
  - destruct O as (O1 & O2 & O3). apply (sub_free I G HG HK [Sym k] r (SumE k0 e1 e2 e3)). unfold x_free in *. cbn [has_x_function]. now rewrite O1, O2, O3.
  - destruct O as (O1 & O2 & O3). apply (sub_free I G HG HK [Sym k] r (ProdE k0 e1 e2 e3)). unfold x_free in *. cbn [has_x_function]. now rewrite O1, O2, O3.
Qed.
Theorem accepted_affine simplify_input simplify_all expand domain : sound_simplification I expand ->
  forall rhs addend k lo up body w' h' w h rfo rew,
  classify_weighted G simplify_input simplify_all expand domain rhs addend k lo up body = Weighted w' h' w h rfo rew ->
  x_only_at k body -> has "x_k" body = false -> k <> "x_k"%string ->
  forall rho i, exists a b, forall x v, eval (with_x I x) (upd rho k (INR i)) body = Some v -> v = a * x i + b.
Proof.
  intros [Ex1 Ex2] rhs addend k lo up body w' h' w h rfo rew C O Fr Nk rho i.
  assert (L : linear_summand G expand k body = true).
  { unfold classify_weighted in C. destruct (has "n" up && _); [|discriminate]. destruct (collect_term _ _ _ _) as [r wt]. unfold rewrite_weighted_average in C.
    destruct lo; try discriminate. destruct (negb (q_is_int q)); [discriminate|]. destruct (_ || _); [discriminate|]. destruct (linear_summand G expand k body); auto. discriminate. }
  unfold linear_summand in L. destruct (degree_in "x_k" _) as [d|] eqn:D; [|discriminate]. apply Nat.leb_le in L.
  destruct (degree_affine (with_x I (fun _ => 0)) (upd rho k (INR i)) "x_k" _ d D L) as (a & b & _ & A). exists a, b. intros x v V. apply A.
  rewrite (x_free_eval I _ x _ _ (Ex2 _ (sub_x_free k (Sym "x_k") body O eq_refl))). apply Ex1.
  refine (proj2 (sub_x I G HG HK [Sym k] (Sym "x_k") body x _ (x_only_outside _ _ O) eq_refl _) v _).
  - intros u U. cbn [eval omap obind with_x ifun] in U. unfold upd in U at 1. replace (String.eqb k "x_k") with false in U by (symmetry; now apply String.eqb_neq).
    unfold upd in U. rewrite String.eqb_refl in U. cbn [obind] in U. rewrite INR_IZR_INZ, as_int_IZR in U. replace (0 <=? Z.of_nat i)%Z with true in U by (symmetry; apply Z.leb_le; lia). rewrite Nat2Z.id in U.
    cbn [eval]. unfold upd. rewrite String.eqb_refl. exact U.
  - rewrite eval_upd_fresh; auto.
Qed.
End Accepted.
