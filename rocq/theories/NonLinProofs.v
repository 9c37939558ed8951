From Coq Require Import ZArith QArith Qcanon Qreals Reals List String Bool Lia Lra.
From Verif Require Import Ast ExprModel ExprSpec ExprProofs1 ExprProofs2 ExprProofs3 SeqInterp NonLinModel NonLinSpec.
Import ListNotations.
Local Open Scope R_scope.

Lemma rpow_pos a b : 0 < a -> rpow a b = Some (Rpower a b).
Proof.
  intros Ha. unfold rpow. destruct (as_int b) as [z|] eqn:E.
  - apply as_int_spec in E. subst b. destruct (Req_EM_T a 0); [lra|]. f_equal. now apply powerRZ_Rpower.
  - destruct (Rlt_dec 0 a); [reflexivity|contradiction].
Qed.
Lemma ln_neq0 b : 0 < b -> b <> 1 -> ln b <> 0.
Proof. intros Hb H1 E. apply H1. apply ln_inv; [auto|lra|]. now rewrite ln_1. Qed.
Lemma Rpower_log b v : 0 < b -> b <> 1 -> 0 < v -> Rpower b (ln v / ln b) = v.
Proof. intros Hb H1 Hv. unfold Rpower. replace (ln v / ln b * ln b) with (ln v) by (field; now apply ln_neq0). now apply exp_ln. Qed.
Lemma Rpower_inj b u v : 0 < b -> b <> 1 -> Rpower b u = Rpower b v -> u = v.
Proof. intros Hb H1 H. apply exp_inv in H. apply Rmult_eq_reg_r in H; auto. now apply ln_neq0. Qed.

Section Subst.
Context (I : interp) (G : ginac) (HG : forall x, ginac_ok (with_x I x) G) (HI : log_exp_interp I).

(** A change of sequence seen through a change of expression. *)
Lemma subst_change (k : expr) (m : mode_subs) (X Y : nat -> R) :
  (forall rho l v, not_nested (Fun FX l) -> eval (with_x I X) rho (Fun FX l) = Some v -> eval (with_x I Y) rho (substitute_x_function G k m (Fun FX l)) = Some v) ->
  forall e, not_nested e -> forall rho v, eval (with_x I X) rho e = Some v -> eval (with_x I Y) rho (substitute_x_function G k m e) = Some v.
Proof.
  intros HX. induction e using expr_ind'; intros NN rho v E; cbn [substitute_x_function].
  - exact E.
  - exact E.
  - exact E.
  - apply (add_all_ok _ _ (HG Y)). rewrite eval_Add in *. revert v E. cbn [not_nested] in NN. induction H as [|a l Ha Hl IH]; intros v E; cbn [map]; [exact E|]. cbn [fold_right] in NN. destruct NN as [N1 N2].
    rewrite esum_cons in *. apply olift2_some in E as (x1 & x2 & E1 & E2 & ->). rewrite (Ha N1 _ _ E1), (IH N2 _ E2). reflexivity.
  - apply (mul_all_ok _ _ (HG Y)). rewrite eval_Mul in *. revert v E. cbn [not_nested] in NN. induction H as [|a l Ha Hl IH]; intros v E; cbn [map]; [exact E|]. cbn [fold_right] in NN. destruct NN as [N1 N2].
    rewrite eprod_cons in *. apply olift2_some in E as (x1 & x2 & E1 & E2 & ->). rewrite (Ha N1 _ _ E1), (IH N2 _ E2). reflexivity.
  - apply (gpow_ok _ _ (HG Y)). cbn [eval] in *. destruct (eval (with_x I X) rho e1) eqn:E1; [|discriminate]. cbn [obind] in E.
    destruct (eval (with_x I X) rho e2) eqn:E2; [|discriminate]. cbn [obind] in E. destruct NN as [N1 N2]. rewrite (IHe1 N1 _ _ E1), (IHe2 N2 _ _ E2). exact E.
  - assert (M : f <> FX -> eval (with_x I Y) rho (gfun G f (map (substitute_x_function G k m) l)) = Some v).
    { intros Nf. apply (gfun_ok _ _ (HG Y)). cbn [eval] in *.
      destruct (omap (eval (with_x I X) rho) l) as [vs|] eqn:Ev; [|discriminate].
      assert (O : omap (eval (with_x I Y) rho) (map (substitute_x_function G k m) l) = Some vs).
      { clear E. assert (N : fold_right (fun a P => not_nested a /\ P) True l) by (destruct f; try contradiction; exact NN). clear NN. revert vs Ev. induction H as [|a l Ha Hl IH]; intros vs Ev; [exact Ev|]. cbn [map]. rewrite !omap_cons in *.
        destruct (eval (with_x I X) rho a) as [u|] eqn:Ea; [|discriminate]. destruct (omap (eval (with_x I X) rho) l) as [us|] eqn:El; [|discriminate].
        destruct N as [N1 N2]. rewrite (Ha N1 _ _ Ea), (IH N2 _ eq_refl). exact Ev. }
      rewrite O. cbn [obind] in *. unfold with_x in *. cbn [ifun] in *. destruct f; try exact E. contradiction. }
    destruct f; try (apply M; discriminate). exact (HX rho l v NN E).
  - apply (gsum_ok _ _ (HG Y)). cbn [eval] in *. destruct (eval (with_x I X) rho e1) as [a|] eqn:E1; [|discriminate]. destruct (eval (with_x I X) rho e2) as [b|] eqn:E2; [|discriminate].
    destruct NN as (N1 & N2 & N3). rewrite (IHe1 N1 _ _ E1), (IHe2 N2 _ _ E2). cbn [obind] in *. destruct (as_int a) as [za|]; [|discriminate]. destruct (as_int b) as [zb|]; [|discriminate]. cbn [obind] in *.
    revert v E. generalize (Z.to_nat (zb - za + 1)). induction n; intros v E; cbn [osum] in *; [exact E|].
    apply olift2_some in E as (x1 & x2 & F1 & F2 & ->). rewrite (IHn _ F1), (IHe3 N3 _ _ F2). reflexivity.
  - apply (gprod_ok _ _ (HG Y)). cbn [eval] in *. destruct (eval (with_x I X) rho e1) as [a|] eqn:E1; [|discriminate]. destruct (eval (with_x I X) rho e2) as [b|] eqn:E2; [|discriminate].
    destruct NN as (N1 & N2 & N3). rewrite (IHe1 N1 _ _ E1), (IHe2 N2 _ _ E2). cbn [obind] in *. destruct (as_int a) as [za|]; [|discriminate]. destruct (as_int b) as [zb|]; [|discriminate]. cbn [obind] in *.
    revert v E. generalize (Z.to_nat (zb - za + 1)). induction n; intros v E; cbn [oprod] in *; [exact E|].
    apply olift2_some in E as (x1 & x2 & F1 & F2 & ->). rewrite (IHn _ F1), (IHe3 N3 _ _ F2). reflexivity.
Qed.
(** The arguments of x(.) contain no x(.): they are evaluated alike. *)
Lemma x_arg X rho l v : eval (with_x I X) rho (Fun FX l) = Some v -> exists a z, l = [a] /\ eval (with_x I X) rho a = Some (IZR z) /\ (0 <= z)%Z /\ v = X (Z.to_nat z).
Proof.
  cbn [eval]. destruct l as [|a [|b l]].
  - cbn. destruct HI as (_ & _ & HX). rewrite HX. discriminate.
  - cbn [omap]. destruct (eval (with_x I X) rho a) as [u|] eqn:Ea; cbn; [|discriminate]. destruct (as_int u) as [z|] eqn:Ez; [|discriminate].
    destruct (0 <=? z)%Z eqn:Z0; [|discriminate]. intros [= <-]. apply as_int_spec in Ez. subst u. exists a, z. rewrite Ea. repeat split; auto. now apply Z.leb_le.
  - rewrite !omap_cons. destruct (eval (with_x I X) rho a); [|discriminate]. destruct (eval (with_x I X) rho b); [|discriminate]. destruct (omap _ l); [|discriminate].
    cbn. destruct HI as (_ & _ & HX). rewrite HX. discriminate.
Qed.
Lemma x_free_eval X Y e rho : has_x_function e = false -> eval (with_x I X) rho e = eval (with_x I Y) rho e.
Proof.
  revert rho. induction e using expr_ind'; intros rho Hx; cbn [eval has_x_function] in *; auto.
  - induction H as [|a l Ha Hl IH]; auto. cbn [existsb fold_right] in *. apply orb_false_iff in Hx as [H1 H2]. rewrite Ha, IH; auto.
  - induction H as [|a l Ha Hl IH]; auto. cbn [existsb fold_right] in *. apply orb_false_iff in Hx as [H1 H2]. rewrite Ha, IH; auto.
  - apply orb_false_iff in Hx as [H1 H2]. rewrite IHe1, IHe2; auto.
  - assert (A : existsb has_x_function l = false /\ f <> FX) by (destruct f; try discriminate; split; auto; discriminate).
    destruct A as [A Nf]. rewrite (omap_ext _ (eval (with_x I Y) rho)).
    + destruct (omap _ l); cbn [obind]; auto. unfold with_x. cbn [ifun]. destruct f; auto. contradiction.
    + apply Forall_forall. intros a Ha. rewrite Forall_forall in H. apply H; auto. destruct (has_x_function a) eqn:E; auto.
      assert (existsb has_x_function l = true) by (apply existsb_exists; eauto). congruence.
  - rewrite !orb_false_iff in Hx. destruct Hx as [[H1 H2] H3]. rewrite (IHe1 rho), (IHe2 rho) by auto.
    destruct (eval (with_x I Y) rho e1); cbn; auto. destruct (eval (with_x I Y) rho e2); cbn; auto. destruct (as_int r); cbn; auto. destruct (as_int r0); cbn; auto.
    apply osum_ext. intros i _. apply IHe3. auto.
  - rewrite !orb_false_iff in Hx. destruct Hx as [[H1 H2] H3]. rewrite (IHe1 rho), (IHe2 rho) by auto.
    destruct (eval (with_x I Y) rho e1); cbn; auto. destruct (eval (with_x I Y) rho e2); cbn; auto. destruct (as_int r); cbn; auto. destruct (as_int r0); cbn; auto.
    apply oprod_ext. intros i _. apply IHe3. auto.
Qed.

Lemma x_inside_spec e : has_x_function e = false <-> ~ x_inside e.
Proof.
  induction e using expr_ind'; cbn [has_x_function x_inside]; try (split; [intros _ []|reflexivity]).
  - induction H as [|a l Ha Hl IH]; cbn; [tauto|]. rewrite orb_false_iff. tauto.
  - induction H as [|a l Ha Hl IH]; cbn; [tauto|]. rewrite orb_false_iff. tauto.
  - rewrite orb_false_iff. tauto.
  - assert (A : existsb has_x_function l = false <-> ~ fold_right (fun a P => x_inside a \/ P) False l).
    { induction H as [|a l Ha Hl IH]; cbn; [tauto|]. rewrite orb_false_iff. tauto. }
    destruct f; try exact A. split; [discriminate|tauto].
  - rewrite !orb_false_iff. tauto.
  - rewrite !orb_false_iff. tauto.
Qed.
Lemma x_val X Y rho l v : not_nested (Fun FX l) -> eval (with_x I X) rho (Fun FX l) = Some v ->
  exists k, v = X k /\ eval (with_x I Y) rho (Fun FX l) = Some (Y k).
Proof.
  intros NN E. apply x_arg in E as (a & z & -> & Ea & Hz & ->). exists (Z.to_nat z). split; auto.
  cbn in NN. destruct NN as [NN _]. apply x_inside_spec in NN. cbn [eval omap]. rewrite (x_free_eval Y X a rho NN), Ea. cbn. rewrite as_int_IZR.
  apply Z.leb_le in Hz. rewrite Hz. reflexivity.
Qed.
Lemma with_x_log Y v : 0 < v -> ifun (with_x I Y) FLog [v] = Some (ln v).
Proof. intros Hv. destruct HI as (HL & _). exact (HL v Hv). Qed.
Lemma glog_val Y rho e v : eval (with_x I Y) rho e = Some v -> 0 < v -> eval (with_x I Y) rho (glog G e) = Some (ln v).
Proof. intros E Hv. apply (gfun_ok _ _ (HG Y)). cbn [eval omap]. rewrite E. cbn [obind]. now apply with_x_log. Qed.
Lemma gdiv_val Y rho a b u v : eval (with_x I Y) rho a = Some u -> eval (with_x I Y) rho b = Some v -> v <> 0 -> eval (with_x I Y) rho (gdiv G a b) = Some (u / v).
Proof.
  intros Ea Eb Hv. unfold gdiv. apply (gmul_val _ _ (HG Y)); auto. apply (gpow_val _ _ (HG Y) _ _ _ v (-1)); auto.
  - cbn. rewrite rv_opp, rv_1. f_equal; lra.
  - unfold rpow. change (-1) with (IZR (-1)). rewrite as_int_IZR. destruct (Req_EM_T v 0); [contradiction|]. f_equal. unfold powerRZ. now rewrite Pos2Nat.inj_1, pow_1.
Qed.
(** x -> b^x *)
Lemma subst_exponent k b Y e rho v : (forall X rho, eval (with_x I X) rho k = Some b) -> 0 < b -> not_nested e ->
  eval (with_x I (fun n => Rpower b (Y n))) rho e = Some v -> eval (with_x I Y) rho (substitute_x_function G k EXPONENT e) = Some v.
Proof.
  intros Hk Hb NN. apply subst_change; auto. clear e v rho NN. intros rho l v NN E. cbn [substitute_x_function].
  destruct (x_val _ Y _ _ _ NN E) as (j & -> & E2). apply (gpow_val _ _ (HG Y) _ _ _ b (Y j)); auto. now apply rpow_pos.
Qed.
(** x -> log x / log b *)
Lemma subst_log k b X e rho v : (forall X rho, eval (with_x I X) rho k = Some b) -> 0 < b -> b <> 1 -> positive X -> not_nested e ->
  eval (with_x I (fun n => ln (X n) / ln b)) rho e = Some v -> eval (with_x I X) rho (substitute_x_function G k ARGUMENT_LOG e) = Some v.
Proof.
  intros Hk Hb H1 HX NN. apply subst_change; auto. clear e v rho NN. intros rho l v NN E. cbn [substitute_x_function].
  destruct (x_val _ X _ _ _ NN E) as (j & -> & E2). apply gdiv_val; [|now apply glog_val|now apply ln_neq0]. apply glog_val; [exact E2|apply HX].
Qed.
(** The sum of the logarithms of positive factors is the logarithm of the product. *)
Lemma sum_of_logs_val Y rho l p d q : eprod (with_x I Y) rho l = Some p -> Forall (fun f => exists v, 0 < v /\ eval (with_x I Y) rho f = Some v) l ->
  (match q with Some q => 0 < rv q /\ rv q <> 1 /\ d = ln (rv q) | None => d = 1 end) ->
  0 < p /\ eval (with_x I Y) rho (sum_of_logs G q l) = Some (ln p / d).
Proof.
  intros E F Hq. revert p E. induction F as [|f l (v & Hv & Ev) F IH]; intros p E.
  - rewrite eprod_nil in E. injection E as <-. split; [lra|]. cbn. rewrite rv_0, ln_1. f_equal. unfold Rdiv. lra.
  - rewrite eprod_cons, Ev in E. apply olift2_some in E as (x1 & x2 & [= <-] & E2 & ->). destruct (IH _ E2) as [P2 I2]. split; [now apply Rmult_lt_0_compat|].
    cbn [sum_of_logs fold_right]. fold (sum_of_logs G q l). rewrite ln_mult by auto. replace ((ln v + ln x2) / d) with (ln x2 / d + ln v / d) by (unfold Rdiv; lra).
    apply (gadd_val _ _ (HG Y)); auto. destruct q as [q|].
    + destruct Hq as (Q1 & Q2 & ->). apply gdiv_val; [now apply glog_val| |now apply ln_neq0]. apply glog_val; auto.
    + subst d. replace (ln v / 1) with (ln v) by lra. now apply glog_val.
Qed.
End Subst.
