(** Proofs about ExprModel.v: substitution, distribution, numeric evaluation. *)
From Coq Require Import ZArith QArith Qcanon Qreals Reals List String Bool Lia Lra.
From Verif Require Import Ast ExprModel ExprSpec.
Import ListNotations.
Local Open Scope R_scope.

(** * Numbers *)
Lemma q_is_int_spec q : q_is_int q = true <-> rv q = IZR (q_int q).
Proof.
  unfold q_is_int, q_int, rv, Q2R. rewrite Pos.eqb_eq. destruct q as [[n d] C]. cbn [this Qnum Qden]. split.
  - intros ->. rewrite Rinv_1. lra.
  - intros H. assert (D : IZR (Z.pos d) <> 0) by (apply not_0_IZR; discriminate).
    assert (E : IZR n = IZR (n * Z.pos d)).
    { rewrite mult_IZR. rewrite <- H at 2. field. auto. }
    apply eq_IZR in E.
    (* n (d - 1) = 0 *)
    assert (E2 : (n * (Z.pos d - 1) = 0)%Z) by lia. apply Z.mul_eq_0 in E2. destruct E2 as [->|E2]; [|lia].
    cbn in C. unfold Qred in C. pose proof (Z.ggcd_gcd 0 (Z.pos d)) as GG. pose proof (Z.ggcd_correct_divisors 0 (Z.pos d)) as GD.
    destruct (Z.ggcd 0 (Z.pos d)) as [g [aa bb]] eqn:Egg. cbn in GG, C. destruct GD as [_ GD].
    change (Z.gcd 0 (Z.pos d)) with (Z.pos d) in GG. subst g. assert (bb = 1)%Z by nia. subst bb.
    apply (f_equal Qden) in C. cbn in C. auto.
Qed.
Lemma q_is_int_zq z : q_is_int (zq z) = true.
Proof. unfold q_is_int, zq, Q2Qc. cbn [this]. unfold inject_Z, Qred. rewrite Pos.eqb_eq.
  pose proof (Z.ggcd_gcd z 1) as GG. pose proof (Z.ggcd_correct_divisors z 1) as GD.
  destruct (Z.ggcd z 1) as [g [a b]]. cbn in GG. rewrite Z.gcd_1_r in GG. subst g. destruct GD as [_ GD]. cbn [snd]. cbn [Qden].
  assert (b = 1)%Z by lia. subst. reflexivity.
Qed.
Lemma q_int_zq z : q_int (zq z) = z.
Proof. pose proof (q_is_int_zq z) as H. apply q_is_int_spec in H. rewrite rv_zq in H. apply eq_IZR in H. auto. Qed.
Lemma q_int_as q : q_is_int q = true -> as_int (rv q) = Some (q_int q).
Proof. intros H. apply as_int_spec, q_is_int_spec, H. Qed.
Lemma zq_q_int q : q_is_int q = true -> q = zq (q_int q).
Proof. intros H. apply rv_inj. rewrite rv_zq. apply q_is_int_spec, H. Qed.
Lemma q_lt_spec p q : q_lt p q = true <-> rv p < rv q.
Proof. unfold q_lt. rewrite rv_lt. destruct (Qclt_le_dec p q) as [L|L]; split; auto; try discriminate. intros H. exfalso. apply Qcle_not_lt in L. auto. Qed.
Lemma q_lt_false p q : q_lt p q = false <-> rv q <= rv p.
Proof.
  destruct (q_lt p q) eqn:E; [apply q_lt_spec in E|].
  - split; [discriminate|lra].
  - split; auto. intros _. destruct (Rle_or_lt (rv q) (rv p)) as [|L]; auto. apply q_lt_spec in L. congruence.
Qed.
Lemma q_le_spec p q : q_le p q = true <-> rv p <= rv q.
Proof. unfold q_le. rewrite negb_true_iff. apply q_lt_false. Qed.

(** rv q floor *)
Lemma q_floor q : let z := (Qnum (this q) / Z.pos (Qden (this q)))%Z in IZR z <= rv q < IZR z + 1.
Proof.
  destruct q as [[n d] C]. cbn [this Qnum Qden]. unfold rv, Q2R. cbn [this Qnum Qden].
  assert (D : 0 < IZR (Z.pos d)) by (apply IZR_lt; lia).
  pose proof (Z.div_mod n (Z.pos d) ltac:(lia)) as E. pose proof (Z.mod_pos_bound n (Z.pos d) ltac:(lia)) as M.
  set (z := (n / Z.pos d)%Z) in *. set (m := (n mod Z.pos d)%Z) in *.
  assert (E' : IZR n = IZR (Z.pos d) * IZR z + IZR m) by (rewrite <- mult_IZR, <- plus_IZR; f_equal; lia).
  destruct M as [M1 M2]. apply IZR_le in M1. apply IZR_lt in M2. rewrite E'.
  split.
  - apply (Rmult_le_reg_r (IZR (Z.pos d))); auto. rewrite Rmult_assoc, Rinv_l by lra. lra.
  - apply (Rmult_lt_reg_r (IZR (Z.pos d))); auto. rewrite Rmult_assoc, Rinv_l by lra. lra.
Qed.
Lemma floor_unique v z : IZR z <= v < IZR z + 1 -> Int_part v = z.
Proof.
  intros H. unfold Int_part. assert (U : up v = (z + 1)%Z); [|rewrite U; lia].
  symmetry. apply tech_up; rewrite plus_IZR; lra.
Qed.

(** * Sums and products of lists *)
Section G.
Variable I : interp.
Variable G : ginac.
Hypothesis HG : ginac_ok I G.

Lemma add_all_ok l : refines I (Add l) (add_all G l).
Proof.
  intros rho v. rewrite eval_Add. revert v. induction l as [|a l IH]; intros v H.
  - rewrite esum_nil in H. injection H as <-. cbn. now rewrite rv_0.
  - rewrite esum_cons in H. apply olift2_some in H as (x & y & Hx & Hy & ->).
    cbn [add_all fold_right]. rewrite Rplus_comm. apply (gadd_val I G HG); auto.
Qed.
Lemma mul_all_ok l : refines I (Mul l) (mul_all G l).
Proof.
  intros rho v. rewrite eval_Mul. revert v. induction l as [|a l IH]; intros v H.
  - rewrite eprod_nil in H. injection H as <-. cbn. now rewrite rv_1.
  - rewrite eprod_cons in H. apply olift2_some in H as (x & y & Hx & Hy & ->).
    cbn [mul_all fold_right]. rewrite Rmult_comm. apply (gmul_val I G HG); auto.
Qed.
Lemma esum_map rho rho' (f : expr -> expr) l v :
  Forall (fun a => forall v, eval I rho a = Some v -> eval I rho' (f a) = Some v) l ->
  esum I rho l = Some v -> esum I rho' (map f l) = Some v.
Proof.
  intros H. revert v. induction H as [|a l Ha _ IH]; intros v E; auto. cbn [map]. rewrite esum_cons in *.
  apply olift2_some in E as (x & y & Hx & Hy & ->). rewrite (Ha x), (IH y); auto.
Qed.
Lemma eprod_map rho rho' (f : expr -> expr) l v :
  Forall (fun a => forall v, eval I rho a = Some v -> eval I rho' (f a) = Some v) l ->
  eprod I rho l = Some v -> eprod I rho' (map f l) = Some v.
Proof.
  intros H. revert v. induction H as [|a l Ha _ IH]; intros v E; auto. cbn [map]. rewrite eprod_cons in *.
  apply olift2_some in E as (x & y & Hx & Hy & ->). rewrite (Ha x), (IH y); auto.
Qed.
Lemma omap_cons {A} (f : A -> option R) a l : omap f (a :: l) =
  match f a, omap f l with Some v, Some vs => Some (v :: vs) | _, _ => None end.
Proof. reflexivity. Qed.
Lemma omap_map rho rho' (f : expr -> expr) l vs :
  Forall (fun a => forall v, eval I rho a = Some v -> eval I rho' (f a) = Some v) l ->
  omap (eval I rho) l = Some vs -> omap (eval I rho') (map f l) = Some vs.
Proof.
  intros H. revert vs. induction H as [|a l Ha _ IH]; intros vs E; auto. cbn [map]. rewrite omap_cons in *.
  destruct (eval I rho a) as [v|] eqn:Ea; [|discriminate]. destruct (omap (eval I rho) l) as [ws|] eqn:El; [|discriminate].
  rewrite (Ha v), (IH ws); auto.
Qed.
Lemma osum_mono n f g v : (forall i, (i < n)%nat -> forall w, f i = Some w -> g i = Some w) -> osum n f = Some v -> osum n g = Some v.
Proof.
  revert v. induction n as [|n IH]; intros v H E; auto. cbn [osum] in *. apply olift2_some in E as (x & y & Hx & Hy & ->).
  rewrite (IH x), (H n ltac:(lia) y); auto.
Qed.
Lemma oprod_mono n f g v : (forall i, (i < n)%nat -> forall w, f i = Some w -> g i = Some w) -> oprod n f = Some v -> oprod n g = Some v.
Proof.
  revert v. induction n as [|n IH]; intros v H E; auto. cbn [oprod] in *. apply olift2_some in E as (x & y & Hx & Hy & ->).
  rewrite (IH x), (H n ltac:(lia) y); auto.
Qed.

(** * Substitution *)
Lemma no_capture_all s r l : fold_right (fun a P => no_capture s r a /\ P) True l <-> Forall (no_capture s r) l.
Proof. induction l; cbn; split; intros H; auto; try (destruct H; constructor; tauto). inversion H; subst. split; tauto. Qed.
Lemma eval_ext rho rho' e : (forall s, rho s = rho' s) -> eval I rho e = eval I rho' e.
Proof. intros H. apply eval_agree. auto. Qed.

Lemma eval_sum_inv rho k lo up e v : eval I rho (SumE k lo up e) = Some v ->
  exists a b, eval I rho lo = Some (IZR a) /\ eval I rho up = Some (IZR b) /\
    osum (Z.to_nat (b - a + 1)) (fun i => eval I (upd rho k (IZR (a + Z.of_nat i))) e) = Some v.
Proof.
  cbn [eval]. intros H. destruct (eval I rho lo) as [x|]; [|discriminate]. destruct (eval I rho up) as [y|]; [|discriminate].
  cbn [obind] in H. destruct (as_int x) as [a|] eqn:Ea; [|discriminate]. destruct (as_int y) as [b|] eqn:Eb; [|discriminate].
  apply as_int_spec in Ea, Eb. subst. exists a, b. auto.
Qed.
Lemma eval_sum_intro rho k lo up e v a b : eval I rho lo = Some (IZR a) -> eval I rho up = Some (IZR b) ->
    osum (Z.to_nat (b - a + 1)) (fun i => eval I (upd rho k (IZR (a + Z.of_nat i))) e) = Some v ->
  eval I rho (SumE k lo up e) = Some v.
Proof. cbn [eval]. intros -> -> H. cbn [obind]. rewrite !as_int_IZR. exact H. Qed.
Lemma eval_prod_inv rho k lo up e v : eval I rho (ProdE k lo up e) = Some v ->
  exists a b, eval I rho lo = Some (IZR a) /\ eval I rho up = Some (IZR b) /\
    oprod (Z.to_nat (b - a + 1)) (fun i => eval I (upd rho k (IZR (a + Z.of_nat i))) e) = Some v.
Proof.
  cbn [eval]. intros H. destruct (eval I rho lo) as [x|]; [|discriminate]. destruct (eval I rho up) as [y|]; [|discriminate].
  cbn [obind] in H. destruct (as_int x) as [a|] eqn:Ea; [|discriminate]. destruct (as_int y) as [b|] eqn:Eb; [|discriminate].
  apply as_int_spec in Ea, Eb. subst. exists a, b. auto.
Qed.
Lemma eval_prod_intro rho k lo up e v a b : eval I rho lo = Some (IZR a) -> eval I rho up = Some (IZR b) ->
    oprod (Z.to_nat (b - a + 1)) (fun i => eval I (upd rho k (IZR (a + Z.of_nat i))) e) = Some v ->
  eval I rho (ProdE k lo up e) = Some v.
Proof. cbn [eval]. intros -> -> H. cbn [obind]. rewrite !as_int_IZR. exact H. Qed.

Lemma expr_eqb_neq a b : expr_eqb a b = false <-> a <> b.
Proof. rewrite <- not_true_iff_false, expr_eqb_eq. tauto. Qed.
Lemma upd_comm (rho : string -> R) k s a b t : k <> s -> upd (upd rho s a) k b t = upd (upd rho k b) s a t.
Proof.
  intros H. unfold upd. destruct (String.eqb t k) eqn:Ek, (String.eqb t s) eqn:Es; auto.
  apply String.eqb_eq in Ek, Es. congruence.
Qed.

Theorem substitute_ok s r e : no_capture s r e -> forall rho v w,
  eval I rho r = Some w -> eval I (upd rho s w) e = Some v -> eval I rho (substitute G (Sym s) r e) = Some v.
Proof.
  induction e using expr_ind'; intros NC rho v w Hr H'; cbn [substitute].
  - cbn [expr_eqb]. exact H'.
  - cbn [expr_eqb]. exact H'.
  - destruct (expr_eqb (Sym s0) (Sym s)) eqn:E.
    + apply expr_eqb_eq in E. injection E as ->. cbn in H'. unfold upd in H'. rewrite String.eqb_refl in H'. congruence.
    + cbn in E. cbn in H' |- *. unfold upd in H'. rewrite E in H'. exact H'.
  - cbn [expr_eqb]. apply add_all_ok. cbn in NC. rewrite no_capture_all in NC. rewrite eval_Add in *.
    eapply esum_map; [|exact H']. rewrite Forall_forall in *. intros a Ha u Hu. eapply H; eauto.
  - cbn [expr_eqb]. apply mul_all_ok. cbn in NC. rewrite no_capture_all in NC. rewrite eval_Mul in *.
    eapply eprod_map; [|exact H']. rewrite Forall_forall in *. intros a Ha u Hu. eapply H; eauto.
  - cbn [expr_eqb]. destruct NC as [NC1 NC2]. apply (gpow_ok _ _ HG). cbn [eval] in *.
    destruct (eval I (upd rho s w) e1) as [x|] eqn:E1; [|discriminate]. cbn [obind] in *.
    destruct (eval I (upd rho s w) e2) as [y|] eqn:E2; [|discriminate]. cbn [obind] in *.
    rewrite (IHe1 NC1 rho x w Hr E1), (IHe2 NC2 rho y w Hr E2). exact H'.
  - cbn [expr_eqb]. apply (gfun_ok _ _ HG). cbn in NC. rewrite no_capture_all in NC. cbn [eval] in *.
    destruct (omap (eval I (upd rho s w)) l) as [vs|] eqn:E; [|discriminate].
    rewrite (omap_map (upd rho s w) rho _ l vs); auto. rewrite Forall_forall in *. intros a Ha u Hu. eapply H; eauto.
  - cbn [expr_eqb]. destruct NC as (N1 & N2 & N3 & N4 & N5).
    replace (String.eqb k s) with false by (symmetry; now apply String.eqb_neq). cbn [apply_sum].
    apply (gsum_ok _ _ HG). apply eval_sum_inv in H' as (a & b & Ea & Eb & Es).
    apply (eval_sum_intro _ _ _ _ _ _ a b); eauto. eapply osum_mono; [|exact Es].
    intros i Hi u Hu. cbv beta in Hu |- *. apply (IHe3 N5 _ u w); [rewrite eval_upd_fresh; auto|].
    rewrite <- Hu. apply eval_ext. intros t. rewrite <- upd_comm; auto.
  - cbn [expr_eqb]. destruct NC as (N1 & N2 & N3 & N4 & N5).
    replace (String.eqb k s) with false by (symmetry; now apply String.eqb_neq). cbn [apply_prod].
    apply (gprod_ok _ _ HG). apply eval_prod_inv in H' as (a & b & Ea & Eb & Es).
    apply (eval_prod_intro _ _ _ _ _ _ a b); eauto. eapply oprod_mono; [|exact Es].
    intros i Hi u Hu. cbv beta in Hu |- *. apply (IHe3 N5 _ u w); [rewrite eval_upd_fresh; auto|].
    rewrite <- Hu. apply eval_ext. intros t. rewrite <- upd_comm; auto.
Qed.

(** * Distribution *)
Lemma dist_inner rho (m : expr) l tmp x y z : eval I rho m = Some x -> esum I rho l = Some y -> eval I rho tmp = Some z ->
  eval I rho (fold_right (fun dh tmp => gadd G tmp (gmul G m dh)) tmp l) = Some (z + x * y).
Proof.
  intros Hm. revert y. induction l as [|a l IH]; intros y Hl Ht.
  - rewrite esum_nil in Hl. injection Hl as <-. cbn [fold_right]. rewrite Ht. f_equal. lra.
  - rewrite esum_cons in Hl. apply olift2_some in Hl as (p & q & Hp & Hq & ->). cbn [fold_right].
    replace (z + x * (p + q)) with (z + x * q + x * p) by lra.
    apply (gadd_val _ _ HG); auto. apply (gmul_val _ _ HG); auto.
Qed.
Lemma dist_step_ok rho f d x y : eval I rho f = Some x -> eval I rho d = Some y -> eval I rho (dist_step G f d) = Some (x * y).
Proof.
  intros Hf Hd.
  assert (Z0 : eval I rho (Num 0) = Some 0) by (cbn; now rewrite rv_0).
  assert (NF : eval I rho (match d with
    | Add dl => fold_right (fun dh tmp => gadd G tmp (gmul G f dh)) (Num 0) dl
    | _ => gadd G (Num 0) (gmul G f d) end) = Some (x * y)).
  { assert (A : eval I rho (gadd G (Num 0) (gmul G f d)) = Some (x * y)).
    { replace (x * y) with (0 + x * y) by lra. apply (gadd_val _ _ HG); auto. apply (gmul_val _ _ HG); auto. }
    destruct d; auto. replace (x * y) with (0 + x * y) by lra. apply dist_inner; auto. }
  destruct f as [| | |fl| | | | |]; auto. cbn [dist_step]. rewrite eval_Add in Hf. clear NF.
  revert x Hf. induction fl as [|a fl IH]; intros x Hf.
  - rewrite esum_nil in Hf. injection Hf as <-. cbn [fold_right]. rewrite Z0. f_equal. lra.
  - rewrite esum_cons in Hf. apply olift2_some in Hf as (p & q & Hp & Hq & ->). cbn [fold_right].
    specialize (IH q Hq). replace ((p + q) * y) with (q * y + p * y) by lra.
    assert (A : eval I rho (gadd G (fold_right (fun fj tmp => match d with
      | Add dl => fold_right (fun dh tmp0 => gadd G tmp0 (gmul G fj dh)) tmp dl
      | _ => gadd G tmp (gmul G fj d) end) (Num 0) fl) (gmul G a d)) = Some (q * y + p * y)).
    { apply (gadd_val _ _ HG); auto. apply (gmul_val _ _ HG); auto. }
    destruct d; auto. apply dist_inner; auto.
Qed.
Lemma distribute_factor_ok rho l v : eprod I rho l = Some v -> eval I rho (distribute_mul_over_add_factor G l) = Some v.
Proof.
  destruct l as [|e0 l]; cbn [distribute_mul_over_add_factor].
  - rewrite eprod_nil. intros <-. cbn. now rewrite rv_1.
  - rewrite eprod_cons. intros H. apply olift2_some in H as (x & y & Hx & Hy & ->).
    revert y Hy. induction l as [|a l IH]; intros y Hy.
    + rewrite eprod_nil in Hy. injection Hy as <-. cbn [fold_right]. rewrite Hx. f_equal. lra.
    + rewrite eprod_cons in Hy. apply olift2_some in Hy as (p & q & Hp & Hq & ->). cbn [fold_right].
      replace (x * (p * q)) with (p * (x * q)) by lra. apply dist_step_ok; auto.
Qed.
Theorem distribute_ok e : refines I e (distribute_mul_over_add G e).
Proof.
  induction e using expr_ind'; intros rho v E; cbn [distribute_mul_over_add]; auto.
  - apply add_all_ok. rewrite eval_Add in *. eapply esum_map; [|exact E]. rewrite Forall_forall in *. intros a Ha u. apply H; auto.
  - apply distribute_factor_ok. exact E.
Qed.
End G.
