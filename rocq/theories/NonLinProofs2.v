From Coq Require Import ZArith QArith Qcanon Qreals Reals List String Bool Lia Lra.
From Verif Require Import Ast ExprModel ExprSpec ExprProofs1 ExprProofs2 ExprProofs3 ExprCases SeqInterp NonLinModel NonLinSpec NonLinProofs.
Import ListNotations.
Local Open Scope R_scope.

Section Main.
Context (I : interp) (G : ginac) (HG : forall x, ginac_ok (with_x I x) G) (HI : log_exp_interp I).
Context (qlcm : Qc -> Qc -> Qc) (simp_in simp_log : expr -> expr) (domain_ok : expr -> bool).
Context (Hin : preserves_x I simp_in) (Hlog : preserves_x I simp_log).

Lemma mul_step rho rhs base q b k n Y :
  (forall X rho, eval (with_x I X) rho base = Some b) -> 0 < b -> b <> 1 ->
  (match q with Some q => b = rv q | None => b = exp 1 end) ->
  not_nested rhs -> (k <= n)%nat ->
  defined_on_positive I rho k rhs -> positive_product I rho k (simp_in (substitute_x_function G base EXPONENT rhs)) ->
  holds_at I rho (simp_log (sum_of_logs G q (ops (simp_in (substitute_x_function G base EXPONENT rhs))))) Y n ->
  holds_at I rho rhs (fun n => Rpower b (Y n)) n.
Proof.
  intros Hb B0 B1 Hq NN Hn D P H. set (X := fun n => Rpower b (Y n)).
  assert (PX : positive X) by (intros j; apply exp_pos).
  destruct (D X n PX Hn) as [v Ev]. unfold holds_at in *. rewrite Ev.
  apply (subst_exponent I G HG HI base b Y rhs _ v Hb B0 NN) in Ev. apply (Hin Y) in Ev.
  destruct (P Y n Hn) as (l & El & Fl). rewrite El in *. cbn [ops] in H. rewrite eval_Mul in Ev.
  destruct (sum_of_logs_val I G HG HI Y _ l v (ln b) q Ev Fl) as [Pv Es].
  { destruct q as [q|]; [subst b; auto|]. subst b. now rewrite ln_exp. }
  apply (Hlog Y) in Es. rewrite Es in H. injection H as H. f_equal. unfold X. rewrite <- H. symmetry. now apply Rpower_log.
Qed.
Lemma pow_step rho arg a d n Y : constant_decrement arg = Some d -> 0 < rv a ->
  (exists v, eval (with_x I (fun n => Rpower (rv a) (Y n))) (upd rho "n" (INR n)) (Pow (Fun FX [arg]) (Num a)) = Some v) ->
  holds_at I rho (gmul G (Num a) (x_of (n_minus d))) Y n ->
  holds_at I rho (Pow (Fun FX [arg]) (Num a)) (fun n => Rpower (rv a) (Y n)) n.
Proof.
  intros Hd Ha [v Ev] H. unfold holds_at in *. rewrite Ev. set (rn := upd rho "n" (INR n)) in *. assert (N : rn "n"%string = INR n) by reflexivity. clearbody rn.
  assert (A : forall Z, eval (with_x I Z) rn arg = Some (INR n - rv d) /\ eval (with_x I Z) rn (n_minus d) = Some (INR n - rv d)).
  { intros Z. split.
    - unfold constant_decrement in Hd. destruct arg as [| | |l| | | | |]; try discriminate. destruct l as [|[q| |s| | | | | |] [|[q'| |s'| | | | | |] [|]]]; try discriminate.
      + destruct (String.eqb s' "n") eqn:E; [|discriminate]. apply String.eqb_eq in E. subst s'. injection Hd as <-. rewrite eval_Add2. cbn. rewrite N, rv_opp. f_equal. lra.
      + destruct (String.eqb s "n") eqn:E; [|discriminate]. apply String.eqb_eq in E. subst s. injection Hd as <-. rewrite eval_Add2. cbn. rewrite N, rv_opp. f_equal. lra.
    - unfold n_minus. rewrite eval_Add2. cbn. rewrite N, rv_opp. f_equal. }
  cbn [eval obind] in Ev. destruct (omap _ [arg]) as [vs|] eqn:Eo; [|discriminate]. cbn [omap] in Eo. rewrite (proj1 (A _)) in Eo. injection Eo as <-.
  cbn [obind with_x ifun] in Ev. destruct (as_int (INR n - rv d)) as [z|] eqn:Ez; [|discriminate]. destruct (0 <=? z)%Z eqn:Z0; [|discriminate]. cbn [obind] in Ev.
  rewrite (rpow_pos (Rpower (rv a) (Y (Z.to_nat z)))) in Ev by apply exp_pos. injection Ev as <-.
  assert (E2 : eval (with_x I Y) rn (x_of (n_minus d)) = Some (Y (Z.to_nat z))).
  { unfold x_of. cbn [eval]. rewrite omap_cons, (proj2 (A _)). cbn. now rewrite Ez, Z0. }
  assert (E3 : eval (with_x I Y) rn (gmul G (Num a) (x_of (n_minus d))) = Some (rv a * Y (Z.to_nat z))) by (apply (gmul_val _ _ (HG Y)); auto).
  rewrite E3 in H. injection H as H. f_equal. rewrite Rpower_mult. f_equal. lra.
Qed.
(** The base of the logarithms. *)
Lemma napier_val X rho : eval (with_x I X) rho napier = Some (exp 1).
Proof. unfold napier. cbn. destruct HI as (_ & HE & _). rewrite HE, rv_1. reflexivity. Qed.
Lemma qabs_pos q : 0 < rv q -> qabs q = q.
Proof. intros H. unfold qabs. destruct (q_lt q 0) eqn:E; auto. apply q_lt_spec in E. rewrite rv_0 in E. lra. Qed.

(** The value of the base, when it is usable as base of logarithms. *)
Definition base_value (base : expr) (b : R) : Prop := (forall X rho, eval (with_x I X) rho base = Some b) /\ 0 < b /\ b <> 1.

Theorem log_step rho rhs base new_rhs b k :
  rewrite_non_linear G qlcm simp_in simp_log domain_ok rhs = NL_log base new_rhs -> base_value base b ->
  not_nested rhs -> defined_on_positive I rho k rhs ->
  (match rhs with Mul _ => positive_product I rho k (simp_in (substitute_x_function G base EXPONENT rhs)) | _ => True end) ->
  forall Y n, (k <= n)%nat -> holds_at I rho new_rhs Y n -> holds_at I rho rhs (fun n => Rpower b (Y n)) n.
Proof.
  intros H (Hb & B0 & B1) NN D P Y n Hn HH. unfold rewrite_non_linear in H. destruct rhs as [| | | |l|r1 r2| | |]; try discriminate.
  - destruct (scan _ _ _ _ _) as [[[|] ce]|]; try discriminate. destruct (simple_pair l) as [[c a]|]; [destruct (_ && _)%bool; discriminate|].
    destruct (Qc_eqb ce 1) eqn:E1.
    + injection H as <- <-. assert (b = exp 1). { specialize (Hb Y (fun _ => 0)). rewrite napier_val in Hb. congruence. } subst b.
      exact (mul_step rho (Mul l) napier None (exp 1) k n Y napier_val B0 B1 eq_refl NN Hn D P HH).
    + injection H as <- <-. assert (b = rv ce). { specialize (Hb Y (fun _ => 0)). cbn in Hb. congruence. } subst b. rewrite qabs_pos in HH by auto.
      exact (mul_step rho (Mul l) (Num ce) (Some ce) (rv ce) k n Y Hb B0 B1 eq_refl NN Hn D P HH).
  - destruct r1 as [| | | | | |g l| |]; try discriminate. destruct g; try discriminate. destruct l as [|arg [|]]; try discriminate. destruct r2 as [a| | | | | | | |]; try discriminate.
    destruct (constant_decrement arg) as [d|] eqn:Ed; [|discriminate]. destruct (Qc_eqb d 1); [discriminate|]. injection H as <- <-.
    assert (b = rv a). { specialize (Hb Y (fun _ => 0)). cbn in Hb. congruence. } subst b.
    apply (pow_step rho arg a d n Y Ed B0); auto. apply D; auto. intros j. apply exp_pos.
Qed.

Theorem log_general rho rhs base new_rhs b k s :
  rewrite_non_linear G qlcm simp_in simp_log domain_ok rhs = NL_log base new_rhs -> base_value base b ->
  not_nested rhs -> defined_on_positive I rho k rhs ->
  (match rhs with Mul _ => positive_product I rho k (simp_in (substitute_x_function G base EXPONENT rhs)) | _ => True end) ->
  (1 <= k)%nat -> not_nested (gpow G base s) ->
  general_solution I rho k new_rhs s any_seq ->
  general_solution I rho k rhs (log_solution G simp_in simp_log base s) positive.
Proof.
  intros HR HB NN D P Hk NS HS X HX. pose proof HB as (Hb & B0 & B1).
  destruct (HS (fun n => ln (X n) / ln b)) as (y & Y1 & Y2 & _ & Y3); [exact Logic.I|].
  exists (fun n => Rpower b (y n)).
  assert (S0 : is_num 0%Qc s = false).
  { destruct (is_num 0%Qc s) eqn:E; auto. apply is_num_eq in E. subst s. exfalso.
    destruct (HS (fun n => 1)) as (y' & Z1 & Z2 & _); [exact Logic.I|]. specialize (Z1 O). cbn in Z1. injection Z1 as Z1. rewrite rv_0, (Z2 O) in Z1; lra || lia. }
  split; [|split; [|split]].
  - intros n. unfold log_solution. rewrite S0. apply (Hlog X), (Hin X). apply (subst_log I G HG HI base b X _ _ _ Hb B0 B1 HX NS).
    apply (gpow_val _ _ (HG _) _ _ _ b (y n)); auto. now apply rpow_pos.
  - intros i Hi. rewrite (Y2 i Hi). now apply Rpower_log.
  - intros n. apply exp_pos.
  - intros n Hn. apply (log_step rho rhs base new_rhs b k HR HB NN D P y n Hn). now apply Y3.
Qed.

(** * c x(n-1)^a *)
Lemma Rinv_rv a : rv a <> 1 -> rv (/ (a - 1))%Qc = / (rv a - 1).
Proof.
  intros H. assert (D : (a - 1)%Qc <> 0%Qc). { intros E. apply H. apply (f_equal rv) in E. rewrite rv_sub, rv_1, rv_0 in E. lra. }
  assert (E : rv (/ (a - 1))%Qc * rv (a - 1)%Qc = 1) by (rewrite <- rv_mul, Qcmult_comm, Qcmult_inv_r, rv_1; auto).
  rewrite rv_sub, rv_1 in E. apply Rmult_eq_reg_r with (rv a - 1); [|lra]. rewrite E. field. lra.
Qed.
Lemma simple_val rho c a X n e1 e2 : rv a <> 1 ->
  rpow (rv c) ((rv a ^ n - 1) * / (rv a - 1)) = Some e1 -> rpow (X O) (rv a ^ n) = Some e2 ->
  eval (with_x I X) (upd rho "n" (INR n)) (simple_solution G c a) = Some (e1 * e2).
Proof.
  intros Ha E1 E2. unfold simple_solution. set (rn := upd rho "n" (INR n)).
  assert (EA : eval (with_x I X) rn (gpow G (Num a) (Sym "n")) = Some (rv a ^ n)).
  { apply (gpow_val _ _ (HG X) _ _ _ (rv a) (INR n)); auto. apply rpow_nat. }
  apply (gmul_val _ _ (HG X)).
  - apply (gpow_val _ _ (HG X) _ _ _ (rv c) ((rv a ^ n - 1) * / (rv a - 1))); auto. apply (gmul_val _ _ (HG X)).
    + apply (gsub_val _ _ (HG X)); auto. cbn. now rewrite rv_1.
    + cbn. now rewrite Rinv_rv.
  - apply (gpow_val _ _ (HG X) _ _ _ (X O) (rv a ^ n)); auto. unfold x_of. cbn. rewrite rv_0, (as_int_IZR 0). reflexivity.
Qed.
(** What the equation says. *)
Definition simple_rhs (c a : Qc) : expr := Mul [Num c; Pow (Fun FX [n_minus 1%Qc]) (Num a)].
Lemma simple_rhs_val rho c a X n p : rpow (X n) (rv a) = Some p -> eval (with_x I X) (upd rho "n" (INR (S n))) (simple_rhs c a) = Some (rv c * p).
Proof.
  intros Hp. unfold simple_rhs. rewrite eval_Mul2. cbn [eval obind].
  assert (O : omap (eval (with_x I X) (upd rho "n" (INR (S n)))) [n_minus 1%Qc] = Some [IZR (Z.of_nat n)]).
  { cbn [omap]. unfold n_minus. rewrite eval_Add2. cbn [eval olift2]. rewrite rv_opp, rv_1. replace (upd rho "n" (INR (S n)) "n"%string) with (INR (S n)) by reflexivity. f_equal. f_equal. rewrite S_INR, <- INR_IZR_INZ. lra. }
  rewrite O. cbn. rewrite as_int_IZR. replace (0 <=? Z.of_nat n)%Z with true by (symmetry; apply Z.leb_le; lia). rewrite Nat2Z.id. cbn. rewrite Hp. reflexivity.
Qed.
Theorem simple_general rho c a : 0 < rv c -> rv a <> 1 ->
  general_solution I rho 1 (simple_rhs c a) (simple_solution G c a) positive.
Proof.
  intros Hc Ha X HX. set (y := fun n => Rpower (rv c) ((rv a ^ n - 1) * / (rv a - 1)) * Rpower (X O) (rv a ^ n)).
  exists y. split; [|split; [|split]].
  - intros n. apply simple_val; auto; apply rpow_pos; auto.
  - intros i Hi. assert (i = O) by lia. subst i. unfold y. cbn [pow]. replace ((1 - 1) * / (rv a - 1)) with 0 by lra. rewrite Rpower_O, Rpower_1 by auto. lra.
  - intros n. apply Rmult_lt_0_compat; apply exp_pos.
  - intros n Hn. destruct n; [lia|]. unfold holds_at. rewrite (simple_rhs_val rho c a y n (Rpower (y n) (rv a))).
    + f_equal. unfold y. rewrite <- Rpower_mult_distr by apply exp_pos. rewrite !Rpower_mult. cbn [pow].
      replace ((rv a * rv a ^ n - 1) * / (rv a - 1)) with (1 + (rv a ^ n - 1) * / (rv a - 1) * rv a) by (field; lra).
      rewrite Rpower_plus, Rpower_1 by auto. replace (rv a * rv a ^ n) with (rv a ^ n * rv a) by ring. ring.
    + apply rpow_pos. unfold y. apply Rmult_lt_0_compat; apply exp_pos.
Qed.
(** Natural exponent >= 2: any sign. *)
Fixpoint geo (a n : nat) : nat := match n with O => O | S n => (a * geo a n + 1)%nat end.
Lemma geo_val a n : INR a <> 1 -> (INR a ^ n - 1) * / (INR a - 1) = INR (geo a n).
Proof. intros Ha. induction n; cbn [geo pow]; [cbn; lra|]. rewrite plus_INR, mult_INR, <- IHn. cbn. field. lra. Qed.
Theorem simple_general_nat rho c (m : nat) : (2 <= m)%nat ->
  general_solution I rho 1 (simple_rhs c (zq (Z.of_nat m))) (simple_solution G c (zq (Z.of_nat m))) any_seq.
Proof.
  intros Hm X _. set (a := zq (Z.of_nat m)). assert (Ea : rv a = INR m) by (unfold a; rewrite rv_zq; now rewrite INR_IZR_INZ).
  assert (Ha : rv a <> 1). { rewrite Ea. intros E. change 1 with (INR 1) in E. apply INR_eq in E. lia. }
  set (y := fun n => rv c ^ geo m n * X O ^ (m ^ n)). exists y. split; [|split; [|split]].
  - intros n. apply simple_val; auto.
    + rewrite Ea, geo_val by (now rewrite <- Ea). apply rpow_nat.
    + rewrite Ea, <- pow_INR. apply rpow_nat.
  - intros i Hi. assert (i = O) by lia. subst i. unfold y. cbn. lra.
  - exact Logic.I.
  - intros n Hn. destruct n; [lia|]. unfold holds_at. rewrite (simple_rhs_val rho c a y n (y n ^ m)).
    + f_equal. unfold y. rewrite Rpow_mult_distr, <- !pow_mult. cbn [geo Nat.pow]. rewrite pow_add, (Nat.mul_comm (geo m n)), (Nat.mul_comm (m ^ n)), pow_1. ring.
    + rewrite Ea. apply rpow_nat.
Qed.
End Main.
Lemma olift2_comm_mul a b : olift2 Rmult a b = olift2 Rmult b a.
Proof. destruct a, b; cbn; auto. f_equal. ring. Qed.
Theorem simple_faithful I G qlcm si sl dom rhs c a : rewrite_non_linear G qlcm si sl dom rhs = NL_simple c a ->
  forall x rho, eval (with_x I x) rho rhs = eval (with_x I x) rho (simple_rhs c a).
Proof.
  intros H x rho. unfold rewrite_non_linear in H. destruct rhs as [| | | |l|r1 r2| | |]; try discriminate.
  - destruct (scan _ _ _ _ _) as [[[|] ce]|]; try discriminate.
    destruct (simple_pair l) as [[c' a']|] eqn:E; [|destruct (Qc_eqb ce 1); discriminate].
    destruct (_ && _)%bool; [discriminate|]. injection H as -> ->. unfold simple_pair in E.
    destruct l as [|f1 [|f2 [|]]]; try discriminate; [destruct f1 as [| | | | |[| | | | | |[] [|? []]| |] []| | |]; discriminate| |].
    + destruct f1 as [q1| | | | |[| | | | | |[] [|arg1 []]| |] [a1| | | | | | | |]| | |]; try discriminate.
      * destruct f2 as [| | | | |[| | | | | |[] [|arg1 []]| |] [a1| | | | | | | |]| | |]; try discriminate.
        destruct (expr_eqb arg1 (n_minus 1)) eqn:E1; [|discriminate]. apply expr_eqb_eq in E1. subst. injection E as <- <-. reflexivity.
      * destruct f2 as [q2| | | | | | | |]; try discriminate.
        destruct (expr_eqb arg1 (n_minus 1)) eqn:E1; [|discriminate]. apply expr_eqb_eq in E1. subst. injection E as <- <-. unfold simple_rhs. rewrite !eval_Mul2. apply olift2_comm_mul.
    + destruct f1 as [| | | | |[| | | | | |[] [|? []]| |] []| | |]; try discriminate; destruct f2 as [| | | | |[| | | | | |[] [|? []]| |] []| | |]; discriminate.
  - destruct r1 as [| | | | | |g l| |]; try discriminate. destruct g; try discriminate. destruct l as [|arg [|]]; try discriminate. destruct r2 as [a'| | | | | | | |]; try discriminate.
    destruct (constant_decrement arg) as [d|] eqn:Ed; [|discriminate]. destruct (Qc_eqb d 1) eqn:E1; [|discriminate]. injection H as <- <-. apply Qc_eqb_eq in E1. subst d.
    unfold simple_rhs. rewrite eval_Mul2, eval_num, rv_1.
    assert (A : eval (with_x I x) rho arg = eval (with_x I x) rho (n_minus 1)).
    { unfold constant_decrement in Ed. destruct arg as [| | |l| | | | |]; try discriminate. destruct l as [|[q| |s| | | | | |] [|[q'| |s'| | | | | |] [|]]]; try discriminate.
      + destruct (String.eqb s' "n") eqn:E; [|discriminate]. apply String.eqb_eq in E. subst s'. match type of Ed with Some ?t = Some ?u => assert (Ed2 : t = u) by congruence end. apply (f_equal rv) in Ed2. rewrite rv_opp, rv_1 in Ed2. unfold n_minus. rewrite !eval_Add2. cbn [eval olift2]. rewrite rv_opp, rv_1. f_equal. lra.
      + destruct (String.eqb s "n") eqn:E; [|discriminate]. apply String.eqb_eq in E. subst s. match type of Ed with Some ?t = Some ?u => assert (Ed2 : t = u) by congruence end. apply (f_equal rv) in Ed2. rewrite rv_opp, rv_1 in Ed2. unfold n_minus. rewrite !eval_Add2. cbn [eval olift2]. rewrite rv_opp, rv_1. f_equal. lra. }
    cbn [eval omap]. rewrite A. destruct (obind _ _) as [v|] eqn:F; [|reflexivity]. cbn. f_equal. lra.
Qed.
