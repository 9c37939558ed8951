(** Concrete runs for C77. *)
From Coq Require Import ZArith QArith Qcanon Reals List String Bool Lia Lra.
From Verif Require Import Ast ExprModel ExprSpec ExprProofs1 ExprProofs2 ExprProofs3 ExprCases SeqInterp ElimModel ElimSpec ElimProofs DecompModel DecompProofs NonLinModel NonLinSpec NonLinProofs NonLinProofs2 NonLinCases VerifyModel VerifySpec VerifyProofs VerifyProofs2 VerifyProofs3 VerifyCases PowProofs CollectProofs NLVerModel NLVerSpec NLVerProofs.
Import ListNotations.
Local Open Scope R_scope.
Local Open Scope list_scope.

(** simp, u^1 -> u, and zero for expressions known to be zero. *)
Definition simp1 (e : expr) : expr :=
  match e with
  | Pow a b => match lin b with Some (u, v) => if Qc_eqb u 0 && Qc_eqb v 1 then a else simp e | None => simp e end
  | _ => simp e
  end.
Definition zap (zs : list expr) (e : expr) : expr := if existsb (expr_eqb e) zs then Num 0%Qc else simp1 e.
Lemma simp_out e : x_outside e = true -> x_outside (simp e) = true.
Proof. intros O. unfold simp. destruct (lin e) as [[u w]|]; auto. destruct (Qc_eqb u 0); auto. Qed.
Lemma simp1_out e : x_outside e = true -> x_outside (simp1 e) = true.
Proof.
  intros O. destruct e; try (apply simp_out; exact O). cbn [simp1]. destruct (lin e2) as [[u v]|]; [|now apply simp_out].
  destruct (Qc_eqb u 0 && Qc_eqb v 1)%bool; [|now apply simp_out]. cbn [x_outside] in O. apply andb_true_iff in O. tauto.
Qed.
Lemma zap_out zs : keeps_outside (zap zs).
Proof. intros e O. unfold zap. destruct (existsb _ zs); [reflexivity|now apply simp1_out]. Qed.
Lemma simp1_sound I : sound_simplification I simp1.
Proof.
  destruct (simp_sound I) as [S1 S2]. split.
  - intros x e rho v E. destruct e; try (apply (S1 x); exact E). cbn [simp1]. destruct (lin e2) as [[u w]|] eqn:L; [|apply (S1 x); exact E].
    destruct (Qc_eqb u 0 && Qc_eqb w 1)%bool eqn:C; [|apply (S1 x); exact E]. apply andb_true_iff in C as [C1 C2]. apply Qc_eqb_eq in C1, C2. subst u w.
    cbn [eval] in E. destruct (eval (with_x I x) rho e1) as [a|] eqn:E1; [|discriminate]. cbn [obind] in E.
    destruct (eval (with_x I x) rho e2) as [b|] eqn:E2; [|discriminate]. cbn [obind] in E.
    pose proof (lin_ok _ _ _ _ _ L E2) as B. cbn [fst snd] in B. rewrite rv_0, rv_1 in B. replace b with 1 in E by lra. rewrite CollectProofs.rpow_1r in E. exact E.
  - intros e F. destruct e; try (apply S2; exact F). cbn [simp1]. destruct (lin e2) as [[u w]|]; [|now apply S2].
    destruct (Qc_eqb u 0 && Qc_eqb w 1)%bool; [|now apply S2]. unfold x_free in *. cbn [has_x_function] in F. apply orb_false_iff in F. tauto.
Qed.
Definition null (I : interp) (e : expr) : Prop := forall x rho v, eval (with_x I x) rho e = Some v -> v = 0.
Lemma zap_sound I zs : Forall (null I) zs -> sound_simplification I (zap zs).
Proof.
  intros H. destruct (simp1_sound I) as [S1 S2]. split.
  - intros x e rho v E. unfold zap. destruct (existsb (expr_eqb e) zs) eqn:X; [|apply (S1 x); exact E].
    apply existsb_exists in X as (z & Hz & Ez). apply expr_eqb_eq in Ez. subst z. rewrite Forall_forall in H. rewrite (H e Hz x rho v E). cbn. now rewrite rv_0.
  - intros e F. unfold zap. destruct (existsb _ zs); [reflexivity|now apply S2].
Qed.

(** * x(n) = x(n-1)^2 *)
Definition two : expr := Num (zq 2).
Definition sq_rhs : expr := Pow (Fun FX [n_plus (-1)]) two.
Definition tower (b : expr) (e : expr) : expr := Pow b (Pow two e).
Definition sq_sol : expr := tower two n_.
Definition sq_sym : expr := tower (Fun FX [Num (nq 0)]) n_.
(** b^(2^n) - (b^(2^(n-1)))^2. *)
Definition sq_null (b : expr) : expr := Add [tower b n_; Mul [Num (-(1))%Qc; Pow (tower b (Add [n_; Num (zq (-1))])) two]].
Definition sq_problem : problem := MkProblem sq_rhs (Num 0%Qc) 1 1 0 true None [(0%nat, two)] sq_sol None.
Definition sy2_problem : problem := MkProblem sq_rhs (Num 0%Qc) 1 1 0 true None [] sq_sym None.
Definition sq_simp : expr -> expr := zap [sq_null two; sq_null (Fun FX [Num (nq 0)])].
Lemma sq_accepted : verify_directly G0 sq_simp idE idE false sq_problem = Provably_correct.
Proof. vm_compute. reflexivity. Qed.
Lemma sy2_accepted : verify_directly G0 sq_simp idE idE false sy2_problem = Provably_correct.
Proof. vm_compute. reflexivity. Qed.
(** Without the knowledge that the difference is zero. *)
Lemma sq_broken : verify_directly G0 simp idE idE false sq_problem = Broken.
Proof. vm_compute. reflexivity. Qed.

Lemma rpow_square u e v w : 0 < e -> rpow u e = Some v -> rpow u (2 * e) = Some w -> w = v ^ 2.
Proof.
  intros He Hv Hw. destruct (Req_EM_T u 0) as [->|U0].
  { assert (Z : forall t r, 0 < t -> rpow 0 t = Some r -> r = 0).
    { intros t r Ht. unfold rpow. destruct (as_int t) as [z|] eqn:Ez.
      - apply as_int_spec in Ez. subst t. apply lt_IZR in Ht. destruct (Req_EM_T 0 0); [|lra]. replace (Z.ltb z 0) with false by (symmetry; apply Z.ltb_ge; lia).
        intros E. injection E as <-. destruct z; try lia. cbn. apply pow_i. lia.
      - destruct (Rlt_dec 0 0); [lra|]. destruct (Req_EM_T 0 0); [|lra]. destruct (Rlt_dec 0 t); [|lra]. congruence. }
    rewrite (Z _ _ He Hv), (Z (2 * e) w ltac:(lra) Hw). ring. }
  destruct (Rlt_dec 0 u) as [Pu|Nu].
  { rewrite rpow_pos in Hv, Hw by auto. injection Hv as <-. injection Hw as <-. replace (2 * e) with (e + e) by lra. rewrite Rpower_plus. ring. }
  assert (K : exists z, e = IZR z). { unfold rpow in Hv. destruct (as_int e) as [z|] eqn:Ez; [apply as_int_spec in Ez; eauto|]. destruct (Rlt_dec 0 u); [lra|]. destruct (Req_EM_T u 0); [lra|discriminate]. }
  destruct K as [z ->]. rewrite <- mult_IZR in Hw. replace (2 * z)%Z with (z + z)%Z in Hw by lia.
  rewrite rpow_int in Hv, Hw by auto. rewrite powerRZ_add in Hw by auto.
  assert (A : v = powerRZ u z) by congruence. assert (B : w = powerRZ u z * powerRZ u z) by congruence. rewrite A, B. ring.
Qed.
Lemma two_val J r : eval J r two = Some 2. Proof. unfold two. cbn [eval]. now rewrite rv_zq. Qed.
Lemma pow_inv J r a b v : eval J r (Pow a b) = Some v -> exists p q, eval J r a = Some p /\ eval J r b = Some q /\ rpow p q = Some v.
Proof. cbn [eval]. destruct (eval J r a) as [p|]; [|discriminate]. cbn [obind]. destruct (eval J r b) as [q|]; [|discriminate]. cbn [obind]. eauto. Qed.
Lemma n_less J r : eval J r (Add [n_; Num (zq (-1))]) = Some (r "n"%string - 1).
Proof. unfold n_. rewrite eval_Add2. cbn [eval olift2]. rewrite rv_zq. reflexivity. Qed.
Lemma two_pow J r e v : eval J r e = Some v -> eval J r (Pow two e) = Some (Rpower 2 v).
Proof. intros E. cbn [eval]. rewrite two_val, E. cbn [obind]. apply rpow_pos. lra. Qed.
Lemma half v : Rpower 2 v = 2 * Rpower 2 (v - 1).
Proof. replace v with (1 + (v - 1)) at 1 by lra. rewrite Rpower_plus, Rpower_1 by lra. reflexivity. Qed.
Lemma sq_null_null I b : null I (sq_null b).
Proof.
  intros x r v E. unfold sq_null in E. rewrite eval_Add2 in E. apply olift2_some in E as (t & s & Et & Es & ->).
  rewrite eval_Mul2 in Es. apply olift2_some in Es as (m & q & Em & Eq & ->). cbn [eval] in Em. rewrite rv_opp, rv_1 in Em. injection Em as <-.
  unfold tower in *. apply pow_inv in Et as (p1 & q1 & Ep1 & Eq1 & Et). apply pow_inv in Eq as (p2 & q2 & Ep2 & Eq2 & Eq). rewrite two_val in Eq2. injection Eq2 as <-.
  apply pow_inv in Ep2 as (p3 & q3 & Ep3 & Eq3 & Ep2). assert (p3 = p1) by congruence. subst p3.
  rewrite (two_pow _ _ _ _ (n_less _ _)) in Eq3. injection Eq3 as <-. rewrite (two_pow _ _ n_ (r "n"%string)) in Eq1 by reflexivity. injection Eq1 as <-.
  change 2 with (INR 2) in Eq. rewrite rpow_nat in Eq. injection Eq as <-. rewrite half in Et.
  rewrite (rpow_square _ _ _ _ ltac:(apply exp_pos) Ep2 Et). ring.
Qed.
Lemma sq_simp_sound I : sound_simplification I sq_simp.
Proof. apply zap_sound. repeat constructor; apply sq_null_null. Qed.
Lemma pow2_val (n : nat) : Rpower 2 (INR n) = 2 ^ n. Proof. apply Rpower_pow. lra. Qed.
Lemma tower_val I rho c b u n : at_n I rho c n b = Some u -> at_n I rho c n (tower b n_) = Some (u ^ (2 ^ n)).
Proof.
  intros E. unfold at_n in *. unfold tower.
  assert (P : eval (with_x I c) (upd rho "n" (INR n)) (Pow two n_) = Some (INR (2 ^ n))).
  { rewrite (two_pow _ _ n_ (INR n)) by reflexivity. now rewrite pow2_val, pow_INR. }
  change (obind (eval (with_x I c) (upd rho "n" (INR n)) b) (fun u => obind (eval (with_x I c) (upd rho "n" (INR n)) (Pow two n_)) (fun v => rpow u v)) = Some (u ^ 2 ^ n)).
  rewrite E, P. cbn [obind]. apply rpow_nat.
Qed.
Lemma x0_val I rho c n : at_n I rho c n (Fun FX [Num (nq 0)]) = Some (c 0%nat).
Proof. unfold at_n. cbn [eval omap obind with_x ifun]. rewrite rv_nq. cbn [INR]. change 0 with (IZR 0) at 1. now rewrite as_int_IZR. Qed.
Lemma sq_rhs_val I rho y n : (1 <= n)%nat -> at_n I rho y n sq_rhs = Some (y (n - 1)%nat ^ 2).
Proof.
  intros Hn. pose proof (x_plus_val I rho y n (-1) (n - 1) ltac:(lia)) as X. unfold at_n in *. unfold sq_rhs.
  change (obind (eval (with_x I y) (upd rho "n" (INR n)) (Fun FX [n_plus (-1)])) (fun u => obind (eval (with_x I y) (upd rho "n" (INR n)) two) (fun v => rpow u v)) = Some (y (n - 1)%nat ^ 2)).
  rewrite X, two_val. cbn [obind]. change 2 with (INR 2) at 1. apply rpow_nat.
Qed.

(** * x(n) = 2^n x(n-1)^2: the logarithms satisfy x(n) = 2 x(n-1) + n *)
Definition gr_x : expr := Fun FX [n_plus (-1)].
Definition gr_rhs : expr := Mul [Pow two n_; Pow gr_x two].
Definition gr_new : expr := Add [Mul [two; gr_x]; n_].
Definition gr_sol : expr := Add [Mul [Pow two n_; Fun FX [Num (nq 0)]]; Mul [two; Pow two n_]; Mul [Num (zq (-1)); n_]; Num (zq (-2))].
Definition qmax (a b : Qc) : Qc := if q_lt a b then b else a.
Definition log2 (e : expr) : expr := Mul [Fun FLog [e]; Pow (Fun FLog [two]) (Num (-(1))%Qc)].
Definition gr_logs : expr := Add [log2 (Pow two n_); log2 (Pow (Pow two gr_x) two)].
Definition gr_log (e : expr) : expr := if expr_eqb e gr_logs then gr_new else e.
Definition gr_z1 : expr := Add [Pow two n_; Mul [Num (zq (-1)); Add [Mul [n_; Num (zq (-1))]; n_; Mul [Pow two (Add [n_; Num (zq (-1))]); two]]]].
Definition gr_z2 : expr := Add [Num (zq (-2)); Mul [Num (zq (-1)); n_]; Mul [two; Pow two n_];
  Mul [Num (zq (-1)); Add [n_; Mul [Add [Mul [Pow two (Add [n_; Num (zq (-1))]); two]; Mul [Add [n_; Num (zq (-1))]; Num (zq (-1))]; Num (zq (-2))]; two]]]].
Definition gr_z3 : expr := Add [Mul [Pow two (Num 0%Qc); two]; Num (zq (-2))].
Definition gr_simp (e : expr) : expr := if expr_eqb e (Pow two (Num 0%Qc)) then Num 1%Qc else zap [gr_z1; gr_z2; gr_z3] e.
Definition gr_lin : problem := MkProblem gr_new n_ 1 1 0 true (Some [1%nat]) [] gr_sol None.
Definition gr_problem : problem := MkProblem gr_rhs (Num 0%Qc) 1 1 0 true None [] (log_solution G0 (fun e => e) gr_log two gr_sol) None.
Lemma gr_rewrite : match rewrite_non_linear G0 qmax (fun e => e) gr_log (fun _ => true) gr_rhs with NL_log b r => expr_eqb b two && expr_eqb r gr_new | _ => false end = true.
Proof. vm_compute. reflexivity. Qed.
Lemma gr_rewrites : rewrite_non_linear G0 qmax (fun e => e) gr_log (fun _ => true) gr_rhs = NL_log two gr_new.
Proof. pose proof gr_rewrite as E. destruct (rewrite_non_linear _ _ _ _ _ _); try discriminate E. apply andb_true_iff in E as [E1 E2]. apply expr_eqb_eq in E1, E2. congruence. Qed.
Lemma gr_answer weighted : verify_exact_solution Non_linear true (fun b => verify_directly G0 gr_simp idE idE b gr_problem) weighted
  (fun b => verify_finite_order G0 gr_simp idE idE gr_simp idE (fun _ => 1%nat) b gr_lin) false = Some Partially_correct.
Proof. vm_compute. reflexivity. Qed.
Lemma num_val J r q : eval J r (Num q) = Some (rv q). Proof. reflexivity. Qed.
Lemma n_val J r : eval J r n_ = Some (r "n"%string). Proof. reflexivity. Qed.
Ltac ev := rewrite ?eval_Add2, ?eval_Mul2, ?eval_Add, ?eval_Mul, ?esum_cons, ?eprod_cons, ?esum_nil, ?eprod_nil, ?num_val, ?n_val, ?two_val, ?rv_zq.
Ltac evs := repeat (ev; rewrite ?(two_pow _ _ _ _ (n_less _ _)), ?(two_pow _ _ _ _ (n_val _ _))).
Lemma gr_z1_null I : null I gr_z1.
Proof.
  intros x r v E. revert E. unfold gr_z1. evs. cbn [olift2]. intros E.
  assert (V : v = Rpower 2 (r "n"%string) + (IZR (-1) * (r "n"%string * IZR (-1) + (r "n"%string + (Rpower 2 (r "n"%string - 1) * 2 + 0))))) by congruence. rewrite V, half. ring.
Qed.
Lemma gr_z2_null I : null I gr_z2.
Proof.
  intros x r v E. revert E. unfold gr_z2. evs. cbn [olift2]. rewrite half. set (h := Rpower 2 (r "n"%string - 1)). intros E.
  match type of E with Some ?t = _ => assert (V : v = t) by congruence end. rewrite V. ring.
Qed.
Lemma two_zero J r : eval J r (Pow two (Num 0%Qc)) = Some 1.
Proof. rewrite (two_pow _ _ _ _ (num_val _ _ _)), rv_0. f_equal. apply Rpower_O. lra. Qed.
Lemma gr_z3_null I : null I gr_z3.
Proof.
  intros x r v E. revert E. unfold gr_z3. rewrite eval_Add2, eval_Mul2, two_zero, two_val, num_val, rv_zq. cbn [olift2]. intros E.
  match type of E with Some ?t = _ => assert (V : v = t) by congruence end. rewrite V. ring.
Qed.
Lemma gr_simp_sound I : sound_simplification I gr_simp.
Proof.
  destruct (zap_sound I [gr_z1; gr_z2; gr_z3]) as [S1 S2]; [repeat constructor; auto using gr_z1_null, gr_z2_null, gr_z3_null|]. split.
  - intros x e r v E. unfold gr_simp. destruct (expr_eqb e (Pow two (Num 0%Qc))) eqn:X; [|exact (S1 x e r v E)].
    apply expr_eqb_eq in X. subst e. rewrite two_zero in E. assert (v = 1) by congruence. subst v. now rewrite num_val, rv_1.
  - intros e F. unfold gr_simp. destruct (expr_eqb _ _); [reflexivity|now apply S2].
Qed.
Lemma log_val r x v e : 0 < v -> eval (with_x I1 x) r e = Some v -> eval (with_x I1 x) r (Fun FLog [e]) = Some (ln v).
Proof. intros P E. cbn [eval omap]. rewrite E. cbn [obind with_x ifun]. apply (proj1 I1_log_exp); auto. Qed.
Lemma log2_val x r e u : eval (with_x I1 x) r e = Some (Rpower 2 u) -> eval (with_x I1 x) r (log2 e) = Some u.
Proof.
  intros E. unfold log2. rewrite eval_Mul2, (log_val _ _ _ _ (exp_pos _) E).
  assert (L : ln 2 <> 0) by (apply Rgt_not_eq; rewrite <- ln_1; apply ln_increasing; lra).
  assert (P : eval (with_x I1 x) r (Pow (Fun FLog [two]) (Num (-(1))%Qc)) = Some (/ ln 2)).
  { change (obind (eval (with_x I1 x) r (Fun FLog [two])) (fun a => obind (eval (with_x I1 x) r (Num (-(1))%Qc)) (rpow a)) = Some (/ ln 2)).
    rewrite (log_val r x 2 two) by (auto using two_val; lra). rewrite num_val, rv_opp, rv_1. cbn [obind]. replace (Ropp 1) with (IZR (-1)) by lra. rewrite rpow_int by auto. cbn [powerRZ]. change (Pos.to_nat 1) with 1%nat. f_equal. field. auto. }
  rewrite P. cbn [olift2]. f_equal. unfold Rpower. change (ln (exp (u * ln 2))) with (ln (exp (u * ln 2))). rewrite ln_exp. field. auto.
Qed.
Lemma gr_log_preserves : preserves_x I1 gr_log.
Proof.
  intros x e r v E. unfold gr_log. destruct (expr_eqb e gr_logs) eqn:X; [|exact E]. apply expr_eqb_eq in X. subst e. unfold gr_logs, gr_new in *.
  rewrite eval_Add2 in *. rewrite (log2_val x r (Pow two n_) (r "n"%string)) in E by (apply two_pow; reflexivity).
  rewrite n_val, eval_Mul2, two_val.
  destruct (eval (with_x I1 x) r gr_x) as [w|] eqn:W.
  - rewrite (log2_val x r (Pow (Pow two gr_x) two) (2 * w)) in E; [cbn [olift2] in *; rewrite Rplus_comm; exact E|].
    change (obind (eval (with_x I1 x) r (Pow two gr_x)) (fun a => obind (eval (with_x I1 x) r two) (rpow a)) = Some (Rpower 2 (2 * w))).
    rewrite (two_pow _ _ _ _ W), two_val. cbn [obind]. rewrite rpow_pos by apply exp_pos. now rewrite Rpower_mult, Rmult_comm.
  - exfalso. cbn [olift2] in E. unfold log2 in E. rewrite eval_Mul2 in E.
    assert (N : eval (with_x I1 x) r (Fun FLog [Pow (Pow two gr_x) two]) = None) by (cbn [eval omap]; cbn [eval] in W; rewrite W, two_val; reflexivity).
    rewrite N in E. discriminate E.
Qed.
Lemma gr_linear I rho : linear_rhs I rho 1 1 gr_new n_.
Proof.
  exists (fun _ _ => 2), (fun n => INR n). intros x n Hn. split; [|reflexivity].
  unfold at_n, gr_new. pose proof (x_plus_val I rho x n (-1) (n - 1) ltac:(lia)) as X. unfold at_n in X. rewrite eval_Add2, eval_Mul2, two_val, n_val. unfold gr_x. rewrite X. cbn [olift2 wsum]. f_equal. unfold upd. rewrite String.eqb_refl. ring.
Qed.
Definition gr_with : expr := Mul [Pow two n_; Fun FX [Num (nq 0)]].
Definition gr_part : expr := Add [Num (zq (-2)); Mul [Num (zq (-1)); n_]; Mul [two; Pow two n_]].
Lemma gr_split : split_solution G0 true gr_sol = (gr_with, gr_part).
Proof.
  assert (E : (expr_eqb (fst (split_solution G0 true gr_sol)) gr_with && expr_eqb (snd (split_solution G0 true gr_sol)) gr_part)%bool = true) by (vm_compute; reflexivity).
  apply andb_true_iff in E as [E1 E2]. apply expr_eqb_eq in E1, E2. rewrite <- E1, <- E2. now destruct (split_solution G0 true gr_sol).
Qed.
Lemma gr_ic : ic_summands gr_sol /\ ic_sum 0 1 gr_with.
Proof.
  split.
  - cbn [gr_sol ic_summands]. constructor; [right; exists 0%nat, [Pow two n_]; split; [repeat constructor|right; exists [Pow two n_], []; split; reflexivity]|].
    repeat constructor; left; reflexivity.
  - exists [Pow two n_]. split; [repeat constructor|right; exists [Pow two n_], []; split; reflexivity].
Qed.
Lemma gr_few I rho : 
     (forall coeffs e, fill_coefficients G0 1 0 1 gr_with = Some coeffs -> In e coeffs ->
        few_exponentials I rho (seq_of I rho e) 1 (new_residual G0 idE gr_simp 1 e (gsub G0 gr_new n_))) /\
     few_exponentials I rho (seq_of I rho gr_part) (List.length (exp_poly_decomposition G0 idE (gr_simp n_) "n") + 1) (new_residual G0 idE gr_simp 1 gr_part gr_new).
Proof.
  split.
  - intros coeffs e E Hin. assert (C : coeffs = [Pow two n_]).
    { assert (X : match fill_coefficients G0 1 0 1 gr_with with Some [a] => expr_eqb a (Pow two n_) | _ => false end = true) by (vm_compute; reflexivity).
      rewrite E in X. destruct coeffs as [|a [|]]; try discriminate X. apply expr_eqb_eq in X. now subst a. }
    subst coeffs. destruct Hin as [<-|[]].
    replace (new_residual G0 idE gr_simp 1 (Pow two n_) (gsub G0 gr_new n_)) with (Num 0) by (symmetry; apply expr_eqb_eq; vm_compute; reflexivity).
    apply zero_few. lia.
  - replace (new_residual G0 idE gr_simp 1 gr_part gr_new) with (Num 0) by (symmetry; apply expr_eqb_eq; vm_compute; reflexivity).
    apply zero_few. lia.
Qed.
Lemma gr_total I rho c n : exists v, at_n I rho c n gr_sol = Some v.
Proof. unfold at_n, gr_sol. pose proof (x0_val I rho c n) as X. unfold at_n in X. eexists. evs. rewrite X. cbn [olift2]. reflexivity. Qed.
Lemma gr_x_val x rho n : (1 <= n)%nat -> eval (with_x I1 x) (upd rho "n" (INR n)) gr_x = Some (x (n - 1)%nat).
Proof. intros Hn. exact (x_plus_val I1 rho x n (-1) (n - 1) ltac:(lia)). Qed.
Lemma square_val x r e u : eval (with_x I1 x) r e = Some u -> eval (with_x I1 x) r (Pow e two) = Some (u ^ 2).
Proof.
  intros E. change (obind (eval (with_x I1 x) r e) (fun a => obind (eval (with_x I1 x) r two) (rpow a)) = Some (u ^ 2)). rewrite E, two_val. cbn [obind]. change 2 with (INR 2) at 1. apply rpow_nat.
Qed.
Lemma gr_defined rho : defined_on_positive I1 rho 1 gr_rhs.
Proof.
  intros x n _ Hn. unfold gr_rhs. rewrite eval_Mul2, (two_pow _ _ _ _ (n_val _ _)), (square_val _ _ _ _ (gr_x_val x rho n Hn)). cbn [olift2]. eauto.
Qed.
Lemma gr_positive rho : positive_product I1 rho 1 (substitute_x_function G0 two EXPONENT gr_rhs).
Proof.
  intros x n Hn. exists [Pow (Pow two gr_x) two; Pow two n_]. split; [apply expr_eqb_eq; vm_compute; reflexivity|].
  pose proof (gr_x_val x rho n Hn) as X. constructor; [|constructor; [|constructor]].
  - exists (Rpower 2 (x (n - 1)%nat) ^ 2). split; [apply pow_lt, exp_pos|]. now apply square_val, two_pow.
  - exists (Rpower 2 (INR n)). split; [apply exp_pos|]. apply two_pow. reflexivity.
Qed.
