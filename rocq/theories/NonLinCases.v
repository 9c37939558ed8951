From Coq Require Import ZArith QArith Qcanon Qreals Reals List String Bool Lia Lra.
From Verif Require Import Ast ExprModel ExprSpec ExprProofs1 ExprProofs2 ExprProofs3 ExprCases SeqInterp NonLinModel NonLinSpec NonLinProofs NonLinProofs2.
Import ListNotations.
Local Open Scope R_scope.

Definition first_arg (a b : Qc) : Qc := a.
Lemma id_preserves I : preserves_x I (fun e => e).
Proof. intros x e rho v H. exact H. Qed.
(** The standard interpretation without x(.). *)
Definition I1 : interp := ExprSpec.with_x I0 (fun _ => None).
Lemma I1_log_exp : log_exp_interp I1.
Proof. split; [|split]; intros; cbn; auto. - destruct (Rlt_dec 0 v); [auto|contradiction]. Qed.
(** x(n) = x(n-2)^4 *)
Definition nl_rhs : expr := Pow (Fun FX [n_minus (zq 2)]) (Num (zq 4)).
Definition nl_new : expr := Mul [Num (zq 4); Fun FX [n_minus (zq 2)]].
Lemma nl_runs : rewrite_non_linear G0 first_arg (fun e => e) (fun e => e) (fun _ => true) nl_rhs = NL_log (Num (zq 4)) nl_new.
Proof.
  unfold nl_rhs, rewrite_non_linear. cbn [constant_decrement n_minus]. change (String.eqb "n" "n") with true. cbn iota.
  replace (Qc_eqb _ 1) with false by (vm_compute; reflexivity). cbn [G0 gmul x_of is_num].
  replace (Qc_eqb (zq 4) 1) with false by (vm_compute; reflexivity). cbn [ops_mul app]. unfold nl_new, x_of, n_minus. 
  replace (- - - zq 2)%Qc with (- zq 2)%Qc by ring. reflexivity.
Qed.
Definition nl_sol : expr :=
  Add [Mul [Num (Q2Qc (1 # 2)); Add [Pow (Num (zq 2)) (Sym "n"); Pow (Num (zq (-2))) (Sym "n")]; Fun FX [Num 0%Qc]];
       Mul [Num (Q2Qc (1 # 4)); Add [Pow (Num (zq 2)) (Sym "n"); Mul [Num (zq (-1)); Pow (Num (zq (-2))) (Sym "n")]]; Fun FX [Num 1%Qc]]].
Lemma nl_x_val X rho n : eval (with_x I1 X) (upd rho "n" (INR (S (S n)))) (Fun FX [n_minus (zq 2)]) = Some (X n).
Proof.
  cbn [eval]. assert (O : omap (eval (with_x I1 X) (upd rho "n" (INR (S (S n))))) [n_minus (zq 2)] = Some [IZR (Z.of_nat n)]).
  { cbn [omap]. unfold n_minus. rewrite eval_Add2. cbn [eval olift2]. rewrite rv_opp, rv_zq. replace (upd rho "n" (INR (S (S n))) "n"%string) with (INR (S (S n))) by reflexivity. f_equal. f_equal. rewrite !S_INR, <- INR_IZR_INZ. lra. }
  rewrite O. cbn. rewrite as_int_IZR. replace (0 <=? Z.of_nat n)%Z with true by (symmetry; apply Z.leb_le; lia). now rewrite Nat2Z.id.
Qed.
Lemma nl_general rho : general_solution I1 rho 2 nl_new nl_sol any_seq.
Proof.
  intros z _. exists (fun n => / 2 * (2 ^ n + (-2) ^ n) * z 0%nat + / 4 * (2 ^ n - (-2) ^ n) * z 1%nat). split; [|split; [|split]].
  - intros n. unfold nl_sol. rewrite eval_Add2. rewrite !eval_Mul, !eprod_cons, !eprod_nil. rewrite !eval_Add2.
    assert (P1 : forall q, eval (with_x I1 z) (upd rho "n" (INR n)) (Pow (Num q) (Sym "n")) = Some (rv q ^ n)).
    { intros q. cbn [eval obind]. replace (upd rho "n" (INR n) "n"%string) with (INR n) by reflexivity. apply rpow_nat. }
    rewrite eval_Mul2, !P1, !eval_num, !rv_zq, !rv_Q.
    assert (X0 : forall rho', eval (with_x I1 z) rho' (Fun FX [Num 0%Qc]) = Some (z O)) by (intros; cbn; rewrite rv_0, (as_int_IZR 0); reflexivity).
    assert (X1 : forall rho', eval (with_x I1 z) rho' (Fun FX [Num 1%Qc]) = Some (z 1%nat)) by (intros; cbn; rewrite rv_1, (as_int_IZR 1); reflexivity).
    rewrite X0, X1. cbn [olift2]. f_equal. field.
  - intros i Hi. destruct i as [|[|]]; [cbn; lra|cbn; lra|lia].
  - exact Logic.I.
  - intros n Hn. destruct n as [|[|n]]; try lia. unfold holds_at, nl_new. rewrite eval_Mul2, nl_x_val, eval_num, rv_zq. cbn [olift2 pow]. f_equal. field.
Qed.
Lemma nl_defined rho : defined_on_positive I1 rho 2 nl_rhs.
Proof.
  intros X n HX Hn. destruct n as [|[|n]]; try lia. unfold nl_rhs. pose proof (nl_x_val X rho n) as E. exists (Rpower (X n) (rv (zq 4))).
  change (obind (eval (with_x I1 X) (upd rho "n" (INR (S (S n)))) (Fun FX [n_minus (zq 2)])) (fun x => obind (Some (rv (zq 4))) (rpow x)) = Some (Rpower (X n) (rv (zq 4)))).
  rewrite E. cbn [obind]. apply rpow_pos. apply HX.
Qed.
Lemma nl_base : base_value I1 (Num (zq 4)) 4.
Proof. split; [|lra]. intros X rho. cbn. now rewrite rv_zq. Qed.
Lemma nl_nested : not_nested nl_rhs /\ not_nested (gpow G0 (Num (zq 4)) nl_sol).
Proof. cbn. tauto. Qed.
(** x(n) = 5 x(n-1) x(n-2): base e. *)
Definition nl2_rhs : expr := Mul [Num (zq 5); Fun FX [n_minus 1%Qc]; Fun FX [n_minus (zq 2)]].
Lemma nl2_runs : exists r, rewrite_non_linear G0 first_arg (fun e => e) (fun e => e) (fun _ => true) nl2_rhs = NL_log napier r.
Proof. eexists. unfold nl2_rhs, rewrite_non_linear. cbn [rev app scan has_x_function existsb simple_pair]. replace (Qc_eqb 1 1) with true by reflexivity. reflexivity. Qed.
Lemma nl2_positive rho : positive_product I1 rho 2 (substitute_x_function G0 napier EXPONENT nl2_rhs).
Proof.
  intros x n Hn. destruct n as [|[|n]]; try lia. eexists. split.
  - unfold nl2_rhs. cbn [substitute_x_function map]. unfold mul_all. cbn [fold_right G0 gmul gpow is_num]. replace (Qc_eqb 1 1) with true by reflexivity. cbn iota. cbn [ops_mul app]. 
    replace (Qc_eqb (zq 5) 1) with false by (vm_compute; reflexivity). cbn [ops_mul app]. reflexivity.
  - assert (N : forall rho', eval (with_x I1 x) rho' napier = Some (exp 1)) by (intros; apply napier_val, I1_log_exp).
    assert (X1 : eval (with_x I1 x) (upd rho "n" (INR (S (S n)))) (Fun FX [n_minus 1%Qc]) = Some (x (S n))).
    { cbn [eval]. assert (O : omap (eval (with_x I1 x) (upd rho "n" (INR (S (S n))))) [n_minus 1%Qc] = Some [IZR (Z.of_nat (S n))]).
      { cbn [omap]. unfold n_minus. rewrite eval_Add2. cbn [eval olift2]. rewrite rv_opp, rv_1. replace (upd rho "n" (INR (S (S n))) "n"%string) with (INR (S (S n))) by reflexivity. f_equal. f_equal. rewrite <- INR_IZR_INZ, (S_INR (S n)). lra. }
      rewrite O. cbn [obind with_x ifun]. rewrite as_int_IZR. replace (0 <=? Z.of_nat (S n))%Z with true by (symmetry; apply Z.leb_le; lia). now rewrite Nat2Z.id. }
    constructor; [|constructor; [|constructor; [|constructor]]].
    + exists (exp (x n)). split; [apply exp_pos|]. pose proof (nl_x_val x rho n) as E. cbn [eval obind] in *. rewrite N. cbn [obind]. rewrite E. cbn [obind]. rewrite rpow_pos by apply exp_pos. unfold Rpower. rewrite ln_exp. do 2 f_equal. lra.
    + exists (exp (x (S n))). split; [apply exp_pos|]. cbn [eval obind] in *. rewrite N. cbn [obind]. rewrite X1. cbn [obind]. rewrite rpow_pos by apply exp_pos. unfold Rpower. rewrite ln_exp. do 2 f_equal. lra.
    + exists 5. split; [lra|]. cbn. now rewrite rv_zq.
Qed.
