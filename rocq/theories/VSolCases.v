(** Cases for C81: x(n) = n x(n-1) + 1, and x(n) = 2^n x(n-1) + 1/(n-1). *)
From Coq Require Import ZArith QArith Qcanon Reals List String Bool Lia Lra.
From Verif Require Import Fld FPoly SeqSpec SeqLemmas Ast ExprModel ExprSpec ExprProofs1 ExprProofs2 ExprCases SeqInterp NonLinModel NonLinProofs NonLinCases ElimModel ElimSpec ElimProofs ElimCases VerifySpec VerifyCases ClassModel ClassSpec ClassProofs3 ClassCases DecompModel DecompSpec
  ProdModel ProdSpec ProdProofs ProdProofs2 ProdProps DomModel DomProps DrvModel LinSolve SolverSpec SolverModel SolverProofs1 SolverProps CSolModel CSolSpec CSolProofs CSolProofs2 CSolCases VSolModel VSolProofs.
Import ListNotations.
Local Open Scope list_scope.
Local Open Scope R_scope.
Notation idE := VerifyCases.idE.

Definition no_sums : comp (K:=RF) -> option (Z -> RF) := fun _ => None.
Lemma no_sums_ok (lambda : RF) f : summation_ok (K:=RF) lambda f no_sums.
Proof. intros e z E. discriminate. Qed.
Lemma I1_factorial : factorial_interp I1. Proof. exact (fun n => DecompCases.I0_factorial n). Qed.
Notation pf_of := (product_factor G0 always never one_content idE whole idE idE whole' sum_symbolic "h" "k" idE 5).
Notation value_in o := (ProdProps.value_of o).
Lemma base_one N p q (inh : list (comp (K:=RF))) : decomposition_values (K:=RF) I1 rho0 (fun u => u) N [(Num 1%Qc, p, q)] inh -> Forall (fun e => cbase e <> f0) inh.
Proof.
  intros D. inversion D as [|? c ? l' Hc D' E1 E2]; subst. inversion D'; subst. constructor; [|constructor]. destruct Hc as ((b & Hb & ->) & _). specialize (Hb N (le_n _)).
  unfold value_of, at_n in Hb. cbn [eval] in Hb. rewrite rv_1 in Hb. assert (b = 1) by congruence. subst b. change (@f0 RF) with 0. lra.
Qed.

(** * x(n) = n x(n-1) + 1 *)
Definition fac_rhs : expr := Add [Mul [Sym "n"; xm 1]; Num 1%Qc].
Lemma fac_runs : exists s, classify G0 lmax lmax fac_rhs = inr s /\ c_type s = Some VAR_COEFF /\ c_order s = 1%nat /\ c_coeffs s = [Num 0%Qc; Sym "n"] /\ c_inhom s = Num 1%Qc.
Proof.
  assert (H : cls_check (classify G0 lmax lmax fac_rhs) (fun s => rtype_eqb (c_type s) (Some VAR_COEFF) && Nat.eqb (c_order s) 1 &&
     exprs_eqb (c_coeffs s) [Num 0%Qc; Sym "n"] && expr_eqb (c_inhom s) (Num 1%Qc)) = true) by (vm_compute; reflexivity).
  destruct (classify G0 lmax lmax fac_rhs) as [|s]; [discriminate|]. cbn [cls_check] in H. rewrite !andb_true_iff in H. destruct H as [[[H1 H2] H3] H4]. exists s.
  split; [reflexivity|]. split; [now apply rtype_eqb_eq|]. split; [now apply Nat.eqb_eq|]. split; [now apply exprs_eqb_eq|now apply expr_eqb_eq].
Qed.
Lemma fac_unary : Forall unary_x (terms fac_rhs).
Proof. repeat (constructor; [cbn; repeat (constructor; auto)|]). constructor. Qed.
Lemma fac_val x n : (1 <= n)%nat -> at_n I1 rho0 x n fac_rhs = Some (INR n * x (n - 1)%nat + 1).
Proof.
  intros H. pose proof (xm_val x n 1 H) as A. unfold at_n in *. unfold fac_rhs. rewrite eval_Add2, eval_Mul2. change (Z.of_nat 1) with 1%Z in A. rewrite A. cbn [eval]. rewrite rv_1. reflexivity.
Qed.
Definition fac_coeffs : list expr := [Num 0%Qc; Sym "n"].
Definition fac_pf : expr := value_in (pf_of 0%nat fac_coeffs).
Lemma fac_product : pf_of 0%nat fac_coeffs = Value fac_pf.
Proof.
  unfold fac_pf. assert (V : is_value (pf_of 0%nat fac_coeffs) = true) by (vm_compute; reflexivity).
  destruct (pf_of 0%nat fac_coeffs); [reflexivity|discriminate|discriminate].
Qed.
Lemma fac_treated J rho : treated J rho G0 idE idE "k" "h" (Z.of_nat 0 + 1) (idE (gdiv G0 (Sym "k") (Num 1))).
Proof.
  change (idE (gdiv G0 (Sym "k") (Num 1))) with (Mul [Sym "k"; Pow (Num 1) (Num (-(1))%Qc)]). cbn -[exp_poly_decomposition substitute]. repeat match goal with |- _ /\ _ => split end; auto.
  split; [reflexivity|split; [eexists; reflexivity|]].
  replace (exp_poly_decomposition G0 (fun e => e) (Num (-(1))%Qc) "k") with [(Num 1, Num (-(1))%Qc, Num 0)] by (vm_compute; reflexivity). constructor; [|constructor]. cbn. repeat split; auto.
Qed.
Definition term_eqb (a b : term) : bool := let '(x, y, z) := a in let '(x', y', z') := b in expr_eqb x x' && expr_eqb y y' && expr_eqb z z'.
Lemma term_eqb_eq a b : term_eqb a b = true -> a = b.
Proof. destruct a as [[x y] z], b as [[x' y'] z']. cbn. rewrite !andb_true_iff. intros [[A B] C]. apply expr_eqb_eq in A, B, C. now subst. Qed.
Definition single (l : list term) (a b : expr) : bool := match l with [t] => expr_eqb (fst (fst t)) a && expr_eqb (snd (fst t)) b | _ => false end.
Lemma single_eq l a b : single l a b = true -> exists q, l = [(a, b, q)].
Proof. destruct l as [|[[x y] z] [|]]; try discriminate. cbn. rewrite andb_true_iff. intros [A B]. apply expr_eqb_eq in A, B. subst. now exists z. Qed.
Lemma fac_decomposition : exists q, divided_term G0 idE idE (Num 1%Qc) fac_pf = [(Num 1%Qc, Num 0%Qc, q)].
Proof. apply single_eq. vm_compute. reflexivity. Qed.

(** * x(n) = 2^n x(n-1) + 1/(n-1) *)
Definition low_rhs : expr := Add [Mul [Pow (Num (zq 2)) (Sym "n"); xm 1]; Pow (Add [Sym "n"; Num (zq (-1))]) (Num (-(1))%Qc)].
Definition low_coeffs : list expr := [Num 0%Qc; Pow (Num (zq 2)) (Sym "n")].
Definition low_inhom : expr := Pow (Add [Sym "n"; Num (zq (-1))]) (Num (-(1))%Qc).
Definition low_roots : string -> expr -> list Qc := fun _ _ => [1%Qc].
Lemma low_runs : exists s, classify G0 lmax lmax low_rhs = inr s /\ c_type s = Some VAR_COEFF /\ c_order s = 1%nat /\ c_coeffs s = low_coeffs /\ c_inhom s = low_inhom /\
  first_valid_index G0 numer0 denom0 idE low_roots 5 s = Some 1%Z.
Proof.
  assert (H : cls_check (classify G0 lmax lmax low_rhs) (fun s => rtype_eqb (c_type s) (Some VAR_COEFF) && Nat.eqb (c_order s) 1 &&
     exprs_eqb (c_coeffs s) low_coeffs && expr_eqb (c_inhom s) low_inhom && match first_valid_index G0 numer0 denom0 idE low_roots 5 s with Some z => Z.eqb z 1 | None => false end) = true) by (vm_compute; reflexivity).
  destruct (classify G0 lmax lmax low_rhs) as [|s]; [discriminate|]. cbn [cls_check] in H. rewrite !andb_true_iff in H. destruct H as [[[[H1 H2] H3] H4] H5]. exists s.
  split; [reflexivity|]. split; [now apply rtype_eqb_eq|]. split; [now apply Nat.eqb_eq|]. split; [now apply exprs_eqb_eq|]. split; [now apply expr_eqb_eq|].
  destruct (first_valid_index G0 numer0 denom0 idE low_roots 5 s) as [z|]; [|discriminate]. apply Z.eqb_eq in H5. now rewrite H5.
Qed.
Definition low_pf : expr := Mul [Pow (Num 1) (n_minus (-2) 1); Pow (Pow (Num 1) (Num (-(1))%Qc)) (n_minus (-2) 1); Pow (Num (zq 2)) (sum_symbolic (Sym "h") "h" (Num 1))].
Lemma low_product : pf_of 1%nat low_coeffs = Value low_pf.
Proof. apply val_is_eq. vm_compute. reflexivity. Qed.
Lemma low_decomposition : exists q, divided_term G0 idE idE low_inhom low_pf = [(Num 1%Qc, Num 0%Qc, q)].
Proof. apply single_eq. vm_compute. reflexivity. Qed.
Definition low_value (z : Z) : R := 2 ^ Z.to_nat (z * (z + 1) / 2).
Lemma half z : (0 <= z)%Z -> ((z + 1) * (z + 1 + 1) / 2 = z * (z + 1) / 2 + (z + 1))%Z.
Proof. intros H. replace ((z + 1) * (z + 1 + 1))%Z with (z * (z + 1) + (z + 1) * 2)%Z by ring. now rewrite Z.div_add by lia. Qed.
Lemma sum_ids n : ProdSpec.zsum (fun i => IZR i) 0 (S n) = IZR (Z.of_nat n * (Z.of_nat n + 1) / 2).
Proof.
  induction n; [cbn; ring|]. cbn [ProdSpec.zsum] in *. rewrite IHn. replace (0 + Z.of_nat (S n))%Z with (Z.of_nat n + 1)%Z by lia. replace (Z.of_nat (S n)) with (Z.of_nat n + 1)%Z by lia. rewrite half by lia. now rewrite (plus_IZR (_ / 2)).
Qed.
Lemma low_pf_value n : value_of I1 rho0 n low_pf = Some (low_value (Z.of_nat n)).
Proof.
  unfold value_of, at_n, low_pf. set (J := with_x I1 (fun _ => 0)). rewrite eval_Mul, !eprod_cons.
  assert (N1 : eval J (upd rho0 "n" (INR n)) (n_minus (-2) 1) = Some (INR n + (-2 + (1 + 0)))).
  { unfold n_minus. rewrite eval_Add, !esum_cons. cbn [eval]. rewrite !rv_zq. reflexivity. }
  assert (O : forall a v w, eval J (upd rho0 "n" (INR n)) a = Some 1 -> eval J (upd rho0 "n" (INR n)) v = Some w -> eval J (upd rho0 "n" (INR n)) (Pow a v) = Some 1).
  { intros a v w A V. cbn [eval]. rewrite A, V. cbn [obind]. apply rpow_one. }
  assert (E1 : eval J (upd rho0 "n" (INR n)) (Num 1) = Some 1) by (cbn [eval]; now rewrite rv_1).
  rewrite (O _ _ _ E1 N1). rewrite (O _ _ _ (O (Num 1) (Num (-(1))%Qc) _ E1 eq_refl) N1).
  assert (Sv : eval J (upd rho0 "n" (INR n)) (sum_symbolic (Sym "h") "h" (Num 1)) = Some (ProdSpec.zsum (fun i => IZR i) 0 (S n))).
  { rewrite INR_IZR_INZ. fold (env rho0 (Z.of_nat n)). replace (S n) with (Z.to_nat (Z.of_nat n + 1)) by lia.
    apply sum_symbolic_ok; [lia|]. intros i _. rewrite eval_Mul2. cbn [eval]. rewrite rv_1. change (upd (env rho0 (Z.of_nat n)) "h" (IZR i) "h"%string) with (IZR i). cbn [obind]. rewrite rpow_one. cbn [olift2]. f_equal. ring. }
  assert (P : eval J (upd rho0 "n" (INR n)) (Pow (Num (zq 2)) (sum_symbolic (Sym "h") "h" (Num 1))) = Some (low_value (Z.of_nat n))).
  { rewrite ProdProps.ev_pow, Sv. cbn [eval obind]. rewrite rv_zq. rewrite sum_ids. unfold low_value. set (m := (Z.of_nat n * (Z.of_nat n + 1) / 2)%Z).
    assert (Hm : (0 <= m)%Z) by (apply Z.div_pos; lia). rewrite <- (Z2Nat.id m Hm) at 1. rewrite <- INR_IZR_INZ. rewrite rpow_nat. reflexivity. }
  rewrite P. cbn [olift2 eprod fold_right]. change (eprod J (upd rho0 "n" (INR n)) []) with (Some 1). cbn [olift2]. f_equal. ring.
Qed.
Lemma low_inhom_value n : (2 <= n)%nat -> value_of I1 rho0 n low_inhom = Some (/ (INR n - 1)).
Proof.
  intros H. unfold value_of, at_n, low_inhom. rewrite ProdProps.ev_pow, eval_Add2. cbn [eval olift2]. rewrite rv_zq. cbn [obind olift2]. change (upd rho0 "n" (INR n) "n"%string) with (INR n).
  rewrite rv_opp, rv_1. replace (INR n + -1) with (INR n - 1) by ring. apply WClassProofs2.inv_v. apply le_INR in H. cbn in H. lra.
Qed.
Lemma low_val x n : (2 <= n)%nat -> at_n I1 rho0 x n low_rhs = Some (2 ^ n * x (n - 1)%nat + / (INR n - 1)).
Proof.
  intros H. pose proof (xm_val x n 1 ltac:(lia)) as A. unfold at_n in *. unfold low_rhs. rewrite eval_Add2, eval_Mul2. change (Z.of_nat 1) with 1%Z in A. rewrite A.
  fold low_inhom. pose proof (low_inhom_value n H) as B. unfold value_of, at_n in B. rewrite <- (x_free_eval I1 x (fun _ => 0) low_inhom) in B by reflexivity. rewrite B.
  cbn [eval]. rewrite rv_zq. cbn [obind]. change (upd rho0 "n" (INR n) "n"%string) with (INR n). rewrite rpow_nat. reflexivity.
Qed.
