(** Cases for C82: x(n) = 3 x(n-2) + n, and x(n) = x(n-2) + 1/(n+1). *)
From Coq Require Import ZArith QArith Qcanon Reals List String Bool Lia Lra.
From Verif Require Import Fld FPoly SeqSpec Ast ExprModel ExprSpec ExprProofs1 ExprProofs2 ExprCases SeqInterp NonLinProofs NonLinCases ElimModel ElimSpec ElimProofs VerifySpec VerifyCases ClassModel ClassSpec ClassProofs3 ClassCases DecompModel
  LinSolve SolverSpec SolverModel SolverProps OrderRedModel OrdRwModel OrdRwSpec OrdRwProps CSolModel CSolSpec CSolProofs CSolProofs2 CSolCases RSolModel RSolSpec RSolProofs.
Import ListNotations.
Local Open Scope list_scope.
Local Open Scope R_scope.

(** * x(n) = 3 x(n-2) + n *)
Definition two_rhs : expr := Add [Mul [Num (zq 3); xm 2]; Sym "n"].
Definition two_inh_e : expr := Add [Mul [Num (zq 2); Sym "n"]; Sym "r"].
Lemma two_runs : exists s, classify G0 lmax lmax two_rhs = inr s /\ c_type s = Some CONST_COEFF /\ c_order s = 2%nat /\ c_gcd s = 2%Z /\
  c_coeffs s = [Num 0%Qc; Num 0%Qc; Num (zq 3)] /\ c_inhom s = Sym "n".
Proof.
  assert (H : cls_check (classify G0 lmax lmax two_rhs) (fun s => rtype_eqb (c_type s) (Some CONST_COEFF) && Nat.eqb (c_order s) 2 && Z.eqb (c_gcd s) 2 &&
     exprs_eqb (c_coeffs s) [Num 0%Qc; Num 0%Qc; Num (zq 3)] && expr_eqb (c_inhom s) (Sym "n")) = true) by (vm_compute; reflexivity).
  destruct (classify G0 lmax lmax two_rhs) as [|s]; [discriminate|]. cbn [cls_check] in H. rewrite !andb_true_iff in H. destruct H as [[[[H1 H2] H3] H4] H5]. exists s.
  split; [reflexivity|]. split; [now apply rtype_eqb_eq|]. split; [now apply Nat.eqb_eq|]. split; [now apply Z.eqb_eq|]. split; [now apply exprs_eqb_eq|now apply expr_eqb_eq].
Qed.
Lemma two_unary : Forall unary_x (terms two_rhs).
Proof. repeat (constructor; [cbn; repeat (constructor; auto)|]). constructor. Qed.
Lemma two_direct : Forall (direct_term "r" 2) (terms two_rhs).
Proof.
  constructor; [|constructor; [|constructor]]; cbn [direct_term].
  - constructor; [exact Logic.I|]. constructor; [|constructor]. cbn [direct]. exists (n_plus (-2)). split; [reflexivity|]. exists (-1)%Z. left. reflexivity.
  - cbn. discriminate.
Qed.
Lemma two_rewritten : exists rhs', write_reduced_order_recurrence G0 "r" 2 two_rhs = Some (rhs', two_inh_e).
Proof.
  destruct (write_reduced_order_recurrence G0 "r" 2 two_rhs) as [[a b]|] eqn:E.
  - exists a. assert (H : match write_reduced_order_recurrence G0 "r" 2 two_rhs with Some (a, b) => expr_eqb b two_inh_e | None => false end = true) by (vm_compute; reflexivity).
    rewrite E in H. apply expr_eqb_eq in H. now subst b.
  - exfalso. assert (H : match write_reduced_order_recurrence G0 "r" 2 two_rhs with Some _ => true | None => false end = true) by (vm_compute; reflexivity). rewrite E in H. discriminate.
Qed.
Lemma two_kept t t' : In t (terms two_rhs) -> rewrite_term G0 "r" 2 t = Some t' -> has_x_of_n t' = has_x_of_n t.
Proof.
  intros Hin E. assert (H : match rewrite_term G0 "r" 2 t with Some t' => Bool.eqb (has_x_of_n t') (has_x_of_n t) | None => true end = true).
  { destruct Hin as [<-|[<-|[]]]; vm_compute; reflexivity. }
  rewrite E in H. now apply eqb_prop.
Qed.
Lemma two_linear : Forall linear_term (terms two_rhs).
Proof.
  constructor; [|constructor; [|constructor]].
  - right. exists (n_plus (-2)). right. eexists. split; [reflexivity|]. right. left. reflexivity.
  - left. reflexivity.
Qed.
Lemma two_val x n : (2 <= n)%nat -> at_n I1 rho0 x n two_rhs = Some (3 * x (n - 2)%nat + (INR n + 0)).
Proof.
  intros H. pose proof (xm_val x n 2 H) as B. unfold at_n in *. unfold two_rhs. rewrite eval_Add, !esum_cons, eval_Mul2. change (Z.of_nat 2) with 2%Z in B. rewrite B. cbn [eval olift2]. rewrite rv_zq. reflexivity.
Qed.
Definition two_poly : expr := Add [Sym "r"; Mul [Num (zq 2); Sym "n"]].
Lemma two_decomposition : exp_poly_decomposition G0 idE (idE two_inh_e) "n" = [(Num 1%Qc, two_poly, Num 0%Qc)].
Proof.
  assert (H : match exp_poly_decomposition G0 idE (idE two_inh_e) "n" with [(a, b, c)] => expr_eqb a (Num 1%Qc) && expr_eqb b two_poly && expr_eqb c (Num 0%Qc) | _ => false end = true) by (vm_compute; reflexivity).
  destruct (exp_poly_decomposition G0 idE (idE two_inh_e) "n") as [|[[a b] c] [|]]; try discriminate. rewrite !andb_true_iff in H. destruct H as [[H1 H2] H3]. apply expr_eqb_eq in H1, H2, H3. now subst.
Qed.
Definition two_inh (r0 : nat) : list (comp (K:=RF)) := [MkComp (K:=RF) 1 [INR r0; 2] (fun _ => 0)].
Lemma two_inh_ok r0 N : decomposition_values (K:=RF) I1 (upd rho0 "r" (INR r0)) (fun u => u) N [(Num 1%Qc, two_poly, Num 0%Qc)] (two_inh r0).
Proof.
  repeat constructor; cbn [cbase cpoly cnopoly].
  - exists 1. split; [|reflexivity]. intros n _. unfold value_of, at_n. cbn [eval]. now rewrite rv_1.
  - intros n _. exists (INR r0 + 2 * INR n). split.
    + unfold value_of, at_n, two_poly. rewrite eval_Add2, eval_Mul2. cbn [eval]. rewrite rv_zq. unfold upd. rewrite String.eqb_refl. cbn [String.eqb Ascii.eqb Bool.eqb olift2]. reflexivity.
    + cbn [peval]. rewrite ofn_RF. change (@fadd RF) with Rplus. change (@fmul RF) with Rmult. change (@f0 RF) with 0. change (@eq (car RF)) with (@eq R). ring.
  - intros n _. exists 0. split; [|reflexivity]. unfold value_of, at_n. cbn [eval]. now rewrite rv_0.
Qed.
Definition no_sum : nat -> comp (K:=RF) -> option (Z -> RF) := fun _ _ => None.
Definition no_roots : list RF -> option (list (RF * nat) * bool) := fun _ => None.
Lemma two_solved_from f x n : exists v, apply_order_reduction (K:=RF) gauss no_sum no_roots true 1 2 [0; 3] false two_inh f x n = Some v.
Proof.
  unfold apply_order_reduction, reduced_solution. change (@f0 RF) with 0. change (tl (reduced_coefficients (K:=RF) 2 [0; 0; 3])) with [3]. unfold solve_linear_finite_order, characteristic_roots.
  set (r0 := Z.to_nat _). set (x' := fun k : Z => x _).
  destruct (C23_solve_new RF gauss (C23_lsolve_contract RF) [3] [(3, 1%nat)] (map (fun e => (cbase e, cpoly e)) (two_inh r0)) (Z.of_nat f) x') as (X & EX & _).
  - split; [repeat constructor; auto|]. split; [repeat constructor|]. intros y. unfold char_value. cbn [List.length bsum nth fpow fold_right fst snd Nat.sub].
    change (@fadd RF) with Rplus. change (@fmul RF) with Rmult. change (@fsub RF) with Rminus. change (@f0 RF) with 0. change (@f1 RF) with 1. change (@eq (car RF)) with (@eq R). ring.
  - discriminate.
  - cbn [last]. change (@f0 RF) with 0. lra.
  - intros e [<-|[]]. cbn [fst cbase]. change (@f0 RF) with 0. lra.
  - lia.
  - exists (X ((n - n mod Z.of_nat 2) / Z.of_nat 2)%Z). exact (f_equal (fun o => match o with Some X => Some (X ((n - n mod Z.of_nat 2) / Z.of_nat 2)%Z) | None => None end) EX).
Qed.
Lemma two_solved x n : exists v, apply_order_reduction (K:=RF) gauss no_sum no_roots true 1 2 [0; 3] false two_inh 0 x n = Some v.
Proof. apply two_solved_from. Qed.

(** * x(n) = x(n-2) + 1/(n+1) *)
Definition inverse : expr := Pow (Add [Sym "n"; q 1]) (q (-1)).
Lemma div_runs : exists s, classify G0 lmax lmax rhs2 = inr s /\ c_type s = Some CONST_COEFF /\ c_order s = 2%nat /\ c_gcd s = 2%Z /\
  c_coeffs s = [Num 0%Qc; Num 0%Qc; Num 1%Qc] /\ c_inhom s = inverse.
Proof.
  assert (H : cls_check (classify G0 lmax lmax rhs2) (fun s => rtype_eqb (c_type s) (Some CONST_COEFF) && Nat.eqb (c_order s) 2 && Z.eqb (c_gcd s) 2 &&
     exprs_eqb (c_coeffs s) [Num 0%Qc; Num 0%Qc; Num 1%Qc] && expr_eqb (c_inhom s) inverse) = true) by (vm_compute; reflexivity).
  destruct (classify G0 lmax lmax rhs2) as [|s]; [discriminate|]. cbn [cls_check] in H. rewrite !andb_true_iff in H. destruct H as [[[[H1 H2] H3] H4] H5]. exists s.
  split; [reflexivity|]. split; [now apply rtype_eqb_eq|]. split; [now apply Nat.eqb_eq|]. split; [now apply Z.eqb_eq|]. split; [now apply exprs_eqb_eq|now apply expr_eqb_eq].
Qed.
Lemma div_rewritten : write_reduced_order_recurrence G0 "r" 2 rhs2 = Some (rhs2', inverse).
Proof. apply run. vm_compute. reflexivity. Qed.
Lemma div_val x n : (2 <= n)%nat -> at_n I1 rho0 x n rhs2 = Some (x (n - 2)%nat + / (INR n + 1)).
Proof.
  intros H. unfold at_n, rhs2. rewrite eval_Add2, (inverse_val _ _ n) by (unfold upd; now rewrite String.eqb_refl). rewrite (x_val I1 _ _ (-2) n); [|unfold upd; now rewrite String.eqb_refl|lia].
  cbn [olift2]. do 3 f_equal. lia.
Qed.
Lemma div_decomposition : exp_poly_decomposition G0 idE (idE inverse) "n" = [(Num 1%Qc, Num 0%Qc, inverse)].
Proof.
  assert (H : match exp_poly_decomposition G0 idE (idE inverse) "n" with [(a, b, c)] => expr_eqb a (Num 1%Qc) && expr_eqb b (Num 0%Qc) && expr_eqb c inverse | _ => false end = true) by (vm_compute; reflexivity).
  destruct (exp_poly_decomposition G0 idE (idE inverse) "n") as [|[[a b] c] [|]]; try discriminate. rewrite !andb_true_iff in H. destruct H as [[H1 H2] H3]. apply expr_eqb_eq in H1, H2, H3. now subst.
Qed.
Definition div_inh (r0 : nat) : list (comp (K:=RF)) := [MkComp (K:=RF) 1 [] (fun z => / (IZR z + 1))].
Lemma div_inh_ok r0 N : decomposition_values (K:=RF) I1 (upd rho0 "r" (INR r0)) (fun u => u) N [(Num 1%Qc, Num 0%Qc, inverse)] (div_inh r0).
Proof.
  repeat constructor; cbn [cbase cpoly cnopoly].
  - exists 1. split; [|reflexivity]. intros n _. unfold value_of, at_n. cbn [eval]. now rewrite rv_1.
  - intros n _. exists 0. split; [|reflexivity]. unfold value_of, at_n. cbn [eval]. now rewrite rv_0.
  - intros n _. exists (/ (INR n + 1)). split; [|now rewrite INR_IZR_INZ]. unfold value_of, at_n, inverse. apply inverse_val. unfold upd. now rewrite String.eqb_refl.
Qed.
Lemma div_solved (x0 : nat -> R) : exists v, apply_order_reduction (K:=RF) gauss no_sum no_roots true 1 2 [0; 1] true div_inh 0 (fun z => x0 (Z.to_nat z)) 2 = Some v /\ v = x0 0%nat + 1 / 2.
Proof.
  unfold apply_order_reduction, reduced_solution. change (2 mod Z.of_nat 2)%Z with 0%Z. change (Z.to_nat 0) with 0%nat. change ((2 - 0) / Z.of_nat 2)%Z with 1%Z. change (@f0 RF) with 0.
  change (tl (reduced_coefficients (K:=RF) 2 [0; 0; 1])) with [1]. set (x := fun k : Z => _).
  destruct (solve_linear_finite_order (K:=RF) gauss (no_sum 0) no_roots true 1 [1] true (div_inh 0) 0 x) as [X|] eqn:E; [|discriminate].
  exists (X 1%Z). split; [reflexivity|].
  assert (S : solves (K:=RF) [1] (inh_value (div_inh 0)) (Z.of_nat 0) x X).
  { apply (solver_solves (K:=RF) gauss (no_sum 0) no_roots true 1 [1] true (div_inh 0) 0 x X).
    - apply C23_lsolve_contract.
    - intros p roots d C. discriminate C.
    - change (@f0 RF) with 0. lra.
    - intros _. cbn [last]. change (@f0 RF) with 0. lra.
    - constructor; [|constructor]. cbn [cbase]. change (@f0 RF) with 0. lra.
    - intros e z C. discriminate C.
    - discriminate.
    - exact E. }
  destruct S as [S1 S2]. cbn [List.length] in S1, S2. rewrite (S2 1%Z) by lia. unfold lincomb. cbn [List.length bsum nth]. change (1 - 1 - Z.of_nat 0)%Z with 0%Z. rewrite (S1 0%Z) by lia.
  subst x. cbn beta. change (Z.to_nat (Z.of_nat 2 * 0 + 0)) with 0%nat. unfold inh_value, div_inh. cbn [fold_right cbase cpoly cnopoly peval zpow fpow].
  change (Pos.to_nat 1) with 1%nat. cbn [fpow]. change (@fadd RF) with Rplus. change (@fmul RF) with Rmult. change (@f0 RF) with 0. change (@f1 RF) with 1. lra.
Qed.
