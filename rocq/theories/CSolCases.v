(** Cases for C78: x(n) = x(n-1) + x(n-2) + n, and x(n) = -2 x(n-1) - 3 x(n-2) - 4 x(n-3) - 2 x(n-4). *)
From Coq Require Import ZArith QArith Qcanon Reals List String Bool Lia Lra.
From Coquelicot Require Import Complex.
From Verif Require Import Fld FPoly PolyMore CplxF SeqSpec Ast ExprModel ExprSpec ExprProofs1 ExprProofs2 ExprCases SeqInterp NonLinProofs NonLinCases ElimModel ElimSpec ElimProofs VerifySpec VerifyCases ClassModel ClassSpec ClassProofs3 ClassCases DecompModel
  RootModel RootSpec RootProofs RootProofs2 FindRootModel FindRootSpec RatRootProofs SearchProofs NestedProofs FindRootProofs FindRootProofs2 FindRootProofs3 FindRootProofs4 FindRootProofs5 FindRootProofs6 FindRootProofs7 LinSolve SolverSpec SolverModel SolverProps CSolModel CSolSpec CSolProofs CSolProofs2.
Import ListNotations.
Local Open Scope list_scope.
Local Open Scope R_scope.

Fixpoint exprs_eqb (a b : list expr) : bool := match a, b with [], [] => true | x :: a, y :: b => expr_eqb x y && exprs_eqb a b | _, _ => false end.
Lemma exprs_eqb_eq a : forall b, exprs_eqb a b = true -> a = b.
Proof. induction a as [|x a IH]; intros [|y b]; cbn; try congruence. intros H. apply andb_true_iff in H as [H1 H2]. apply expr_eqb_eq in H1. now rewrite H1, (IH b H2). Qed.
Definition rho0 : string -> R := fun _ => 0.
Definition xm (j : Z) : expr := Fun FX [n_plus (- j)].
Lemma xm_val x n j : (j <= n)%nat -> at_n I1 rho0 x n (xm (Z.of_nat j)) = Some (x (n - j)%nat).
Proof. intros H. apply (x_plus_val I1 rho0 x n (- Z.of_nat j) (n - j)). lia. Qed.

(** * x(n) = x(n-1) + x(n-2) + n *)
Definition fib_rhs : expr := Add [xm 1; xm 2; Sym "n"].
Lemma fib_runs : exists s, classify G0 lmax lmax fib_rhs = inr s /\ c_type s = Some CONST_COEFF /\ c_order s = 2%nat /\
  c_coeffs s = [Num 0%Qc; Num 1%Qc; Num 1%Qc] /\ c_inhom s = Sym "n".
Proof.
  assert (H : cls_check (classify G0 lmax lmax fib_rhs) (fun s => rtype_eqb (c_type s) (Some CONST_COEFF) && Nat.eqb (c_order s) 2 &&
     exprs_eqb (c_coeffs s) [Num 0%Qc; Num 1%Qc; Num 1%Qc] && expr_eqb (c_inhom s) (Sym "n")) = true) by (vm_compute; reflexivity).
  destruct (classify G0 lmax lmax fib_rhs) as [|s]; [discriminate|]. cbn [cls_check] in H. rewrite !andb_true_iff in H. destruct H as [[[H1 H2] H3] H4]. exists s.
  split; [reflexivity|]. split; [now apply rtype_eqb_eq|]. split; [now apply Nat.eqb_eq|]. split; [now apply exprs_eqb_eq|now apply expr_eqb_eq].
Qed.
Lemma fib_unary : Forall unary_x (terms fib_rhs).
Proof. repeat (constructor; [cbn; repeat (constructor; auto)|]). constructor. Qed.
Lemma fib_val x n : (2 <= n)%nat -> at_n I1 rho0 x n fib_rhs = Some (x (n - 1)%nat + (x (n - 2)%nat + (INR n + 0))).
Proof.
  intros H. pose proof (xm_val x n 1 ltac:(lia)) as A. pose proof (xm_val x n 2 H) as B. unfold at_n in *. unfold fib_rhs. rewrite eval_Add, !esum_cons.
  change (Z.of_nat 1) with 1%Z in A. change (Z.of_nat 2) with 2%Z in B. rewrite A, B. reflexivity.
Qed.
Lemma fib_defined : defined_from I1 rho0 2 fib_rhs.
Proof. intros x n H. eexists. apply fib_val. exact H. Qed.
Lemma fib_decomposition : exp_poly_decomposition G0 idE (idE (Sym "n")) "n" = [(Num 1%Qc, Sym "n", Num 0%Qc)].
Proof. reflexivity. Qed.
Definition fib_inh : list (comp (K:=CF)) := [MkComp (K:=CF) (RtoC 1) [RtoC 0; RtoC 1] (fun _ => RtoC 0)].
Lemma fib_inh_ok N : decomposition_values (K:=CF) I1 rho0 RtoC N [(Num 1%Qc, Sym "n"%string, Num 0%Qc)] fib_inh.
Proof.
  repeat constructor; cbn [cbase cpoly cnopoly].
  - exists 1. split; [|reflexivity]. intros n _. unfold value_of, at_n. cbn [eval]. now rewrite rv_1.
  - intros n _. exists (INR n). split; [reflexivity|]. cbn [peval]. toC. rewrite <- (inj_ofn CF RtoC emb_CF). ring.
  - intros n _. exists 0. split; [|reflexivity]. unfold value_of, at_n. cbn [eval]. now rewrite rv_0.
Qed.
Lemma fib_coefficients N : coefficient_values I1 rho0 N [Num 0%Qc; Num 1%Qc; Num 1%Qc] (map rv [1%Qc; 1%Qc]).
Proof. repeat constructor; intros x n _; reflexivity. Qed.
Lemma fib_polynomial : build_characteristic_equation (K:=QcF) (zq 1) [0%Qc; 1%Qc; 1%Qc] = golden.
Proof. unfold golden. cbn -[Qcmult Qcopp zq]. repeat f_equal; apply Qc_is_canon; vm_compute; reflexivity. Qed.
Definition no_gosper : comp (K:=CF) -> option (Z -> CF) := fun _ => None.
Lemma no_gosper_ok lambda f : summation_ok (K:=CF) lambda f no_gosper.
Proof. intros e z E. discriminate. Qed.
Lemma no_factors : factorizer_ok (fun _ => []).
Proof. intros q _ _ H. cbn in H. lia. Qed.
Definition fib_solver (x0 : nat -> R) : option (Z -> CF) :=
  solve_linear_finite_order (K:=CF) gauss no_gosper (fun _ => number_roots (fun _ => []) 1 (SAdd golden)) true (qC (zq 1)) (map qC [1%Qc; 1%Qc]) false fib_inh 0
    (fun z => RtoC (x0 (Z.to_nat z))).
Lemma fib_solved x0 : exists X, fib_solver x0 = Some X.
Proof.
  destruct (golden_found (fun _ => []) 0 1) as (x1 & x2 & E & _).
  assert (F : number_roots (fun _ => []) 1 (SAdd golden) = Some ([(x1, 1%nat); (x2, 1%nat)] : list (CF * nat), true)) by (unfold number_roots, find_roots_top; etransitivity; [apply (f_equal (fun r => match match r with Some (b, l) => Some (b, l, true) | None => None end with Some (true, roots, d) => Some (map (fun r => (rvalue r : CF, multiplicity r)) roots, d) | _ => None end) E)|reflexivity]).
  pose proof (found_right _ 1 golden _ _ no_factors golden_proper golden_int golden_square_free golden_no_pure_power F) as RR.
  assert (Ro : roots_of (K:=CF) (map qC [1%Qc; 1%Qc]) [(x1, 1%nat); (x2, 1%nat)]).
  { apply (roots_right (K:=CF) (fun _ => number_roots (fun _ => []) 1 (SAdd golden)) true (qC (zq 1)) (map qC [1%Qc; 1%Qc]) [(x1, 1%nat); (x2, 1%nat)] true).
    - intros roots d H. rewrite F in H. injection H as <- <-. change (@f0 CF) with (RtoC 0). rewrite build_map, fib_polynomial. exact RR.
    - unfold qC. rewrite rv_zq. intros C. apply RtoC_inj in C. lra.
    - discriminate.
    - exact F. }
  unfold fib_solver, solve_linear_finite_order, characteristic_roots. cbn [map]. rewrite F.
  destruct (C23_solve_new CF gauss (C23_lsolve_contract CF) (map qC [1%Qc; 1%Qc]) [(x1, 1%nat); (x2, 1%nat)] [(RtoC 1, [RtoC 0; RtoC 1])] (Z.of_nat 0) (fun z => RtoC (x0 (Z.to_nat z))) Ro) as (X & EX & _).
  - discriminate.
  - cbn [map last]. rewrite qC_1. intros C. apply RtoC_inj in C. lra.
  - intros e [<-|[]]. cbn [fst]. intros C. apply RtoC_inj in C. lra.
  - lia.
  - exists X. exact EX.
Qed.
Lemma fib_bases : Forall (fun c => cbase (K:=CF) c <> f0) fib_inh.
Proof. constructor; [|constructor]. cbn [cbase]. intros C. apply RtoC_inj in C. lra. Qed.

(** * x(n) = -2 x(n-1) - 3 x(n-2) - 4 x(n-3) - 2 x(n-4): the characteristic polynomial is (y+1)^2 (y^2+2) *)
Definition alt_rhs : expr := Add [Mul [Num (zq (-2)); xm 1]; Mul [Num (zq (-3)); xm 2]; Mul [Num (zq (-4)); xm 3]; Mul [Num (zq (-2)); xm 4]].
Definition alt_coeffs : list Qc := [zq (-2); zq (-3); zq (-4); zq (-2)].
Lemma alt_runs : exists s, classify G0 lmax lmax alt_rhs = inr s /\ c_type s = Some CONST_COEFF /\ c_order s = 4%nat /\ c_gcd s = 1%Z /\
  c_coeffs s = Num 0%Qc :: map Num alt_coeffs /\ c_inhom s = Num 0%Qc.
Proof.
  assert (H : cls_check (classify G0 lmax lmax alt_rhs) (fun s => rtype_eqb (c_type s) (Some CONST_COEFF) && Nat.eqb (c_order s) 4 && Z.eqb (c_gcd s) 1 &&
     exprs_eqb (c_coeffs s) (Num 0%Qc :: map Num alt_coeffs) && expr_eqb (c_inhom s) (Num 0%Qc)) = true) by (vm_compute; reflexivity).
  destruct (classify G0 lmax lmax alt_rhs) as [|s]; [discriminate|]. cbn [cls_check] in H. rewrite !andb_true_iff in H. destruct H as [[[[H1 H2] H3] H4] H5]. exists s.
  split; [reflexivity|]. split; [now apply rtype_eqb_eq|]. split; [now apply Nat.eqb_eq|]. split; [now apply Z.eqb_eq|]. split; [now apply exprs_eqb_eq|now apply expr_eqb_eq].
Qed.
(** The square-free factors. *)
Definition alt_form : list (list Qc * nat) := [(pure_power_poly 1 2 2, 1%nat); ([1%Qc; 1%Qc], 2%nat)].
Lemma alt_form_ok x : pval (build_characteristic_equation (K:=QcF) (zq 1) (0%Qc :: alt_coeffs)) x = fold_right (fun fe acc => (fpow (K:=CF) (pval (fst fe) x) (snd fe) * acc)%C) (RtoC 1) alt_form.
Proof.
  assert (Ep : build_characteristic_equation (K:=QcF) (zq 1) (0%Qc :: alt_coeffs) = [zq 2; zq 4; zq 3; zq 2; zq 1]).
  { cbn -[Qcmult Qcopp zq]. repeat f_equal; apply Qc_is_canon; vm_compute; reflexivity. }
  rewrite Ep. unfold alt_form, pure_power_poly, pval. cbn [fold_right fst snd map peval repeat Nat.sub app fpow]. toC. unfold qC. rewrite !rv_zq, ?rv_0, ?rv_1.
  replace (RtoC 4) with (RtoC 2 + RtoC 2)%C by (rewrite <- RtoC_plus; f_equal; lra). replace (RtoC 3) with (RtoC 1 + RtoC 2)%C by (rewrite <- RtoC_plus; f_equal; lra).
  replace (RtoC 2) with (RtoC 1 + RtoC 1)%C by (rewrite <- RtoC_plus; f_equal; lra). ring.
Qed.
Lemma alt_decomposition : exp_poly_decomposition G0 idE (idE (Num 0%Qc)) "n" = [(Num 1%Qc, Num 0%Qc, Num 0%Qc)].
Proof. reflexivity. Qed.
Lemma alt_quadratic : exists w : C, (w * w)%C = RtoC (-1 / 2) /\ find_roots (fun _ => []) 1 (pure_power_poly 1 2 2) [] 1 = Some (true, [irr w; irr (- w)%C]).
Proof.
  destruct (pure_search (fun _ => []) 1 2 2 ltac:(lia) ltac:(lia) ltac:(lia) 0) as (q' & new & P1 & L1 & ND & V & RT & E); [lia|lia|].
  assert (N0 : new = []).
  { destruct new as [|r l]; auto. exfalso. pose proof (proj2 (RT r) (or_introl eq_refl)) as X. apply (pure_root 1 2 2) in X; try lia. cbn [pow] in X. nra. }
  subst new. cbn [map List.length] in *. rewrite (pure_length 1 2 2) in L1 by lia. pose proof (proper_degree q' P1) as D. tq.
  destruct (Nat.eqb_spec (degree q') 0) as [Z|_]; [lia|]. unfold solve_monomial_irrational in E. cbn [List.length signs Nat.ltb Nat.leb app] in E.
  assert (Q : qC (- zq 1 / zq 2) = RtoC (-1 / 2)). { unfold qC. rewrite rv_div, rv_opp, !rv_zq. f_equal. }
  rewrite Q in E. set (w := proot 2 (RtoC (-1 / 2))) in E. assert (W : (w * w)%C = RtoC (-1 / 2)) by apply proot_2. exists w. split; [exact W|].
  destruct (unity_ok 2 ltac:(lia)) as (U1 & _). assert (A0 : unity 2 0 = RtoC 1) by apply (U1 0%nat). assert (A1 : unity 2 1 = RtoC (-1)) by apply (unity_half 1 ltac:(lia)).
  rewrite E. cbn [seq filter map andb orb negb]. rewrite A0, A1. do 3 f_equal; unfold irr; do 2 f_equal.
  - f_equal. ring.
  - f_equal. transitivity (w * - RtoC 1)%C; [f_equal; apply RtoC_opp|ring].
Qed.
Lemma alt_linear roots : exists r, find_roots (fun _ => []) 1 [1%Qc; 1%Qc] roots 2 = Some (true, roots ++ [MkRoot (Rational r) 2]) /\ r = zq (-1).
Proof.
  exists (- coeff [1%Qc; 1%Qc] 0 / lcoeff [1%Qc; 1%Qc])%Qc. split; [reflexivity|]. apply Qc_is_canon. vm_compute. reflexivity.
Qed.
Lemma alt_roots : exists w : C, (w * w)%C = RtoC (-1 / 2) /\ number_roots (fun _ => []) 1 (SMul alt_form) = Some ([(w, 1%nat); ((- w)%C, 1%nat); (RtoC (-1), 2%nat)] : list (CF * nat), false).
Proof.
  destruct alt_quadratic as (w & W & E). exists w. split; [exact W|]. destruct (alt_linear [irr w; irr (- w)%C]) as (r & E2 & Hr). unfold number_roots, find_roots_top, alt_form. cbn [product_roots].
  change (fun _ : list Qc => []) with (fun _ : poly => @nil poly). rewrite E. cbv iota beta. change (@nil poly) with (@nil (list Qc)). change (list Qc) with poly. rewrite E2. cbn [map app rvalue irr value multiplicity]. rewrite Hr. unfold qC. rewrite rv_zq. reflexivity.
Qed.
Definition alt_inh : list (comp (K:=CF)) := [MkComp (K:=CF) (RtoC 1) [] (fun _ => RtoC 0)].
Lemma alt_inh_ok N : decomposition_values (K:=CF) I1 rho0 RtoC N [(Num 1%Qc, Num 0%Qc, Num 0%Qc)] alt_inh.
Proof.
  repeat constructor; cbn [cbase cpoly cnopoly].
  - exists 1. split; [|reflexivity]. intros n _. unfold value_of, at_n. cbn [eval]. now rewrite rv_1.
  - intros n _. exists 0. split; [|reflexivity]. unfold value_of, at_n. cbn [eval]. now rewrite rv_0.
  - intros n _. exists 0. split; [|reflexivity]. unfold value_of, at_n. cbn [eval]. now rewrite rv_0.
Qed.
Definition alt_solver (x0 : nat -> R) : option (Z -> CF) :=
  solve_linear_finite_order (K:=CF) gauss no_gosper (fun _ => number_roots (fun _ => []) 1 (SMul alt_form)) true (qC (zq 1)) (map qC alt_coeffs) false alt_inh 0
    (fun z => RtoC (x0 (Z.to_nat z))).
Lemma alt_special (w : C) : (w * w)%C = RtoC (-1 / 2) -> exists s, special_solutions (K:=CF) gauss [RtoC (-2); RtoC (-3); RtoC (-4); RtoC (-2)] [(w, 1%nat); ((- w)%C, 1%nat); (RtoC (-1), 2%nat)] [(RtoC 1, [])] (fun _ => RtoC 0) = Some s /\ forall n, s n = RtoC 0.
Proof.
  intros W. assert (N1 : w <> RtoC 1). { intros ->. apply (f_equal fst) in W. cbn in W. lra. }
  assert (N2 : (- w)%C <> RtoC 1). { intros C. assert (w = RtoC (-1)) as ->. { transitivity (- - w)%C; [ring|]. rewrite C. symmetry. apply RtoC_opp. } apply (f_equal fst) in W. cbn in W. lra. }
  assert (N3 : RtoC (-1) <> RtoC 1) by (intros C; apply RtoC_inj in C; lra).
  unfold special_solutions. assert (M : mult_of (K:=CF) [(w, 1%nat); ((- w)%C, 1%nat); (RtoC (-1), 2%nat)] (RtoC 1) = 0%nat).
  { unfold mult_of. cbn [rev app fold_left fst snd]. destruct (feqb_spec CF w (RtoC 1)) as [C|_]; [contradiction|]. destruct (feqb_spec CF (- w)%C (RtoC 1)) as [C|_]; [contradiction|]. destruct (feqb_spec CF (RtoC (-1)) (RtoC 1)) as [C|_]; [contradiction|]. reflexivity. }
  rewrite M. unfold compute_special_solution. rewrite andb_false_r. change (pdegree (K:=CF) []) with 0%nat. cbn [Nat.add seq map rev app].
  set (d := nth 0 (diff_col (K:=CF) [RtoC (-2); RtoC (-3); RtoC (-4); RtoC (-2)] (RtoC 1) 0) f0).
  assert (Ed : d = RtoC 12).
  { subst d. unfold diff_col, mono. cbn [repeat app shsum pshift padd pscal pmul map nth]. toC. change (@finv CF) with Cinv.
    assert (V1 : (/ RtoC 1)%C = RtoC 1) by (field; intros C; apply RtoC_inj in C; lra). rewrite V1. assert (V3 : RtoC 12 = (RtoC 1 - RtoC (-2) - RtoC (-3) - RtoC (-4) - RtoC (-2))%C) by (rewrite <- !RtoC_minus; f_equal; lra). rewrite V3. ring. }
  clearbody d. subst d. change (match 0%nat with 0%nat | _ => @f0 CF end) with (RtoC 0).
  cbn [nth]. change (@f0 CF) with (RtoC 0).
  match goal with |- context [@gauss CF ?n ?es] => pose proof (gauss_ok (K:=CF) n es) as GO; destruct (@gauss CF n es) as [u|] eqn:EG end.
  - destruct GO as [Lu Su]. destruct u as [|q [|]]; try discriminate. apply Forall_inv in Su. unfold sat in Su. cbn [fst snd dot] in Su. toC.
    assert (Hq : q = RtoC 0). { transitivity ((RtoC 12 * q + RtoC 0) * / RtoC 12)%C; [field; intros C; apply RtoC_inj in C; lra|]. rewrite Su. ring. }
    eexists. split; [reflexivity|]. intros n. cbn [peval]. rewrite Hq. toC. generalize (ofz (K:=CF) n). generalize (zpow (K:=CF) (RtoC 1) n). intros a b. toC. ring.
  - exfalso. apply GO. exists [RtoC 0]. split; [reflexivity|]. constructor; [|constructor]. unfold sat. cbn [fst snd dot]. toC. ring.
Qed.
Lemma alt_solved x0 : exists X, alt_solver x0 = Some X /\ X 4%Z = RtoC (- (2) * x0 3%nat - 3 / 2 * x0 2%nat - x0 1%nat - 1 / 2 * x0 0%nat).
Proof.
  destruct alt_roots as (w & W & F). destruct (alt_special w W) as (s & Es & Zs).
  unfold alt_solver, solve_linear_finite_order, characteristic_roots, alt_coeffs. cbn [map]. rewrite F. unfold alt_inh. cbn [map cbase cpoly].
  assert (Q : forall z, qC (zq z) = RtoC (IZR z)) by (intros z; unfold qC; now rewrite rv_zq). rewrite !Q.
  unfold solve_new. match goal with |- context [@special_solutions CF ?a ?b ?c ?d ?e] => replace (@special_solutions CF a b c d e) with (Some s) by (symmetry; exact Es) end. unfold fit_general, cols_new. cbn [flat_map map snd fst seq app List.length].
  set (x := fun z => RtoC (x0 (Z.to_nat z))). rewrite !Zs.
  assert (W0 : w <> RtoC 0). { intros ->. apply (f_equal fst) in W. cbn in W. lra. }
  set (h := RtoC (-1 / 2)) in *. set (m1 := RtoC (-1)).
  assert (M1 : (m1 = - RtoC 1)%C) by (subst m1; rewrite <- RtoC_opp; f_equal; lra).
  assert (M2 : (h + h = - RtoC 1)%C) by (subst h; rewrite <- RtoC_plus, <- RtoC_opp; f_equal; lra).
  assert (O1 : @ofn CF 1 = RtoC 1) by (transitivity (RtoC 1 + RtoC 0)%C; [reflexivity|change (car CF) with C; ring]).
  assert (O2 : @ofn CF 2 = (RtoC 1 + RtoC 1)%C) by (transitivity (RtoC 1 + (RtoC 1 + RtoC 0))%C; [reflexivity|change (car CF) with C; ring]).
  assert (O3 : @ofn CF 3 = (RtoC 1 + RtoC 1 + RtoC 1)%C) by (transitivity (RtoC 1 + (RtoC 1 + (RtoC 1 + RtoC 0)))%C; [reflexivity|change (car CF) with C; ring]).
  assert (O4 : @ofn CF 4 = (RtoC 1 + RtoC 1 + RtoC 1 + RtoC 1)%C) by (transitivity (RtoC 1 + (RtoC 1 + (RtoC 1 + (RtoC 1 + RtoC 0))))%C; [reflexivity|change (car CF) with C; ring]).
  set (es := rev _). assert (Ees : es = [([(h * w)%C; (- (h * w))%C; (- RtoC 1)%C; (- (RtoC 1 + RtoC 1 + RtoC 1))%C], x 3%Z); ([h; h; RtoC 1; (RtoC 1 + RtoC 1)%C], x 2%Z); ([w; (- w)%C; (- RtoC 1)%C; (- RtoC 1)%C], x 1%Z); ([RtoC 1; RtoC 1; RtoC 1; RtoC 0], x 0%Z)]).
  { subst es. cbn [rev app]. unfold colval. cbn [fst snd Z.add Z.of_nat Z.pos_sub Pos.of_succ_nat Pos.succ fpow zpow ofz]. change (Pos.to_nat 1) with 1%nat. change (Pos.to_nat 2) with 2%nat. change (Pos.to_nat 3) with 3%nat. cbn [fpow ofn]. toC. rewrite M1, <- W.
    repeat match goal with |- (_ :: _) = (_ :: _) => f_equal | |- (_, _) = (_, _) => f_equal end; toC; try reflexivity; unfold x; rewrite ?O3, ?O2, ?O1; ring. }
  clearbody es. subst es.
  match goal with |- context [@gauss CF ?n ?es] => pose proof (gauss_ok (K:=CF) n es) as GO; destruct (@gauss CF n es) as [u|] eqn:EG end.
  - destruct GO as [Lu Su]. destruct u as [|u1 [|u2 [|u3 [|u4 [|]]]]]; try discriminate.
    pose proof (Forall_inv Su) as S3. apply Forall_inv_tail in Su. pose proof (Forall_inv Su) as S2. apply Forall_inv_tail in Su. pose proof (Forall_inv Su) as S1. apply Forall_inv_tail in Su. apply Forall_inv in Su. rename Su into S0.
    unfold sat in S0, S1, S2, S3. cbn [fst snd dot] in S0, S1, S2, S3. toC.
    eexists. split; [reflexivity|]. cbn beta. rewrite (Zs 4%Z). unfold colval. cbn [dot fst snd fpow zpow ofz]. change (Pos.to_nat 4) with 4%nat. cbn [fpow ofn]. toC. rewrite M1.
    assert (EX : RtoC (- (2) * x0 3%nat - 3 / 2 * x0 2%nat - x0 1%nat - 1 / 2 * x0 0%nat) = (- (RtoC 1 + RtoC 1) * x 3%Z - (RtoC 1 - h) * x 2%Z - x 1%Z + h * x 0%Z)%C).
    { unfold x, h. change (Z.to_nat 3) with 3%nat. change (Z.to_nat 2) with 2%nat. change (Z.to_nat 1) with 1%nat. change (Z.to_nat 0) with 0%nat.
      rewrite <- ?RtoC_plus, <- ?RtoC_opp, <- ?RtoC_minus, <- ?RtoC_mult, <- ?RtoC_plus, <- ?RtoC_opp, <- ?RtoC_minus, <- ?RtoC_plus. f_equal. lra. }
    rewrite EX, <- S0, <- S1, <- S2, <- S3. 
    rewrite ?O4. transitivity ((w * w) * (w * w) * (u1 + u2) + u3 + (RtoC 1 + RtoC 1 + RtoC 1 + RtoC 1) * u4)%C; [ring|]. rewrite W.
    assert (T2 : (RtoC 1 + RtoC 1)%C <> RtoC 0) by (rewrite <- !RtoC_plus; intros C; apply RtoC_inj in C; lra). assert (Hh : h = (- RtoC 1 / (RtoC 1 + RtoC 1))%C) by (rewrite <- M2; field; exact T2). rewrite Hh. field. exact T2.
  - exfalso. apply GO. set (t := (RtoC 1 + RtoC 1 + RtoC 1)%C). assert (T0 : t <> RtoC 0) by (subst t; rewrite <- !RtoC_plus; intros C; apply RtoC_inj in C; lra).
    assert (T2 : (RtoC 1 + RtoC 1)%C <> RtoC 0) by (rewrite <- !RtoC_plus; intros C; apply RtoC_inj in C; lra).
    (* E = 2 (x0 - x2 + 2 B) / 3, F = 2 (x1 - x3 - 2 B) / 3, B = E + F - x0 - x1, A = x0 - E *)
    set (B := ((RtoC 1 + RtoC 1) * (x 0%Z - x 2%Z + x 1%Z - x 3%Z) / t - x 0%Z - x 1%Z)%C).
    set (E := ((RtoC 1 + RtoC 1) * (x 0%Z - x 2%Z + (RtoC 1 + RtoC 1) * B) / t)%C).
    set (F' := ((RtoC 1 + RtoC 1) * (x 1%Z - x 3%Z - (RtoC 1 + RtoC 1) * B) / t)%C).
    exists [((E + F' / w) / (RtoC 1 + RtoC 1))%C; ((E - F' / w) / (RtoC 1 + RtoC 1))%C; (x 0%Z - E)%C; B]. split; [reflexivity|].
    assert (Hh : h = (- RtoC 1 / (RtoC 1 + RtoC 1))%C) by (rewrite <- M2; field; exact T2). rewrite Hh.
    repeat (apply Forall_cons; [|]); [| | | |exact (Forall_nil _)]; unfold sat; cbn [fst snd dot]; toC; subst E F' B; generalize (x 0%Z) (x 1%Z) (x 2%Z) (x 3%Z); intros; unfold t in *; field; (split; [|split; [exact W0|]]); intros C; apply (f_equal fst) in C; cbn [fst RtoC] in C; lra.
Qed.
Lemma alt_value x n : (4 <= n)%nat -> at_n I1 rho0 x n alt_rhs = Some (-2 * x (n - 1)%nat + (-3 * x (n - 2)%nat + (-4 * x (n - 3)%nat + (-2 * x (n - 4)%nat + 0)))).
Proof.
  intros H. pose proof (xm_val x n 1 ltac:(lia)) as B1. pose proof (xm_val x n 2 ltac:(lia)) as B2. pose proof (xm_val x n 3 ltac:(lia)) as B3. pose proof (xm_val x n 4 ltac:(lia)) as B4.
  change (Z.of_nat 1) with 1%Z in B1. change (Z.of_nat 2) with 2%Z in B2. change (Z.of_nat 3) with 3%Z in B3. change (Z.of_nat 4) with 4%Z in B4. unfold at_n in *.
  unfold alt_rhs. rewrite eval_Add, !esum_cons, !eval_Mul2, B1, B2, B3, B4. cbn [eval olift2 esum fold_right]. rewrite !rv_zq. reflexivity.
Qed.
