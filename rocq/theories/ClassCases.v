From Coq Require Import ZArith QArith Qcanon Qreals Reals List String Bool Lia Lra.
From Verif Require Import Ast ExprModel ExprSpec ExprProofs1 ExprProofs2 ExprProofs3 ExprCases SeqInterp NonLinProofs NonLinCases ElimModel ElimSpec ElimProofs ElimCases ClassModel ClassSpec ClassProofs ClassProofs3.
Import ListNotations.
Local Open Scope list_scope.
Local Open Scope R_scope.

Definition lmax : Z := 9223372036854775807.
Definition mkterm (c : expr) (j : Z) : expr := Mul [c; Fun FX [n_plus (- j)]].
(** 3 x(n-2) + n x(n-4) + x(n-2) + n *)
Definition cl_rhs : expr := Add [mkterm (Num (zq 3)) 2; mkterm (Sym "n") 4; Fun FX [n_plus (-2)]; Sym "n"].
Definition cls_check (r : status + cls) (f : cls -> bool) : bool := match r with inr s => f s | _ => false end.
Definition rtype_eqb (a b : option rtype) : bool :=
  match a, b with Some ORDER_ZERO, Some ORDER_ZERO | Some CONST_COEFF, Some CONST_COEFF | Some VAR_COEFF, Some VAR_COEFF | Some FUNCTIONAL, Some FUNCTIONAL | None, None => true | _, _ => false end.
Lemma rtype_eqb_eq a b : rtype_eqb a b = true -> a = b. Proof. destruct a as [[]|], b as [[]|]; cbn; congruence. Qed.
Lemma cl_runs : exists s, classify G0 lmax lmax cl_rhs = inr s /\ c_order s = 4%nat /\ c_gcd s = 2%Z /\ c_type s = Some VAR_COEFF /\
  nth 2 (c_coeffs s) (Sym "n") = Num (zq 4) /\ nth 4 (c_coeffs s) (Num 0%Qc) = Sym "n" /\ c_inhom s = Sym "n".
Proof.
  assert (H : cls_check (classify G0 lmax lmax cl_rhs) (fun s => Nat.eqb (c_order s) 4 && Z.eqb (c_gcd s) 2 && rtype_eqb (c_type s) (Some VAR_COEFF) &&
     expr_eqb (nth 2 (c_coeffs s) (Sym "n")) (Num (zq 4)) && expr_eqb (nth 4 (c_coeffs s) (Num 0%Qc)) (Sym "n") && expr_eqb (c_inhom s) (Sym "n")) = true) by (vm_compute; reflexivity).
  destruct (classify G0 lmax lmax cl_rhs) as [|s]; [discriminate|]. cbn [cls_check] in H. rewrite !andb_true_iff in H. destruct H as [[[[[H1 H2] H3] H4] H5] H6]. exists s.
  split; [reflexivity|]. split; [now apply Nat.eqb_eq|]. split; [now apply Z.eqb_eq|]. split; [now apply rtype_eqb_eq|]. split; [now apply expr_eqb_eq|]. split; now apply expr_eqb_eq.
Qed.
Lemma cl_unary : Forall unary_x (terms cl_rhs).
Proof. repeat (constructor; [cbn; repeat (constructor; auto)|]). constructor. Qed.
Lemma I1_x l : ifun I1 FX l = None. Proof. reflexivity. Qed.
(** x(n/2) + n x(n/2) *)
Definition half_n : expr := Mul [Sym "n"; Num (Q2Qc (1 # 2))].
Definition fe_rhs : expr := Add [Fun FX [half_n]; Mul [Sym "n"; Fun FX [half_n]]].
Lemma fe_runs : exists s, classify G0 lmax lmax fe_rhs = inr s /\ c_coeffs s = [] /\ c_hom s = [((/ Q2Qc (1 # 2))%Qc, Num 1%Qc)] /\ c_inhom s = Num 0%Qc.
Proof.
  assert (H : cls_check (classify G0 lmax lmax fe_rhs) (fun s => Nat.eqb (List.length (c_coeffs s)) 0 && (match c_hom s with [(d, c)] => Qc_eqb d (/ Q2Qc (1 # 2))%Qc && expr_eqb c (Num 1%Qc) | _ => false end) && expr_eqb (c_inhom s) (Num 0%Qc)) = true) by (vm_compute; reflexivity).
  destruct (classify G0 lmax lmax fe_rhs) as [|s]; [discriminate|]. cbn [cls_check] in H. rewrite !andb_true_iff in H. destruct H as [[H1 H2] H3]. exists s.
  split; [reflexivity|]. split; [apply Nat.eqb_eq in H1; now apply length_zero_iff_nil|]. split; [|now apply expr_eqb_eq].
  destruct (c_hom s) as [|[d c] [|]]; try discriminate. apply andb_true_iff in H2 as [H2 H4]. apply Qc_eqb_eq in H2. apply expr_eqb_eq in H4. now subst.
Qed.
Lemma half_val x : eval (with_x I1 x) (upd (fun _ => 0) "n" (INR 2)) (Fun FX [half_n]) = Some (x 1%nat).
Proof.
  cbn [eval]. assert (O : omap (eval (with_x I1 x) (upd (fun _ => 0) "n" (INR 2))) [half_n] = Some [IZR 1]).
  { cbn [omap]. unfold half_n. rewrite eval_Mul2. cbn [eval olift2]. rewrite rv_Q. replace (upd (fun _ => 0) "n" (INR 2) "n"%string) with (INR 2) by reflexivity. f_equal. f_equal. cbn. lra. }
  rewrite O. cbn [obind with_x ifun]. rewrite as_int_IZR. reflexivity.
Qed.
Theorem functional_refuted : ~ (forall I G lm ms, (forall x, ginac_ok (with_x I x) G) -> (forall l, ifun I FX l = None) ->
  forall rho x n rhs s v, classify G lm ms rhs = inr s -> at_n I rho x n rhs = Some v -> at_n I rho x n (reassembled (c_coeffs s) (c_hom s) (c_inhom s)) = Some v).
Proof.
  intros H. destruct fe_runs as (s & E & E1 & E2 & E3).
  specialize (H I1 G0 lmax lmax (fun x => G0_ok _) I1_x (fun _ => 0) (fun _ => 1) 2%nat fe_rhs s 3 E). unfold at_n in H.
  assert (V : eval (with_x I1 (fun _ => 1)) (upd (fun _ => 0) "n" (INR 2)) fe_rhs = Some 3).
  { unfold fe_rhs. rewrite eval_Add2, eval_Mul2, half_val. replace (eval (with_x I1 (fun _ => 1)) (upd (fun _ => 0) "n" (INR 2)) (Sym "n")) with (Some (INR 2)) by reflexivity. cbn [olift2]. f_equal. cbn. lra. }
  specialize (H V). rewrite E1, E2, E3 in H. unfold reassembled, divided_terms in H. cbn [shifted_terms app map fst snd] in H.
  rewrite Qc_inv_inv in H by discriminate. fold half_n in H. rewrite eval_Add2, eval_Mul2, half_val, !eval_num, rv_0, rv_1 in H. cbn [olift2] in H.
  assert (0 + 1 * 1 = 3) by congruence. lra.
Qed.
(** 2 x(n)^2 *)
Definition sq2_rhs : expr := Mul [Num (zq 2); Pow x_n (Num (zq 2))].
Lemma sq2_runs : exists s, classify G0 lmax lmax sq2_rhs = inr s /\ c_type s = Some ORDER_ZERO /\ c_inhom s = Mul [Pow x_n (Num (zq 2)); Num (zq 2)].
Proof.
  assert (H : cls_check (classify G0 lmax lmax sq2_rhs) (fun s => rtype_eqb (c_type s) (Some ORDER_ZERO) && expr_eqb (c_inhom s) (Mul [Pow x_n (Num (zq 2)); Num (zq 2)])) = true) by (vm_compute; reflexivity).
  destruct (classify G0 lmax lmax sq2_rhs) as [|s]; [discriminate|]. cbn [cls_check] in H. apply andb_true_iff in H as [H1 H2]. exists s.
  split; [reflexivity|]. split; [now apply rtype_eqb_eq|now apply expr_eqb_eq].
Qed.
Theorem inhom_refuted : ~ (forall I G lm ms, (forall x, ginac_ok (with_x I x) G) -> (forall l, ifun I FX l = None) ->
  forall rho x y n rhs s, classify G lm ms rhs = inr s -> (forall i, (i < n)%nat -> x i = y i) -> at_n I rho x n (c_inhom s) = at_n I rho y n (c_inhom s)).
Proof.
  intros H. destruct sq2_runs as (s & E & _ & E2).
  specialize (H I1 G0 lmax lmax (fun x => G0_ok _) I1_x (fun _ => 0) (fun _ => 0) (fun _ => 1) 0%nat sq2_rhs s E ltac:(intros; lia)). rewrite E2 in H.
  assert (V : forall c, at_n I1 (fun _ => 0) (fun _ => c) 0 (Mul [Pow x_n (Num (zq 2)); Num (zq 2)]) = Some (c ^ 2 * 2)).
  { intros c. unfold at_n. rewrite eval_Mul2. pose proof (x_n_val I1 (fun _ => 0) (fun _ => c) 0) as X. unfold at_n in X.
    change (eval (with_x I1 (fun _ => c)) (upd (fun _ => 0) "n" (INR 0)) (Pow x_n (Num (zq 2)))) with (obind (eval (with_x I1 (fun _ => c)) (upd (fun _ => 0) "n" (INR 0)) x_n) (fun x => obind (Some (rv (zq 2))) (rpow x))).
    rewrite X. cbn [obind]. rewrite eval_num, rv_zq. change (IZR 2) with (INR 2). rewrite rpow_nat. cbn [olift2]. reflexivity. }
  rewrite !V in H. assert (0 ^ 2 * 2 = 1 ^ 2 * 2) by congruence. lra.
Qed.
(** (1/4)^x(n), solved by 1/2. *)
Definition pw_rhs : expr := Pow (Num (Q2Qc (1 # 4))) x_n.
Lemma pw_runs : classify G0 lmax lmax pw_rhs = inl CL_UNSOLVABLE. Proof. vm_compute. reflexivity. Qed.
Lemma pw_solution I rho : solves_from I rho 0 pw_rhs (fun _ => / 2).
Proof.
  intros n _. unfold holds_at, pw_rhs. pose proof (x_n_val I rho (fun _ => / 2) n) as X. unfold at_n in X.
  change (obind (Some (rv (Q2Qc (1 # 4)))) (fun a => obind (eval (with_x I (fun _ => / 2)) (upd rho "n" (INR n)) x_n) (rpow a)) = Some (/ 2)).
  rewrite X, rv_Q. cbn [obind]. replace (1 / 4) with (Rpower 2 (-2)).
  - rewrite rpow_pos by apply exp_pos. rewrite Rpower_mult. replace (-2 * / 2) with (- (1)) by field. rewrite Rpower_Ropp, Rpower_1 by lra. reflexivity.
  - replace (-2) with (- (INR 2)) by (cbn; lra). rewrite Rpower_Ropp, Rpower_pow by lra. field.
Qed.
Theorem power_unsolvable_refuted : ~ (forall I G lm ms, (forall x, ginac_ok (with_x I x) G) -> (forall l, ifun I FX l = None) ->
  forall rho rhs x, classify G lm ms rhs = inl CL_UNSOLVABLE -> ~ solves_from I rho 0 rhs x).
Proof. intros H. exact (H I1 G0 lmax lmax (fun x => G0_ok _) I1_x (fun _ => 0) pw_rhs _ pw_runs (pw_solution _ _)). Qed.
(** x(n)^2 + 1 *)
Definition id_rhs : expr := Add [Pow x_n (Num (zq 2)); Num 1%Qc].
Lemma id_runs : classify G0 lmax lmax id_rhs = inl CL_INDETERMINATE. Proof. vm_compute. reflexivity. Qed.
Lemma id_none I rho x n : ~ holds_at I rho id_rhs x n.
Proof.
  unfold holds_at, id_rhs. rewrite eval_Add2. pose proof (x_n_val I rho x n) as X. unfold at_n in X.
  change (eval (with_x I x) (upd rho "n" (INR n)) (Pow x_n (Num (zq 2)))) with (obind (eval (with_x I x) (upd rho "n" (INR n)) x_n) (fun x => obind (Some (rv (zq 2))) (rpow x))).
  rewrite X. cbn [obind]. rewrite eval_num, rv_1, rv_zq. change (IZR 2) with (INR 2). rewrite rpow_nat. cbn [olift2]. intros H. assert (E : x n ^ 2 + 1 = x n) by congruence. nra.
Qed.
Theorem power_indeterminate_refuted : ~ (forall I G lm ms, (forall x, ginac_ok (with_x I x) G) -> (forall l, ifun I FX l = None) ->
  forall rho rhs, classify G lm ms rhs = inl CL_INDETERMINATE -> exists x k, solves_from I rho k rhs x).
Proof. intros H. destruct (H I1 G0 lmax lmax (fun x => G0_ok _) I1_x (fun _ => 0) id_rhs id_runs) as (x & k & E). exact (id_none _ _ _ _ (E k (Nat.le_refl k))). Qed.
