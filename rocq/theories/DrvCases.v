From Coq Require Import ZArith QArith Qcanon Reals List String Bool Lia Lra.
From Verif Require Import Ast ExprModel ExprSpec ExprProofs1 ExprProofs2 ExprProofs3 ExprCases FactRwSpec SeqInterp ElimModel ElimSpec ElimProofs ElimCases NonLinCases ClassModel ClassCases DomModel DomSpec DomProps DrvModel DrvSpec DrvProofs DrvProofs2.
Import ListNotations.
Local Open Scope list_scope.
Local Open Scope R_scope.

(** * The first valid index *)
(** x(n) = n x(n-1) + 1 / (n (n - 4)) *)
Definition iv_rhs : expr := Add [Mul [Sym "n"; Fun FX [n_plus (-1)]]; inv den_ex].
Lemma iv_runs : exists s, classify G0 lmax lmax iv_rhs = inr s /\ c_type s = Some VAR_COEFF /\ c_order s = 1%nat /\ c_inhom s = inv den_ex /\ nth 1 (c_coeffs s) (Num 0%Qc) = Sym "n".
Proof. eexists. split; [reflexivity|]. repeat split. Qed.
Lemma numer0_quotient I e : quotient I e (numer0 e) (denom0 e).
Proof.
  intros rho u w Hu Hw Nw. assert (ONE : forall e v, eval I rho e = Some u -> eval I rho (Num 1) = Some v -> v <> 0 -> eval I rho e = Some (u / v)).
  { intros e0 v H1 H2 _. cbn in H2. rewrite rv_1 in H2. assert (v = 1) by congruence. subst v. rewrite H1. f_equal. field. }
  destruct e; cbn [numer0 denom0] in *; try (apply ONE; auto; fail).
  - destruct l as [|a [|b [|c l]]]; try (apply ONE; auto; fail); destruct b; try (apply ONE; auto; fail); destruct b2; try (apply ONE; auto; fail). destruct (Qc_eqb q (-(1))%Qc) eqn:E; [|apply ONE; auto].
    apply Qc_eqb_eq in E. subst q. rewrite eval_Mul2, Hu. change (Pow b1 (Num (-(1))%Qc)) with (inv b1). rewrite (inv_val I rho b1 w Hw Nw). reflexivity.
  - destruct e2; try (apply ONE; auto; fail). destruct (Qc_eqb q (-(1))%Qc) eqn:E; [|apply ONE; auto]. apply Qc_eqb_eq in E. subst q. change (Pow e1 (Num (-(1))%Qc)) with (inv e1). rewrite (inv_val I rho e1 w Hw Nw).
    cbn in Hu. rewrite rv_1 in Hu. assert (u = 1) by congruence. subst u. f_equal. field. exact Nw.
Qed.
Lemma den_tame I rho : tame I rho "n" G0 numer0 denom0 DomProps.idE roots_ex 4 true den_ex.
Proof.
  assert (V : forall t, at_x I rho "n" t (Sym "n") = Some t) by reflexivity.
  assert (Vk : forall t k, at_x I rho "n" t (Add [Sym "n"; Num (zq k)]) = Some (t + IZR k)). { intros t k. unfold at_x. rewrite eval_Add2. cbn [eval]. rewrite rv_zq. reflexivity. }
  apply (T_poly _ _ _ _ _ _ _ _ _ _ _ 0); try reflexivity.
  - unfold at_x, den_ex. cbn. discriminate.
  - intros _ n Hn. unfold den_ex, at_x in Hn. rewrite eval_Mul2 in Hn. change (eval I (upd rho "n" (IZR n)) (Sym "n")) with (at_x I rho "n" (IZR n) (Sym "n")) in Hn.
    change (eval I (upd rho "n" (IZR n)) (Add [Sym "n"; Num (zq (-4))])) with (at_x I rho "n" (IZR n) (Add [Sym "n"; Num (zq (-4))])) in Hn. rewrite V, Vk in Hn. cbn [olift2] in Hn.
    assert (M : IZR n * (IZR n + IZR (-4)) = 0) by congruence. apply Rmult_integral in M as [M|M].
    + apply eq_IZR in M. subst n. vm_compute. auto.
    + assert (n = 4%Z) by (apply eq_IZR; lra). subst n. vm_compute. auto.
Qed.
Lemma one_tame I rho z : tame I rho "n" G0 numer0 denom0 DomProps.idE roots_ex z true (Num 1).
Proof. apply (T_const _ _ _ _ _ _ _ _ _ _ _ 1); [reflexivity|cbn; now rewrite rv_1|lra]. Qed.
Lemma n_tame I rho z : tame I rho "n" G0 numer0 denom0 DomProps.idE roots_ex z true (Sym "n").
Proof.
  apply (T_poly _ _ _ _ _ _ _ _ _ _ _ 0); try reflexivity; [discriminate|]. intros _ n Hn. assert (E : IZR n = 0) by (cbn in Hn; congruence). apply eq_IZR in E. subst n. vm_compute. auto.
Qed.
(** x(n) = x(n-1) + log(n-2) *)
Definition lg_rhs : expr := Add [Fun FX [n_plus (-1)]; Fun FLog [n_plus (-2)]].
Lemma lg_runs : exists s, classify G0 lmax lmax lg_rhs = inr s /\ c_type s = Some CONST_COEFF /\ c_order s = 1%nat /\ forall ro, first_valid_index G0 numer0 denom0 DomProps.idE ro 5 s = Some 0%Z.
Proof. eexists. split; [reflexivity|]. repeat split. Qed.
Lemma lg_undefined I rho x : standard I -> at_n I rho x 1 lg_rhs = None.
Proof.
  intros (_ & S2 & _). unfold at_n, lg_rhs. rewrite eval_Add2.
  assert (E : eval (with_x I x) (upd rho "n" (INR 1)) (n_plus (-2)) = Some (-1)). { unfold n_plus. rewrite eval_Add2. cbn [eval]. rewrite rv_zq. cbn. f_equal. unfold upd. cbn. lra. }
  assert (L : eval (with_x I x) (upd rho "n" (INR 1)) (Fun FLog [n_plus (-2)]) = None).
  { revert E. generalize (n_plus (-2)). intros a E. cbn [eval omap]. rewrite E. cbn [obind]. cbn [with_x ifun]. apply S2. lra. }
  clear E. rewrite L. match goal with |- olift2 _ ?a _ = _ => destruct a end; reflexivity.
Qed.
(** x(n) = x(n-1) + x(n-2) / (n-5) *)
Definition t2_rhs : expr := Add [Fun FX [n_plus (-1)]; Mul [inv (n_plus (-5)); Fun FX [n_plus (-2)]]].
Lemma t2_runs : exists s, classify G0 lmax lmax t2_rhs = inr s /\ c_type s = Some VAR_COEFF /\ c_order s = 2%nat /\ forall ro, first_valid_index G0 numer0 denom0 DomProps.idE ro 5 s = Some 0%Z.
Proof. eexists. split; [reflexivity|]. repeat split. Qed.
Lemma t2_undefined I rho x : at_n I rho x 5 t2_rhs = None.
Proof.
  unfold at_n, t2_rhs. rewrite eval_Add2, eval_Mul2. rewrite inv_none; [match goal with |- olift2 _ ?a _ = _ => destruct a end; reflexivity|]. unfold n_plus. rewrite eval_Add2. cbn [eval]. rewrite rv_zq. cbn [olift2]. f_equal. unfold upd. cbn [String.eqb Ascii.eqb Bool.eqb]. replace (INR 5) with 5 by (cbn; lra). lra.
Qed.
(** * The driver *)
(** A simplifier that knows one expression. *)
Definition table (a b e : expr) : expr := if expr_eqb e a then b else e.
Lemma table_ok I a b : refines I a b -> forall e, refines I e (table a b e).
Proof. intros H e rho v He. unfold table. destruct (expr_eqb e a) eqn:E; [|exact He]. apply expr_eqb_eq in E. subst e. now apply H. Qed.
Lemma table_idem a b : expr_eqb b a = false -> forall e, table a b (table a b e) = table a b e.
Proof. intros H e. unfold table. destruct (expr_eqb e a) eqn:E; [now rewrite H|now rewrite E]. Qed.
Definition xs (z : Z) : expr := Fun FX [n_plus z].
(** 2 x(n+1) + 3 x(n+2), of which the coefficient 6 is found: (3 x(n) + 2 x(n-1) - x(n-2)) / (-6) + x(n), expanded *)
Definition raw1 : expr := eliminate_negative Gc (fun e => e) (fun e => e) ng_bad.
Definition dv_1 : expr := Add [Mul [Num (Q2Qc (1#2)); x_n]; Mul [Num (Q2Qc (-1#3)); xs (-1)]; Mul [Num (Q2Qc (1#6)); xs (-2)]].
(** solved for x(n), and simplified *)
Definition raw2 : expr := Mul [Add [Mul [Num (Q2Qc (-1#3)); xs (-1)]; Mul [Num (Q2Qc (1#6)); xs (-2)]]; Pow (Num (Q2Qc (1#2))) (Num (-(1))%Qc)].
Definition dv_2 : expr := Add [Mul [Num (Q2Qc (-2#3)); xs (-1)]; Mul [Num (Q2Qc (1#3)); xs (-2)]].
Definition dv_expand : expr -> expr := table raw1 dv_1.
Definition dv_simplify : expr -> expr := table raw2 dv_2.
Definition raw1' : expr := Add [Mul [Add [Mul [Fun FX [Add [Num (zq 2); Sym "n"; Num (zq (-2))]]; Num (zq 3)]; Mul [Fun FX [Add [Num (zq 1); Sym "n"; Num (zq (-2))]]; Num (zq 2)]; Mul [Num (-(1))%Qc; xs (-2)]];
   Pow (Num (zq (-6))) (Num (-(1))%Qc)]; x_n].
Lemma raw1_eq : raw1 = raw1'.
Proof. apply expr_eqb_eq. vm_compute. reflexivity. Qed.
Lemma fx_1 I rho a v : eval I rho a = Some v -> eval I rho (Fun FX [a]) = ifun I FX [v].
Proof. intros H. cbn [eval omap]. now rewrite H. Qed.
Lemma raw1_ok I : refines I raw1 dv_1.
Proof.
  rewrite raw1_eq. intros rho v H. unfold raw1' in H. rewrite eval_Add2, eval_Mul2, eval_Add, !esum_cons, esum_nil, !eval_Mul2 in H.
  assert (A2 : eval I rho (Add [Num (zq 2); Sym "n"; Num (zq (-2))]) = Some (rho "n"%string)). { rewrite eval_Add, !esum_cons, esum_nil. cbn [eval]. rewrite !rv_zq. cbn [olift2]. f_equal. lra. }
  assert (A1 : eval I rho (Add [Num (zq 1); Sym "n"; Num (zq (-2))]) = Some (rho "n"%string + -1)). { rewrite eval_Add, !esum_cons, esum_nil. cbn [eval]. rewrite !rv_zq. cbn [olift2]. f_equal. lra. }
  assert (B1 : eval I rho (n_plus (-1)) = Some (rho "n"%string + -1)). { unfold n_plus. rewrite eval_Add2. cbn [eval]. rewrite rv_zq. reflexivity. }
  assert (B0 : eval I rho (Sym "n") = Some (rho "n"%string)) by reflexivity.
  unfold dv_1. rewrite eval_Add, !esum_cons, esum_nil, !eval_Mul2. unfold x_n, xs in *. rewrite (fx_1 _ _ _ _ A2), (fx_1 _ _ _ _ A1), (fx_1 _ _ _ _ B0) in H. rewrite (fx_1 _ _ _ _ B1), (fx_1 _ _ _ _ B0).
  assert (P : eval I rho (Pow (Num (zq (-6))) (Num (-(1))%Qc)) = Some (/ -6)). { change (Pow (Num (zq (-6))) (Num (-(1))%Qc)) with (inv (Num (zq (-6)))). apply inv_val; [cbn; now rewrite rv_zq|lra]. }
  rewrite P in H. rewrite !eval_num, ?rv_zq, ?rv_opp, ?rv_1 in H. rewrite !eval_num, !rv_Q.
  destruct (ifun I FX [rho "n"%string]) as [u0|]; [|discriminate]. destruct (ifun I FX [rho "n"%string + -1]) as [u1|]; [|discriminate]. destruct (eval I rho (Fun FX [n_plus (-2)])) as [u2|]; [|discriminate].
  cbn [olift2] in *. rewrite <- H. f_equal. lra.
Qed.
Lemma raw2_ok I : refines I raw2 dv_2.
Proof.
  intros rho v H. unfold raw2 in H. rewrite eval_Mul2, eval_Add2, !eval_Mul2 in H. unfold dv_2. rewrite eval_Add2, !eval_Mul2.
  assert (P : eval I rho (Pow (Num (Q2Qc (1#2))) (Num (-(1))%Qc)) = Some 2). { change (Pow (Num (Q2Qc (1#2))) (Num (-(1))%Qc)) with (inv (Num (Q2Qc (1#2)))). rewrite (inv_val _ _ _ (1/2)); [f_equal; lra|rewrite eval_num, rv_Q; reflexivity|lra]. }
  rewrite P in H. rewrite !eval_num, !rv_Q in *. destruct (eval I rho (xs (-1))) as [u1|]; [|discriminate]. destruct (eval I rho (xs (-2))) as [u2|]; [|discriminate].
  cbn [olift2] in *. rewrite <- H. f_equal. lra.
Qed.
Definition failed_other (e : expr) : final := Failed CL_TOO_COMPLEX.
Definition no_type (e : expr) : option rtype := None.
Notation run := (classify_and_catch_special_cases Gc lmax lmax dv_simplify dv_expand (fun e => e) (first_valid_index Gc numer0 denom0 DomProps.idE (fun _ _ => []) 5) failed_other no_type).
Lemma neg_eq : eliminate_negative Gc dv_expand (fun e => e) ng_bad = dv_1.
Proof. apply expr_eqb_eq. vm_compute. reflexivity. Qed.
Definition act_eqb (a b : action) : bool :=
  match a, b with Simplified e, Simplified f | Solved_negative e, Solved_negative f | Solved_null e, Solved_null f => expr_eqb e f | _, _ => false end.
Lemma act_eqb_eq a b : act_eqb a b = true -> a = b.
Proof. destruct a, b; cbn; try discriminate; intros H; apply expr_eqb_eq in H; now subst. Qed.
Fixpoint acts_eqb (l m : list action) : bool := match l, m with [], [] => true | a :: l, b :: m => act_eqb a b && acts_eqb l m | _, _ => false end.
Lemma acts_eqb_eq l : forall m, acts_eqb l m = true -> l = m.
Proof. induction l as [|a l IH]; intros [|b m] H; try discriminate; [reflexivity|]. cbn in H. apply andb_true_iff in H as [A B]. apply act_eqb_eq in A. apply IH in B. now subst. Qed.
Definition dv_log : list action := [Simplified ng_bad; Solved_negative ng_bad; Simplified dv_1; Solved_null dv_1; Simplified raw2].
Definition run_ok (o : option (state * final)) : bool :=
  match o with
  | Some (r, Success) => expr_eqb (d_rhs r) dv_2 && d_rewritten r && acts_eqb (d_log r) dv_log && match d_data r with Some (s, z) => Nat.eqb (c_order s) 2 && Z.eqb z 0 | None => false end
  | _ => false
  end.
Lemma dv_runs : exists r s, run 5 (new_recurrence ng_bad) = Some (r, Success) /\ d_rhs r = dv_2 /\ d_log r = dv_log /\ d_data r = Some (s, 0%Z) /\ c_order s = 2%nat.
Proof.
  assert (E : run_ok (run 5 (new_recurrence ng_bad)) = true) by (vm_compute; reflexivity).
  destruct (run 5 (new_recurrence ng_bad)) as [[r [|]]|]; try discriminate. cbn [run_ok] in E. apply andb_true_iff in E as [E D]. apply andb_true_iff in E as [E L]. apply andb_true_iff in E as [E W].
  destruct (d_data r) as [[s z]|] eqn:Dt; [|discriminate]. apply andb_true_iff in D as [O Z]. apply Nat.eqb_eq in O. apply Z.eqb_eq in Z. subst z.
  exists r, s. split; [reflexivity|]. apply expr_eqb_eq in E. apply acts_eqb_eq in L. rewrite Dt. auto.
Qed.
Lemma xs_val I rho x n z k : (Z.of_nat n + z)%Z = Z.of_nat k -> at_n I rho x n (xs z) = Some (x k).
Proof. apply x_plus_val. Qed.
Lemma dv_path I rho x n : sound_path I rho Gc (fun e => e) x n dv_log (n + 2).
Proof.
  assert (V0 : at_n I rho x n ng_bad <> None).
  { unfold at_n, ng_bad. rewrite eval_Add2, !eval_Mul2. change (eval (with_x I x) (upd rho "n" (INR n)) (Fun FX [n_plus 1])) with (at_n I rho x n (xs 1)). change (eval (with_x I x) (upd rho "n" (INR n)) (Fun FX [n_plus 2])) with (at_n I rho x n (xs 2)).
    rewrite (xs_val I rho x n 1 (n + 1)), (xs_val I rho x n 2 (n + 2)) by lia. cbn. discriminate. }
  assert (X1 : at_n I rho x (n + 2) (xs (-1)) = Some (x (n + 1)%nat)) by (apply xs_val; lia).
  assert (X2 : at_n I rho x (n + 2) (xs (-2)) = Some (x n)) by (apply xs_val; lia).
  assert (X0 : at_n I rho x (n + 2) x_n = Some (x (n + 2)%nat)) by (apply x_n_val).
  assert (V1 : at_n I rho x (n + 2) dv_1 <> None).
  { unfold at_n in *. unfold dv_1. rewrite eval_Add, !esum_cons, esum_nil, !eval_Mul2, X0, X1, X2. cbn. discriminate. }
  assert (V2 : at_n I rho x (n + 2) raw2 <> None).
  { unfold at_n in *. unfold raw2. rewrite eval_Mul2, eval_Add2, !eval_Mul2, X1, X2. change (Pow (Num (Q2Qc (1#2))) (Num (-(1))%Qc)) with (inv (Num (Q2Qc (1#2)))). rewrite (inv_val _ _ _ (1/2)); [cbn; discriminate|rewrite eval_num, rv_Q; reflexivity|lra]. }
  unfold dv_log. econstructor; [constructor; exact V0|]. econstructor; [|econstructor; [constructor; exact V1|]].
  - apply (S_negative _ _ _ _ _ _ _ 2 (Num (zq 6)) 6); [exact V0|cbn; tauto|apply pair_eqb_eq; vm_compute; reflexivity|unfold at_n; rewrite eval_num, rv_zq; reflexivity|lra|lia].
  - econstructor; [|econstructor; [constructor; exact V2|constructor]].
    apply (S_null _ _ _ _ _ _ _ (ops dv_1) [Num (Q2Qc (1#2))] [Mul [Num (Q2Qc (-1#3)); xs (-1)]; Mul [Num (Q2Qc (1#6)); xs (-2)]] (1/2)); [exact V1|reflexivity| |rewrite eprod_1, eval_num, rv_Q; reflexivity|lra].
    exists [], (Mul [Num (Q2Qc (1#2)); x_n]), [Mul [Num (Q2Qc (-1#3)); xs (-1)]; Mul [Num (Q2Qc (1#6)); xs (-2)]]. split; [reflexivity|]. split; [reflexivity|]. split.
    + repeat constructor; intros [C|(l & C & Hin)]; try discriminate; assert (l = [Num (Q2Qc (-1#3)); xs (-1)] \/ l = [Num (Q2Qc (1#6)); xs (-2)]) as [Hl|Hl] by (injection C; auto); subst l;
        destruct Hin as [Hin|[Hin|[]]]; discriminate.
    + right. exists [Num (Q2Qc (1#2))], []. split; [reflexivity|]. split; [reflexivity|]. intros [C|[]]. discriminate.
Qed.
