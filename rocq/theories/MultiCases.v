From Coq Require Import ZArith QArith Qcanon Reals List String Bool Lia Lra.
From Verif Require Import Ast ExprModel ExprSpec ExprProofs1 SeqInterp ElimSpec ElimCases ElimProofs DecompModel NonLinModel MultiModel MultiSpec MultiProofs MultiProofs2.
Import ListNotations.
Local Open Scope list_scope.
Local Open Scope R_scope.

(** Equality of linear expressions in m and n_replacement. *)
Fixpoint lin (e : expr) : Qc * (Qc * Qc) :=
  match e with
  | Num q => (q, (0%Qc, 0%Qc))
  | Sym s => if String.eqb s "m" then (0%Qc, (1%Qc, 0%Qc)) else (0%Qc, (0%Qc, 1%Qc))
  | Add l => fold_right (fun a acc => let '(p, (q, r)) := lin a in let '(p', (q', r')) := acc in (p + p', (q + q', r + r')))%Qc (0%Qc, (0%Qc, 0%Qc)) l
  | Mul [Num c; a] | Mul [a; Num c] => let '(p, (q, r)) := lin a in (c * p, (c * q, c * r))%Qc
  | _ => (0%Qc, (0%Qc, 0%Qc))
  end.
Definition equal0 (a b : expr) : bool :=
  let '(p, (q, r)) := lin a in let '(p', (q', r')) := lin b in Qc_eqb p p' && Qc_eqb q q' && Qc_eqb r r'.
Definition table (a s : expr) (e : expr) : option expr := if expr_eqb e a then Some s else None.
Definition answers (o : outcome) (e : expr) : bool := match o with Answer e' => expr_eqb e' e | _ => false end.
Lemma answers_eq o e : answers o e = true -> o = Answer e.
Proof. destruct o; cbn; try discriminate. intros H. apply expr_eqb_eq in H. now subst. Qed.

Definition n_ := Sym "n". Definition m_ := Sym "m". Definition nr_ := Sym "n_replacement".
Definition plus (a : expr) (c : Z) := Add [a; Num (zq c)].
Definition vars := ["n"; "m"]%string.
Definition zero := Num (zq 0).
Definition lhs0 (a b : expr) := Fun (FOther "x2") [zero; a; b].

(** The instance of the canonical constructors that leaves the operands of a rebuilt sum or product in their order. *)
Definition Gf : ginac := MkG (fun a b => gadd G0 b a) (fun a b => gmul G0 b a) Pow Fun SumE ProdE.
Lemma Gf_ok I : ginac_ok I Gf.
Proof.
  split; intros; try exact (fun _ _ H => H).
  - intros rho v H. apply (gadd_ok I G0 (G0_ok I)). rewrite eval_Add2 in *. destruct (eval I rho a), (eval I rho b); cbn in *; try discriminate.
    rewrite <- H. f_equal. lra.
  - intros rho v H. apply (gmul_ok I G0 (G0_ok I)). rewrite eval_Mul2 in *. destruct (eval I rho a), (eval I rho b); cbn in *; try discriminate.
    rewrite <- H. f_equal. lra.
Qed.
Lemma Gf_nb : adds_no_binders Gf.
Proof.
  split.
  - intros a b Ha Hb. destruct (G0_nb b a Hb Ha) as (A & B & _). destruct (G0_nb a b Ha Hb) as (_ & _ & C). auto.
  - intros f l H. cbn. now apply no_binders_all.
Qed.

Lemma eval_minus I x n c r : (Z.of_nat c <= Z.of_nat n)%Z -> eval (with_x I x) (upd r "n" (INR n)) (Fun FX [plus n_ (- Z.of_nat c)]) = Some (x (n - c)%nat).
Proof.
  intros H. cbn [eval]. rewrite omap_cons. unfold plus, n_. rewrite eval_Add2. cbn [eval olift2]. rewrite rv_zq. unfold upd. rewrite String.eqb_refl.
  replace (INR n + IZR (- Z.of_nat c)) with (IZR (Z.of_nat (n - c))) by (rewrite INR_IZR_INZ, <- plus_IZR; f_equal; lia).
  cbn [omap obind]. unfold with_x. cbn [ifun]. rewrite as_int_IZR. replace (0 <=? Z.of_nat (n - c))%Z with true by (symmetry; apply Z.leb_le; lia).
  now rewrite Nat2Z.id.
Qed.
Lemma eval_at I x c r : eval (with_x I x) r (Fun FX [Num (zq (Z.of_nat c))]) = Some (x c).
Proof. cbn [eval]. rewrite omap_cons. cbn [eval]. rewrite rv_zq. cbn. rewrite as_int_IZR. replace (0 <=? Z.of_nat c)%Z with true by (symmetry; apply Z.leb_le; lia). now rewrite Nat2Z.id. Qed.

(** x(n) = x(n-1) + p for a parameter p. *)
Definition aux1 (p : expr) := Add [Fun FX [plus n_ (-1)]; p].
Definition sol1 (p : expr) := Add [Fun FX [zero]; Mul [n_; p]].
Lemma correct1 p : has "n" p = false -> has_x_function p = false -> forall I, solver_correct I 1 (table (aux1 p) (sol1 p)).
Proof.
  intros Hn Hx I aux sol E rho x Hs. unfold table in E. destruct (expr_eqb aux (aux1 p)) eqn:Ea; [|discriminate]. apply expr_eqb_eq in Ea. subst aux.
  assert (sol = sol1 p) by congruence. subst sol.
  assert (P : forall n, eval (with_x I x) (upd rho "n" (INR n)) p = eval I rho p) by (intros n; rewrite x_free_plain, eval_upd_fresh; auto).
  assert (S1 : forall n, (1 <= n)%nat -> exists q, eval I rho p = Some q /\ x n = x (n - 1)%nat + q).
  { intros n Hn1. assert (A := Hs n Hn1). unfold holds_at, aux1 in A. rewrite eval_Add2, (eval_minus I x n 1) in A by lia. rewrite P in A.
    destruct (eval I rho p) as [q|]; [|discriminate]. cbn in A. exists q. split; auto. congruence. }
  destruct (S1 1%nat (le_n 1)) as (q & Hq & _).
  assert (C : forall n, x n = x 0%nat + INR n * q).
  { induction n as [|n IH]; [cbn; lra|]. destruct (S1 (S n) ltac:(lia)) as (q' & Hq' & E'). replace (S n - 1)%nat with n in E' by lia.
    rewrite E', IH, S_INR. assert (q' = q) by congruence. subst. lra. }
  intros n _. unfold sol1. rewrite eval_Add2, (eval_at I x 0), eval_Mul2, P, Hq. cbn [eval olift2 n_]. unfold upd. rewrite String.eqb_refl.
  cbn [olift2]. f_equal. rewrite (C n). lra.
Qed.

Lemma eval_x2' I X r k a b za zb : eval (with_X I X) r a = Some (IZR za) -> eval (with_X I X) r b = Some (IZR zb) ->
  eval (with_X I X) r (Fun (FOther "x2") [Num (zq k); a; b]) = Some (X k [za; zb]).
Proof.
  intros Ha Hb. cbn [eval]. rewrite !omap_cons, Ha, Hb. cbn [eval]. rewrite rv_zq. cbn. rewrite !as_int_IZR. reflexivity.
Qed.
Lemma eval_plus J r s z c : r s = IZR z -> eval J r (plus (Sym s) c) = Some (IZR (z + c)).
Proof. intros H. unfold plus. rewrite eval_Add2. cbn [eval olift2]. rewrite H, rv_zq, plus_IZR. reflexivity. Qed.
Lemma point_n rho a b : point rho vars [a; b] "n" = IZR a. Proof. reflexivity. Qed.
Lemma point_m rho a b : point rho vars [a; b] "m" = IZR b. Proof. reflexivity. Qed.
Lemma two (zs : list Z) : List.length zs = List.length vars -> exists a b, zs = [a; b].
Proof. destruct zs as [|a [|b [|]]]; try discriminate. eauto. Qed.

(** A number among the arguments. *)
Definition rhs_num := Add [lhs0 (plus n_ (-1)) (Num (zq 5)); m_].
Definition X_num (k : Z) (zs : list Z) : R := match zs with [n; m] => if (n <=? 0)%Z then 0 else IZR m + 5 * (IZR n - 1) | _ => 0 end.
Definition ans_num := Add [lhs0 zero m_; Mul [n_; m_]].
Lemma num_answer : multivar_solve Gf equal0 (table (aux1 m_) (sol1 m_)) 9 [] zero vars rhs_num = Answer ans_num.
Proof. apply answers_eq. vm_compute. reflexivity. Qed.
Lemma num_sat I rho : satisfies I X_num rho 0 vars 0 1 rhs_num.
Proof.
  intros zs L Hz. destruct (two zs L) as (a & b & ->). cbn in Hz. unfold gives, rhs_num. rewrite eval_Add2. unfold lhs0, zero.
  rewrite (eval_x2' I X_num _ 0 _ _ (a + -1) 5); [|apply eval_plus, point_n|cbn [eval]; now rewrite rv_zq].
  cbn [eval m_ olift2]. rewrite point_m. f_equal. unfold X_num. replace (a <=? 0)%Z with false by (symmetry; apply Z.leb_gt; lia).
  destruct (a + -1 <=? 0)%Z eqn:E.
  - apply Z.leb_le in E. assert (a = 1%Z) by lia. subst a. lra.
  - rewrite plus_IZR. lra.
Qed.
Theorem number_argument : exists X solve e, (forall I, solver_correct I 1 solve) /\
  (forall I rho, satisfies I X rho 0 ["n"; "m"]%string 0 1 (Add [Fun (FOther "x2") [Num (zq 0); Add [Sym "n"; Num (zq (-1))]; Num (zq 5)]; Sym "m"])) /\
  multivar_solve Gf equal0 solve 9 [] (Num (zq 0)) ["n"; "m"]%string (Add [Fun (FOther "x2") [Num (zq 0); Add [Sym "n"; Num (zq (-1))]; Num (zq 5)]; Sym "m"]) = Answer e /\
  forall I rho, ~ gives I X rho 0 ["n"; "m"]%string e [2; 1]%Z.
Proof.
  exists X_num, (table (aux1 m_) (sol1 m_)), ans_num. split; [apply correct1; reflexivity|]. split; [exact num_sat|]. split; [exact num_answer|].
  intros I rho H. unfold gives, ans_num in H. rewrite eval_Add2 in H. unfold lhs0, zero in H.
  rewrite (eval_x2' I X_num _ 0 _ _ 0 1) in H; [|cbn [eval]; now rewrite rv_zq|reflexivity].
  rewrite eval_Mul2 in H. cbn [eval m_ n_ olift2] in H. change (point rho ["n"; "m"]%string [2; 1]%Z "n") with 2 in H. change (point rho ["n"; "m"]%string [2; 1]%Z "m") with 1 in H.
  cbn [olift2] in H. unfold X_num in H. cbn in H. assert (E : 0 + 2 * 1 = 1 + 5 * (2 - 1)) by congruence. lra.
Qed.

(** The variable outside x(). *)
Definition rhs_out := Add [lhs0 (plus n_ (-1)) m_; n_].
Definition X_out (k : Z) (zs : list Z) : R := match zs with [n; m] => IZR n * (IZR n + 1) / 2 | _ => 0 end.
Definition ans_out := Add [lhs0 zero m_; Mul [n_; n_]].
Lemma out_answer : multivar_solve Gf equal0 (table (aux1 nr_) (sol1 nr_)) 9 [] zero vars rhs_out = Answer ans_out.
Proof. apply answers_eq. vm_compute. reflexivity. Qed.
Lemma out_sat I rho : satisfies I X_out rho 0 vars 0 1 rhs_out.
Proof.
  intros zs L Hz. destruct (two zs L) as (a & b & ->). unfold gives, rhs_out. rewrite eval_Add2. unfold lhs0, zero.
  rewrite (eval_x2' I X_out _ 0 _ _ (a + -1) b); [|apply eval_plus, point_n|reflexivity].
  cbn [eval n_ olift2]. rewrite point_n. f_equal. unfold X_out. rewrite plus_IZR. lra.
Qed.
Theorem outside : exists X solve e, (forall I, solver_correct I 1 solve) /\
  (forall I rho, satisfies I X rho 0 ["n"; "m"]%string 0 1 (Add [Fun (FOther "x2") [Num (zq 0); Add [Sym "n"; Num (zq (-1))]; Sym "m"]; Sym "n"])) /\
  multivar_solve Gf equal0 solve 9 [] (Num (zq 0)) ["n"; "m"]%string (Add [Fun (FOther "x2") [Num (zq 0); Add [Sym "n"; Num (zq (-1))]; Sym "m"]; Sym "n"]) = Answer e /\
  forall I rho, ~ gives I X rho 0 ["n"; "m"]%string e [2; 1]%Z.
Proof.
  exists X_out, (table (aux1 nr_) (sol1 nr_)), ans_out. split; [apply correct1; reflexivity|]. split; [exact out_sat|]. split; [exact out_answer|].
  intros I rho H. unfold gives, ans_out in H. rewrite eval_Add2 in H. unfold lhs0, zero in H.
  rewrite (eval_x2' I X_out _ 0 _ _ 0 1) in H; [|cbn [eval]; now rewrite rv_zq|reflexivity].
  rewrite eval_Mul2 in H. cbn [eval m_ n_ olift2] in H. change (point rho ["n"; "m"]%string [2; 1]%Z "n") with 2 in H.
  cbn [olift2] in H. unfold X_out in H. assert (E : 0 * (0 + 1) / 2 + 2 * 2 = 2 * (2 + 1) / 2) by congruence. lra.
Qed.

(** Constant difference: x(n,m) = x(n-1,m-1) + 1. *)
Definition rhs_diff := Add [lhs0 (plus n_ (-1)) (plus m_ (-1)); Num (zq 1)].
Definition X_diff (k : Z) (zs : list Z) : R := match zs with [n; m] => IZR n | _ => 0 end.
Definition ans_diff := Add [lhs0 (Fun FMax [zero; Add [Mul [n_; Num (zq (-1))]; m_]]) (Fun FMax [Add [Mul [m_; Num (zq (-1))]; n_]; zero]); Fun FMin [m_; n_]].
Lemma diff_answer : multivar_solve Gf equal0 (table (aux1 (Num (zq 1))) (Add [Fun FX [zero]; n_])) 9 [] zero vars rhs_diff = Answer ans_diff.
Proof. apply answers_eq. vm_compute. reflexivity. Qed.
Lemma correct1' I : solver_correct I 1 (table (aux1 (Num (zq 1))) (Add [Fun FX [zero]; n_])).
Proof.
  intros aux sol E rho x Hs n Hn. unfold table in E. destruct (expr_eqb aux (aux1 (Num (zq 1)))) eqn:Ea; [|discriminate]. apply expr_eqb_eq in Ea. subst aux.
  assert (sol = Add [Fun FX [zero]; n_]) by congruence. subst sol.
  assert (A := correct1 (Num (zq 1)) eq_refl eq_refl I (aux1 (Num (zq 1))) (sol1 (Num (zq 1)))).
  unfold table in A. rewrite expr_eqb_refl in A. specialize (A eq_refl rho x Hs n Hn).
  unfold sol1 in A. rewrite eval_Add2, eval_Mul2 in A. rewrite eval_Add2. rewrite (eval_at I x 0) in *. cbn [eval n_ olift2] in *. rewrite rv_zq in A.
  rewrite <- A. f_equal. rewrite Rmult_1_r. reflexivity.
Qed.
Lemma diff_sat I rho : satisfies I X_diff rho 0 vars 0 1 rhs_diff.
Proof.
  intros zs L Hz. destruct (two zs L) as (a & b & ->). unfold gives, rhs_diff. rewrite eval_Add2. unfold lhs0, zero.
  rewrite (eval_x2' I X_diff _ 0 _ _ (a + -1) (b + -1)); [|apply eval_plus, point_n|apply eval_plus, point_m].
  cbn [eval olift2]. rewrite rv_zq. f_equal. unfold X_diff. rewrite plus_IZR. lra.
Qed.
Lemma I0_max X x y : ifun (with_X I0 X) FMax [x; y] = Some (Rmax x y). Proof. reflexivity. Qed.
Lemma I0_min X x y : ifun (with_X I0 X) FMin [x; y] = Some (Rmin x y). Proof. reflexivity. Qed.
Lemma diff_value' J r s t (a b : R) : r s = a -> r t = b -> eval J r (Add [Mul [Sym t; Num (zq (-1))]; Sym s]) = Some (a - b).
Proof. intros H1 H2. rewrite eval_Add2, eval_Mul2. cbn [eval olift2]. rewrite H1, H2, rv_zq. cbn [olift2]. f_equal. lra. Qed.
Theorem difference : exists X solve e, (forall I, solver_correct I 1 solve) /\
  (forall I rho, satisfies I X rho 0 ["n"; "m"]%string 0 1 (Add [Fun (FOther "x2") [Num (zq 0); Add [Sym "n"; Num (zq (-1))]; Add [Sym "m"; Num (zq (-1))]]; Num (zq 1)])) /\
  multivar_solve Gf equal0 solve 9 [] (Num (zq 0)) ["n"; "m"]%string (Add [Fun (FOther "x2") [Num (zq 0); Add [Sym "n"; Num (zq (-1))]; Add [Sym "m"; Num (zq (-1))]]; Num (zq 1)]) = Answer e /\
  forall rho, ~ gives I0 X rho 0 ["n"; "m"]%string e [5; 2]%Z.
Proof.
  exists X_diff, (table (aux1 (Num (zq 1))) (Add [Fun FX [zero]; n_])), ans_diff. split; [exact correct1'|]. split; [exact diff_sat|]. split; [exact diff_answer|].
  intros rho H. unfold gives in H. set (r := point rho ["n"; "m"]%string [5; 2]%Z) in H.
  assert (Rn : r "n"%string = 5) by reflexivity. assert (Rm : r "m"%string = 2) by reflexivity. clearbody r.
  unfold ans_diff in H. rewrite eval_Add2 in H. unfold lhs0, zero in H.
  rewrite (eval_x2' I0 X_diff _ 0 _ _ 0 3) in H.
  - cbn [eval] in H. rewrite !omap_cons in H. cbn [eval m_ n_ omap obind] in H. rewrite I0_min, Rn, Rm in H. cbn [olift2] in H. unfold X_diff in H.
    rewrite Rmin_left in H by lra. assert (E : 0 + 2 = 5) by congruence. lra.
  - cbn [eval]. rewrite !omap_cons. unfold m_, n_. rewrite (diff_value' _ r _ _ 2 5 Rm Rn). cbn [eval omap obind]. rewrite I0_max, rv_zq. rewrite Rmax_left by lra. reflexivity.
  - cbn [eval]. rewrite !omap_cons. unfold m_, n_. rewrite (diff_value' _ r _ _ 5 2 Rn Rm). cbn [eval omap obind]. rewrite I0_max, rv_zq. rewrite Rmax_left by lra. f_equal. lra.
Qed.

(** Constant sum: x(n,m) = 2 x(n-1,m+1) - x(n-2,m+2). *)
Definition rhs_sum := Add [Mul [Num (zq 2); lhs0 (plus n_ (-1)) (plus m_ 1)]; Mul [Num (zq (-1)); lhs0 (plus n_ (-2)) (plus m_ 2)]].
Definition X_sum (k : Z) (zs : list Z) : R := match zs with [n; m] => IZR m | _ => 0 end.
Definition aux2 := Add [Mul [Num (zq 2); Fun FX [plus n_ (-1)]]; Mul [Num (zq (-1)); Fun FX [plus n_ (-2)]]].
Definition sol2 := Add [Fun FX [zero]; Mul [Num (zq (-1)); n_; Fun FX [zero]]; Mul [n_; Fun FX [Num (zq 1)]]].
Definition ans_sum := let s := Add [n_; m_] in
  Add [lhs0 zero s; Mul [Num (zq (-1)); n_; lhs0 zero s]; Mul [n_; lhs0 (Num (zq 1)) s]].
Lemma sum_answer : multivar_solve Gf equal0 (table aux2 sol2) 9 [] zero vars rhs_sum = Answer ans_sum.
Proof. apply answers_eq. vm_compute. reflexivity. Qed.
Lemma eval_Add3 J r a b c : eval J r (Add [a; b; c]) = olift2 Rplus (eval J r a) (olift2 Rplus (eval J r b) (eval J r c)).
Proof. rewrite eval_Add, esum_cons. f_equal. exact (eval_Add2 J r b c). Qed.
Lemma eval_Mul3 J r a b c : eval J r (Mul [a; b; c]) = olift2 Rmult (eval J r a) (olift2 Rmult (eval J r b) (eval J r c)).
Proof. rewrite eval_Mul, eprod_cons. f_equal. exact (eval_Mul2 J r b c). Qed.
Lemma correct2 I : solver_correct I 2 (table aux2 sol2).
Proof.
  intros aux sol E rho x Hs. unfold table in E. destruct (expr_eqb aux aux2) eqn:Ea; [|discriminate]. apply expr_eqb_eq in Ea. subst aux.
  assert (sol = sol2) by congruence. subst sol.
  assert (HS : forall n, (2 <= n)%nat -> x n = 2 * x (n - 1)%nat - x (n - 2)%nat).
  { intros n Hn. assert (A := Hs n Hn). unfold holds_at, aux2 in A. rewrite eval_Add2, !eval_Mul2 in A.
    rewrite (eval_minus I x n 1), (eval_minus I x n 2) in A by lia. cbn [eval olift2] in A. rewrite !rv_zq in A.
    assert (E' : 2 * x (n - 1)%nat + -1 * x (n - 2)%nat = x n) by congruence. lra. }
  assert (C : forall n, x n = x 0%nat + - INR n * x 0%nat + INR n * x 1%nat /\ x (S n) = x 0%nat + - INR (S n) * x 0%nat + INR (S n) * x 1%nat).
  { induction n as [|n [IH1 IH2]]; [split; cbn; lra|]. split; auto. rewrite (HS (S (S n))) by lia.
    replace (S (S n) - 1)%nat with (S n) by lia. replace (S (S n) - 2)%nat with n by lia. rewrite IH2, IH1, !S_INR. lra. }
  intros n _. unfold sol2. rewrite eval_Add3, eval_Mul3, eval_Mul2. unfold zero. rewrite (eval_at I x 0), (eval_at I x 1).
  cbn [eval olift2 n_]. unfold upd. rewrite String.eqb_refl, rv_zq. cbn [olift2]. f_equal. destruct (C n) as [A _]. lra.
Qed.
Lemma sum_sat I rho : satisfies I X_sum rho 0 vars 0 2 rhs_sum.
Proof.
  intros zs L Hz. destruct (two zs L) as (a & b & ->). unfold gives, rhs_sum. rewrite eval_Add2, !eval_Mul2. unfold lhs0, zero.
  rewrite (eval_x2' I X_sum _ 0 _ _ (a + -1) (b + 1)); [|apply eval_plus, point_n|apply eval_plus, point_m].
  rewrite (eval_x2' I X_sum _ 0 _ _ (a + -2) (b + 2)); [|apply eval_plus, point_n|apply eval_plus, point_m].
  cbn [eval olift2]. rewrite !rv_zq. f_equal. unfold X_sum. rewrite !plus_IZR. lra.
Qed.
Theorem sum : exists X solve e, (forall I, solver_correct I 2 solve) /\
  (forall I rho, satisfies I X rho 0 ["n"; "m"]%string 0 2 (Add [Mul [Num (zq 2); Fun (FOther "x2") [Num (zq 0); Add [Sym "n"; Num (zq (-1))]; Add [Sym "m"; Num (zq 1)]]];
     Mul [Num (zq (-1)); Fun (FOther "x2") [Num (zq 0); Add [Sym "n"; Num (zq (-2))]; Add [Sym "m"; Num (zq 2)]]]])) /\
  multivar_solve Gf equal0 solve 9 [] (Num (zq 0)) ["n"; "m"]%string (Add [Mul [Num (zq 2); Fun (FOther "x2") [Num (zq 0); Add [Sym "n"; Num (zq (-1))]; Add [Sym "m"; Num (zq 1)]]];
     Mul [Num (zq (-1)); Fun (FOther "x2") [Num (zq 0); Add [Sym "n"; Num (zq (-2))]; Add [Sym "m"; Num (zq 2)]]]]) = Answer e /\
  forall I rho, ~ gives I X rho 0 ["n"; "m"]%string e [2; 0]%Z.
Proof.
  exists X_sum, (table aux2 sol2), ans_sum. split; [exact correct2|]. split; [exact sum_sat|]. split; [exact sum_answer|].
  intros I rho H. unfold gives in H. set (r := point rho ["n"; "m"]%string [2; 0]%Z) in H.
  assert (Rn : r "n"%string = 2) by reflexivity. assert (Rm : r "m"%string = 0) by reflexivity. clearbody r.
  unfold ans_sum in H. cbv zeta in H. rewrite eval_Add3, eval_Mul3, eval_Mul2 in H. unfold lhs0, zero in H.
  assert (S : eval (with_X I X_sum) r (Add [n_; m_]) = Some (IZR 2)).
  { rewrite eval_Add2. cbn [eval n_ m_ olift2]. rewrite Rn, Rm. f_equal. lra. }
  rewrite (eval_x2' I X_sum r 0 _ _ 0 2) in H; [|cbn [eval]; now rewrite rv_zq|exact S].
  rewrite (eval_x2' I X_sum r 0 _ _ 1 2) in H; [|cbn [eval]; now rewrite rv_zq|exact S].
  cbn [eval n_ olift2] in H. rewrite Rn, rv_zq in H. cbn [olift2] in H. unfold X_sum in H.
  assert (E : 2 + (-1 * (2 * 2) + 2 * 2) = 0) by congruence. lra.
Qed.

(** x(.) below a power is left in the answer: x(n,m) = x(n-1,m)^2. *)
Definition rhs_pow := Pow (lhs0 (plus n_ (-1)) m_) (Num (zq 2)).
Definition sol_pow := Pow (Fun FX [zero]) (Pow (Num (zq 2)) n_).
Theorem left_over : exists e, multivar_solve Gf equal0
    (fun r => if expr_eqb r (Pow (Fun FX [Add [Sym "n"; Num (zq (-1))]]) (Num (zq 2))) then Some (Pow (Fun FX [Num (zq 0)]) (Pow (Num (zq 2)) (Sym "n"))) else None)
    9 [] (Num (zq 0)) ["n"; "m"]%string (Pow (Fun (FOther "x2") [Num (zq 0); Add [Sym "n"; Num (zq (-1))]; Sym "m"]) (Num (zq 2))) = Answer e /\ has_x_function e = true.
Proof. exists sol_pow. split; [apply answers_eq|]; vm_compute; reflexivity. Qed.

(** Initial conditions: x(0,{0,m}) == m and x(0,{1,m}) == 2m for x(n,m) = x(n-1,m) + m. *)
Definition rhs_reg := Add [lhs0 (plus n_ (-1)) m_; m_].
Definition c0 : condition := (zero, [zero; m_], m_).
Definition c1 : condition := (zero, [Num (zq 1); m_], Mul [Num (zq 2); m_]).
Lemma one_condition : multivar_solve Gf equal0 (table (aux1 m_) (sol1 m_)) 9 [c0] zero vars rhs_reg = Answer (Add [m_; Mul [n_; m_]]).
Proof. apply answers_eq. vm_compute. reflexivity. Qed.
Lemma two_conditions : multivar_solve Gf equal0 (table (aux1 m_) (sol1 m_)) 9 [c0; c1] zero vars rhs_reg = Exits.
Proof. vm_compute. reflexivity. Qed.
Lemma other_order : multivar_solve Gf equal0 (table (aux1 m_) (sol1 m_)) 9 [c1; c0] zero vars rhs_reg = Answer (Add [m_; Mul [n_; m_]]).
Proof. apply answers_eq. vm_compute. reflexivity. Qed.
Definition X_reg (k : Z) (zs : list Z) : R := match zs with [n; m] => (IZR n + 1) * IZR m | _ => 0 end.
Lemma reg_sat I rho : satisfies I X_reg rho 0 vars 0 1 rhs_reg.
Proof.
  intros zs L Hz. destruct (two zs L) as (a & b & ->). unfold gives, rhs_reg. rewrite eval_Add2. unfold lhs0, zero.
  rewrite (eval_x2' I X_reg _ 0 _ _ (a + -1) b); [|apply eval_plus, point_n|reflexivity].
  cbn [eval m_ olift2]. rewrite point_m. f_equal. unfold X_reg. rewrite plus_IZR. lra.
Qed.
Lemma holds_two I X rho k q p value : (forall sigma z, sigma p = IZR z -> (forall s, s <> p -> sigma s = rho s) ->
    eval (with_X I X) sigma value = Some (X k [q; z])) -> condition_holds I X rho k [Num (zq q); Sym p] value.
Proof.
  intros H sigma zs Ho Hz. inversion Hz as [|? z1 ? l1 A1 B1]; subst. inversion B1 as [|? z2 ? l2 A2 B2]; subst. inversion B2; subst.
  cbn in A1, A2. rewrite rv_zq in A1. assert (IZR q = IZR z1) by congruence. apply eq_IZR in H0. subst z1. apply H; [congruence|].
  intros s Hs. apply Ho. cbn. intros [E|[]]. congruence.
Qed.
Lemma reg_c0 I rho : condition_holds I X_reg rho 0 [zero; m_] m_.
Proof. apply holds_two. intros sigma z Hz _. cbn [eval m_]. rewrite Hz. unfold X_reg. f_equal. lra. Qed.
Lemma reg_c1 I rho : condition_holds I X_reg rho 0 [Num (zq 1); m_] (Mul [Num (zq 2); m_]).
Proof. apply holds_two. intros sigma z Hz _. rewrite eval_Mul2. cbn [eval m_ olift2]. rewrite Hz, rv_zq. unfold X_reg. f_equal; lra. Qed.

(** x(0,{a,b}) == a - b at x(0,{b,a}). *)
Definition X_cap (k : Z) (zs : list Z) : R := match zs with [a; b] => IZR a - IZR b | _ => 0 end.
Lemma cap_holds I rho : condition_holds I X_cap rho 0 [Sym "a"; Sym "b"] (Add [Sym "a"; Mul [Num (zq (-1)); Sym "b"]]).
Proof.
  intros sigma zs _ Hz. inversion Hz as [|? z1 ? l1 A1 B1]; subst. inversion B1 as [|? z2 ? l2 A2 B2]; subst. inversion B2; subst.
  cbn in A1, A2. rewrite eval_Add2, eval_Mul2. cbn [eval olift2]. rewrite rv_zq. replace (sigma "a"%string) with (IZR z1) by congruence. replace (sigma "b"%string) with (IZR z2) by congruence.
  cbn [olift2]. unfold X_cap. f_equal. lra.
Qed.
Definition cap_new := Add [Sym "a"; Mul [Num (zq (-1)); Sym "a"]].
Lemma cap_run : conditions_loop Gf [(zero, [Sym "a"; Sym "b"], Add [Sym "a"; Mul [Num (zq (-1)); Sym "b"]])] (x2 zero [Sym "b"; Sym "a"]) = Some cap_new.
Proof.
  assert (A : match conditions_loop Gf [(zero, [Sym "a"; Sym "b"], Add [Sym "a"; Mul [Num (zq (-1)); Sym "b"]])] (x2 zero [Sym "b"; Sym "a"]) with
    Some e => expr_eqb e cap_new | None => false end = true) by (vm_compute; reflexivity).
  destruct (conditions_loop _ _ _); [|discriminate]. apply expr_eqb_eq in A. now subst.
Qed.
