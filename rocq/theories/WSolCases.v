From Coq Require Import ZArith QArith Qcanon Reals List String Bool Lia Lra.
From Verif Require Import Ast ExprModel ExprSpec ExprProofs1 ExprProofs2 ExprCases SeqInterp ElimModel ElimSpec ElimProofs NonLinModel ClassModel ClassCases VerifySpec VerifyCases WClassModel WClassSpec WClassProofs WClassProofs2 WClassProps DomModel DomProps DrvModel CSolSpec CSolCases CollectProofs WSolModel WSolSpec WSolProofs WSolProofs2.
Import ListNotations.
Local Open Scope R_scope.
Local Open Scope list_scope.

Definition below (lo : nat) : expr := SumE "k" (Num (zq (Z.of_nat lo))) (n_plus (-1)) (Fun FX [Sym "k"]).
(** [c] times the sum from [lo] to n-1, plus [e]. *)
Definition times_sum (c lo : Z) (e : expr) : expr := Add [Mul [Num (zq c); below (Z.to_nat lo)]; e].
Definition first_term (e : expr) : expr := match e with Add (a :: _) => a | e => e end.
Lemma times_parts I rho c lo e (H : nat -> R) : (forall x n, at_n I rho x n e = Some (H n)) -> has_x_function e = false -> parts_from I rho (below (Z.to_nat lo)) (times_sum c lo e) (Z.to_nat lo) (fun _ => IZR c) H.
Proof.
  intros V F x n _. cbn [has_parts times_sum]. replace (IZR c) with (IZR c + (0 + 0)) by ring. replace (H n) with (0 + (H n + 0)) by ring. repeat apply SP_cons; [| |apply SP_nil].
  - apply (TP_mul _ _ _ [Num (zq c)] []); [repeat constructor|]. cbn [app eval fold_right]. rewrite rv_zq. cbn [olift2]. f_equal. ring.
  - apply TP_free; [exact F|]. exact (V x n).
Qed.
Lemma below_val I rho x n lo : (lo <= n)%nat -> at_n I rho x n (below lo) = Some (sum_below x lo n).
Proof.
  intros L. unfold below. rewrite (sum_val I rho x n "k" lo (n_plus (-1)) (Z.of_nat n - 1)); [|discriminate|exact (proj2 (up_val I rho x n (n_plus (-1))) eq_refl)]. unfold sum_below. do 2 f_equal. lia.
Qed.
Lemma times_val I rho c lo e (H : nat -> R) x n : (forall x n, at_n I rho x n e = Some (H n)) -> (Z.to_nat lo <= n)%nat -> at_n I rho x n (times_sum c lo e) = Some (IZR c * sum_below x (Z.to_nat lo) n + H n).
Proof.
  intros V L. unfold at_n, times_sum. rewrite eval_Add2, eval_Mul2. pose proof (below_val I rho x n (Z.to_nat lo) L) as B. pose proof (V x n) as V'. unfold at_n in B, V'. rewrite B, V'. cbn [eval olift2]. now rewrite rv_zq.
Qed.

(** * x(n) = 2 sum(k, 1, n-1, x(k)) + n *)
Definition av_rhs : expr := times_sum 2 1 (Sym "n").
(** 3^n x(0) + (3^n - 1)/2 *)
Definition av_sol : expr := Add [Mul [Pow (Num (zq 3)) (Sym "n"); Fun FX [Num 0%Qc]]; Mul [Add [Pow (Num (zq 3)) (Sym "n"); Num (zq (-1))]; Pow (Num (zq 2)) (Num (zq (-1)))]].
Lemma n_value I rho (x : nat -> R) n : at_n I rho x n (Sym "n") = Some (INR n). Proof. reflexivity. Qed.
Definition six : Type := (expr * expr * expr * expr * expr * bool)%type.
Definition get (o : outcome) : six := match o with Weighted a b c d e r => (a, b, c, d, e, r) | _ => (Num 0, Num 0, Num 0, Num 0, Num 0, false)%Qc end.
Definition av_out : outcome := classify_weighted G0 idE idE idE any_domain av_rhs (first_term av_rhs) "k" (Num (zq (Z.of_nat 1))) (n_plus (-1)) (Fun FX [Sym "k"]).
Definition is_weighted (o : outcome) : bool := match o with Weighted _ _ _ _ _ _ => true | _ => false end.
Lemma is_weighted_get o : is_weighted o = true -> let '(a, b, c, d, e, r) := get o in o = Weighted a b c d e r.
Proof. destruct o; try discriminate. reflexivity. Qed.
Fixpoint not_bound_b (s : string) (e : expr) : bool :=
  match e with
  | Add l | Mul l | Fun _ l => forallb (not_bound_b s) l
  | Pow a b => not_bound_b s a && not_bound_b s b
  | SumE k lo up e | ProdE k lo up e => negb (String.eqb k s) && not_bound_b s lo && not_bound_b s up && not_bound_b s e
  | _ => true
  end.
Lemma not_bound_list s l : Forall (fun a => not_bound_b s a = true -> not_bound s a) l -> forallb (not_bound_b s) l = true -> fold_right (fun a P => not_bound s a /\ P) True l.
Proof. induction 1 as [|a l Ha Hl IH]; intros E; cbn [fold_right]; [exact Logic.I|]. cbn [forallb] in E. apply andb_true_iff in E as [E1 E2]. auto. Qed.
Lemma not_bound_ok s e : not_bound_b s e = true -> not_bound s e.
Proof.
  induction e using expr_ind'; intros E; cbn [not_bound_b not_bound] in *; auto; try (now apply not_bound_list).
  - apply andb_true_iff in E as [E1 E2]. auto.
  - rewrite !andb_true_iff in E. destruct E as [[[E0 E1] E2] E3]. apply negb_true_iff, String.eqb_neq in E0. auto.
  - rewrite !andb_true_iff in E. destruct E as [[[E0 E1] E2] E3]. apply negb_true_iff, String.eqb_neq in E0. auto.
Qed.
Lemma av_input : input_ok G0 idE "k" 1 (n_plus (-1)) av_rhs (first_term av_rhs).
Proof.
  constructor; [discriminate|right; exists [Num (zq 2)], []; reflexivity|right; eexists; split; [reflexivity|now left]|apply not_unit; vm_compute; reflexivity].
Qed.
Lemma three n : rpow 3 (INR n) = Some (3 ^ n). Proof. apply rpow_nat. Qed.
Lemma av_sol_val I rho x n : at_n I rho x n av_sol = Some (3 ^ n * x 0%nat + (3 ^ n - 1) / 2).
Proof.
  unfold at_n, av_sol. rewrite eval_Add2, !eval_Mul2, eval_Add2. cbn [eval omap obind with_x ifun]. change (upd rho "n" (INR n) "n"%string) with (INR n). rewrite !rv_zq, rv_0. cbn [obind]. rewrite three.
  change 0 with (IZR 0). rewrite as_int_IZR. rewrite (inv_v 2) by lra. cbn. first [reflexivity|f_equal; lra].
Qed.

(** * x(n) = - sum(k, 2, n-1, x(k)) + n^2 *)
Definition mo_rhs : expr := times_sum (-1) 2 (Pow (Sym "n") (Num (zq 2))).
Definition mo_out : outcome := classify_weighted G0 idE idE idE any_domain mo_rhs (first_term mo_rhs) "k" (Num (zq (Z.of_nat 2))) (n_plus (-1)) (Fun FX [Sym "k"]).
Lemma mo_input : input_ok G0 idE "k" 2 (n_plus (-1)) mo_rhs (first_term mo_rhs).
Proof.
  constructor; [discriminate|right; exists [Num (zq (-1))], []; reflexivity|right; eexists; split; [reflexivity|now left]|apply not_unit; vm_compute; reflexivity].
Qed.
Lemma square_val I rho x n : at_n I rho x n (Pow (Sym "n") (Num (zq 2))) = Some (INR n ^ 2).
Proof. unfold at_n. cbn [eval]. change (upd rho "n" (INR n) "n"%string) with (INR n). cbn [obind]. rewrite rv_zq. change 2 with (INR 2) at 1. apply rpow_nat. Qed.

(** * x(n) = - n sum(k, 0, n-1, x(k)) *)
Definition va_rhs : expr := Mul [Num (zq (-1)); Sym "n"; below 0].
Definition va_back : expr := Mul [Num (zq (-1)); Sym "n"; Num (zq (-1)); below 0].
(** -n s + n s is recognized as 0 *)
Definition Gz : ginac := MkG (fun a b => if (expr_eqb a va_rhs && expr_eqb b va_back)%bool then Num 0%Qc else gadd G0 a b) (gmul G0) (gpow G0) (gfun G0) (gsum G0) (gprod G0).
Lemma Gz_ok I : ginac_ok I Gz.
Proof.
  destruct (G0_ok I) as [H1 H2 H3 H4 H5 H6]. constructor; auto. intros a b. cbn [Gz gadd]. destruct (expr_eqb a va_rhs && expr_eqb b va_back)%bool eqn:E; [|apply H1].
  apply andb_true_iff in E as [Ea Eb]. apply expr_eqb_eq in Ea, Eb. subst. intros rho v V. rewrite eval_Add2 in V. apply olift2_some in V as (p & q & Ep & Eq & ->).
  unfold va_rhs in Ep. unfold va_back in Eq. rewrite eval_Mul in Ep, Eq. rewrite !eprod_cons in Ep. rewrite !eprod_cons in Eq.
  set (n := eval I rho (Sym "n")) in *. set (s := eval I rho (below 0)) in *. destruct s as [s|]; [|destruct n; cbn in Ep; discriminate]. destruct n as [n|]; [|discriminate]. cbn [eval] in *. rewrite rv_zq in *. cbn in Ep, Eq.
  assert (p = -1 * (n * (s * 1))) by congruence. assert (q = -1 * (n * (-1 * (s * 1)))) by congruence. subst. rewrite rv_0. f_equal. ring.
Qed.
Definition va_w : expr := Mul [Sym "n"; Num (zq (-1))].
Definition va_coeff : expr := Mul [Sym "n"; Num (zq (-1)); Pow (Mul [Num (zq (-1)); Add [Sym "n"; Num (zq (-1))]]) (Num (zq (-1))); Add [Num (zq 1); Mul [Num (zq (-1)); Add [Sym "n"; Num (zq (-1))]]]].
Definition va_inhom : expr := Mul [Sym "n"; Num (zq (-1)); Add [Mul [Num 0%Qc; Pow (Mul [Sym "n"; Num (zq (-1))]) (Num (zq (-1)))]; Mul [Num (zq (-1)); Num 0%Qc; Pow (Mul [Num (zq (-1)); Add [Sym "n"; Num (zq (-1))]]) (Num (zq (-1)))]]].
(** (2 n - n^2) / (n - 1) *)
Definition va_nice : expr := Mul [Pow (Add [Sym "n"; Num (zq (-1))]) (Num (-(1))%Qc); Add [Mul [Num (zq 2); Sym "n"]; Mul [Num (zq (-1)); Pow (Sym "n") (Num (zq 2))]]].
Definition va_simp (e : expr) : expr := if expr_eqb e va_coeff then va_nice else if expr_eqb e va_inhom then Num 0%Qc else e.
Lemma m1_of v : rv (zq (-1)) = v -> v = -1. Proof. rewrite rv_zq. auto. Qed.
Lemma va_simp_ok I e : refines I e (va_simp e).
Proof.
  intros rho v V. unfold va_simp. destruct (expr_eqb e va_coeff) eqn:E1; [|destruct (expr_eqb e va_inhom) eqn:E2; [|exact V]].
  - apply expr_eqb_eq in E1. subst e. unfold va_coeff in V. rewrite eval_Mul in V. rewrite !eprod_cons in V. set (n := rho "n"%string).
    assert (D : eval I rho (Add [Sym "n"; Num (zq (-1))]) = Some (n + -1)) by (rewrite eval_Add2; cbn [eval olift2]; now rewrite rv_zq).
    assert (D2 : eval I rho (Mul [Num (zq (-1)); Add [Sym "n"; Num (zq (-1))]]) = Some (-1 * (n + -1))) by (rewrite eval_Mul2, D; cbn [eval olift2]; now rewrite rv_zq).
    assert (D3 : eval I rho (Add [Num (zq 1); Mul [Num (zq (-1)); Add [Sym "n"; Num (zq (-1))]]]) = Some (1 + -1 * (n + -1))) by (rewrite eval_Add2, D2; cbn [eval olift2]; now rewrite rv_zq).
    rewrite D3 in V. assert (P : eval I rho (Pow (Mul [Num (zq (-1)); Add [Sym "n"; Num (zq (-1))]]) (Num (zq (-1)))) = rpow (-1 * (n + -1)) (-1)) by (cbn [eval] in D2 |- *; rewrite D2; cbn [obind]; now rewrite rv_zq).
    rewrite P in V. cbn [eval] in V. fold n in V. rewrite rv_zq in V. rewrite eprod_nil in V.
    destruct (Req_EM_T (-1 * (n + -1)) 0) as [Z|Z]; [exfalso; rewrite Z in V; unfold rpow in V; change (-1) with (IZR (-1)) in V; rewrite as_int_IZR in V; destruct (Req_EM_T 0 0); [discriminate|lra]|].
    rewrite (inv_v _ Z) in V. cbn [olift2] in V. unfold va_nice. rewrite eval_Mul2, eval_Add2, !eval_Mul2. rewrite (CollectProofs.eval_Pow I rho (Add [Sym "n"; Num (zq (-1))])), D. cbn [eval obind]. fold n. rewrite !rv_zq, rv_opp, rv_1. cbn [obind].
    assert (Z' : n + -1 <> 0) by lra. replace (- (1)) with (-1) by lra. rewrite (inv_v _ Z'). change 2 with (INR 2) at 2. rewrite rpow_nat. cbn [olift2]. rewrite <- V. f_equal. cbn [INR]. field. lra.
  - apply expr_eqb_eq in E2. subst e. unfold va_inhom in V. rewrite eval_Mul in V. rewrite !eprod_cons in V. apply olift2_some in V as (a & b & Ha & Hb & ->). apply olift2_some in Hb as (c & d & Hc & Hd & ->). apply olift2_some in Hd as (p & q & Hp & Hq & ->).
    rewrite eval_Add2 in Hp. apply olift2_some in Hp as (u & t & Hu & Ht & ->). rewrite eval_Mul2 in Hu. apply olift2_some in Hu as (u1 & u2 & Hu1 & _ & ->). rewrite eval_Mul in Ht. rewrite !eprod_cons in Ht. apply olift2_some in Ht as (t1 & t2 & _ & Ht2 & ->). apply olift2_some in Ht2 as (t3 & t4 & Ht3 & _ & ->).
    cbn [eval] in Hu1, Ht3. rewrite rv_0 in Hu1, Ht3. assert (u1 = 0) by congruence. assert (t3 = 0) by congruence. subst. cbn [eval]. rewrite rv_0. f_equal. ring.
Qed.
Definition va_num : expr := Add [Mul [Pow (Add [Sym "n"; Num 1%Qc]) (Num (zq 2)); Num (zq (-1))]; Mul [Add [Sym "n"; Num 1%Qc]; Num (zq 2)]].
Definition va_den : expr := Add [Num (zq (-1)); Sym "n"; Num 1%Qc].
Definition va_rfo : expr := Mul [va_num; Pow va_den (Num (zq (-1))); Fun FX [n_plus (-1)]].
Definition va_c : expr := Mul [Pow va_den (Num (zq (-1))); va_num].
Definition va_numer (e : expr) : expr := if expr_eqb e va_c then va_num else e.
Definition va_denom (e : expr) : expr := if expr_eqb e va_c then va_den else Num 1%Qc.
(** The roots of the numerator are 1 and -1, that of the denominator is 0. *)
Definition va_roots (s : string) (e : expr) : list Qc := if expr_eqb e va_num then [zq (-1); zq 1] else if expr_eqb e va_den then [zq 0] else [].
Definition six_eqb (o : outcome) (a b c d e : expr) (r : bool) : bool :=
  match o with Weighted a' b' c' d' e' r' => expr_eqb a' a && expr_eqb b' b && expr_eqb c' c && expr_eqb d' d && expr_eqb e' e && Bool.eqb r' r | _ => false end.
Lemma six_eq o a b c d e r : six_eqb o a b c d e r = true -> o = Weighted a b c d e r.
Proof. destruct o; try discriminate. cbn [six_eqb]. rewrite !andb_true_iff. intros (((((H1 & H2) & H3) & H4) & H5) & H6). apply expr_eqb_eq in H1, H2, H3, H4, H5. apply Bool.eqb_prop in H6. now subst. Qed.
Lemma va_runs : classify_weighted Gz idE va_simp idE any_domain va_rhs va_rhs "k" (Num (zq (Z.of_nat 0))) (n_plus (-1)) (Fun FX [Sym "k"]) = Weighted va_w (Num 0%Qc) va_w (Num 0%Qc) va_rfo false.
Proof. apply six_eq. vm_compute. reflexivity. Qed.
Lemma va_index : exists s, ClassModel.classify Gz lmax lmax va_rfo = inr s /\ first_valid_index Gz va_numer va_denom idE va_roots 5 s = Some 1%Z.
Proof.
  assert (H : cls_check (ClassModel.classify Gz lmax lmax va_rfo) (fun s => match first_valid_index Gz va_numer va_denom idE va_roots 5 s with Some z => Z.eqb z 1 | None => false end) = true) by (vm_compute; reflexivity).
  destruct (ClassModel.classify Gz lmax lmax va_rfo) as [|s]; [discriminate|]. exists s. split; [reflexivity|]. cbn [cls_check] in H. destruct (first_valid_index _ _ _ _ _ _ s) as [z|]; [|discriminate]. apply Z.eqb_eq in H. now subst.
Qed.
(** x(1) times the product of (k+1)(1-k)/k from 2 to n *)
Definition va_factor : expr := Mul [Pow (Sym "k") (Num (zq (-1))); Add [Sym "k"; Num 1%Qc]; Add [Num 1%Qc; Mul [Num (zq (-1)); Sym "k"]]].
Definition va_sol : expr := Mul [Fun FX [Num (zq 1)]; ProdE "k" (Num (zq 2)) (Sym "n") va_factor].
Definition va_v (m : nat) : R := / INR m * (INR m + 1) * (1 - INR m).
Fixpoint va_p (i : nat) : R := match i with O => 1 | S i => va_p i * va_v (2 + i) end.
Lemma va_factor_val I rho m : rho "k"%string = INR m -> (1 <= m)%nat -> eval I rho va_factor = Some (va_v m).
Proof.
  intros E Hm. unfold va_factor. rewrite eval_Mul. rewrite !eprod_cons, eprod_nil. rewrite !eval_Add2, eval_Mul2. cbn [eval]. rewrite E, !rv_zq, rv_1. cbn [obind]. rewrite inv_v by (apply not_0_INR; lia). cbn [olift2]. f_equal. unfold va_v. ring.
Qed.
Lemma va_prod_val I rho c : oprod c (fun i => eval I (upd rho "k" (IZR (2 + Z.of_nat i))) va_factor) = Some (va_p c).
Proof.
  induction c as [|c IH]; [reflexivity|]. cbn [oprod va_p]. rewrite IH. rewrite (va_factor_val I _ (2 + c)); [reflexivity| |lia]. unfold upd. rewrite String.eqb_refl. rewrite INR_IZR_INZ. f_equal. lia.
Qed.
Lemma va_sol_val I rho x n : (1 <= n)%nat -> at_n I rho x n va_sol = Some (x 1%nat * va_p (n - 1)).
Proof.
  intros Hn. unfold at_n, va_sol. rewrite eval_Mul2. assert (X : eval (with_x I x) (upd rho "n" (INR n)) (Fun FX [Num (zq 1)]) = Some (x 1%nat)). { cbn [eval omap obind with_x ifun]. rewrite rv_zq, as_int_IZR. reflexivity. }
  rewrite X. rewrite (eval_prod_intro _ _ "k" _ _ _ (va_p (n - 1)) 2 (Z.of_nat n)); [reflexivity| | |].
  - cbn [eval]. now rewrite rv_zq.
  - cbn [eval]. change (upd rho "n" (INR n) "n"%string) with (INR n). now rewrite INR_IZR_INZ.
  - replace (Z.to_nat (Z.of_nat n - 2 + 1)) with (n - 1)%nat by lia. apply va_prod_val.
Qed.

(** * The cases *)
Lemma fo_solution I rho rfo a b (y : nat -> R) : (forall y n, (1 <= n)%nat -> at_n I rho y n rfo = Some (a * y (n - 1)%nat + b)) -> forall x, solution_with I rho rfo 0 1 x y -> y 0%nat = x 0%nat /\ forall n, y (S n) = a * y n + b.
Proof.
  intros V x [A B]. split; [apply A; lia|]. intros n. pose proof (B (S n) ltac:(lia)) as Q. unfold holds_at in Q. pose proof (V y (S n) ltac:(lia)) as W. unfold at_n in W. rewrite W in Q. replace (S n - 1)%nat with n in Q by lia. congruence.
Qed.
Lemma fo_general I rho rfo sol a b (Y : R -> nat -> R) : (forall y n, (1 <= n)%nat -> at_n I rho y n rfo = Some (a * y (n - 1)%nat + b)) -> (forall v, Y v 0%nat = v) -> (forall v n, Y v (S n) = a * Y v n + b) ->
  (forall x n, at_n I rho x n sol = Some (Y (x 0%nat) n)) -> general_solution I rho rfo 0 sol.
Proof.
  intros V Y0 YS Vs. split.
  - intros x. exists (Y (x 0%nat)). split; [intros i Hi; replace i with 0%nat by lia; apply Y0|]. intros n Hn. unfold holds_at. etransitivity; [exact (V _ n Hn)|]. f_equal. replace n with (S (n - 1)) at 2 by lia. now rewrite YS.
  - intros x y S0 n _. destruct (fo_solution I rho rfo a b y V x S0) as [A B]. rewrite Vs. f_equal. revert n. induction n as [|n IH]; [rewrite Y0; congruence|]. now rewrite YS, B, IH.
Qed.
Lemma at_eq I rho x n e e' : e = e' -> at_n I rho x n e' = at_n I rho x n e. Proof. now intros ->. Qed.
Lemma times_defined I rho c lo e (H : nat -> R) : (forall x n, at_n I rho x n e = Some (H n)) -> defined_from I rho (S (Z.to_nat lo)) (times_sum c lo e).
Proof. intros V x n Hn. eexists. apply (times_val I rho c lo e H); [exact V|lia]. Qed.
Definition no_n (l : list expr) : bool := forallb (not_bound_b "n") l.
Definition free_list (sol w' h' w h : expr) (lo : nat) : list expr :=
  [sol; w; h; w'; h'; gadd G0 (gmul G0 w (Fun FX [Num (zq (Z.of_nat lo))])) h; gmul G0 (gdiv G0 w' (shifted G0 (-1) w')) (gadd G0 (Num 1%Qc) (shifted G0 (-1) w'));
  gmul G0 w' (gsub G0 (gdiv G0 h' w') (gdiv G0 (shifted G0 (-1) h') (shifted G0 (-1) w')))].
Lemma free_ok sol w' h' w h lo : no_n (free_list sol w' h' w h lo) = true -> n_free G0 idE sol w' h' w h lo.
Proof. unfold no_n, free_list. cbn [forallb]. rewrite !andb_true_iff. intros (H1 & H2 & H3 & H4 & H5 & H6 & H7 & H8 & _). constructor; now apply not_bound_ok. Qed.
Lemma id_refines I (x : nat -> R) e : refines (with_x I x) e (idE e). Proof. intros r v V. exact V. Qed.
Definition test6 (o : outcome) (f : expr -> expr -> expr -> expr -> expr -> bool -> bool) : bool := match o with Weighted a b c d e r => f a b c d e r | _ => false end.
Lemma case6 o f : test6 o f = true -> exists a b c d e r, o = Weighted a b c d e r /\ f a b c d e r = true.
Proof. destruct o; try discriminate. intros T. do 6 eexists. split; [reflexivity|exact T]. Qed.
Definition usual_test (sol : expr) (lo : nat) (w' h' w h rfo : expr) (rew : bool) : bool := negb (is_num (-(1))%Qc w') && no_n (free_list sol w' h' w h lo).
Lemma av_test : test6 av_out (usual_test av_sol 1) = true. Proof. vm_compute. reflexivity. Qed.

Lemma av_case I rho : let '(w', h', w, h, rfo, rew) := get av_out in
  av_out = Weighted w' h' w h rfo rew /\ general_solution I rho rfo 0 av_sol /\
  forall x0, exists y, solution_with I rho av_rhs 1 1 x0 y /\ forall n, (1 < n)%nat -> at_n I rho y n (weighted_answer G0 idE av_sol w' h' w h rew 1) = Some (y n).
Proof.
  destruct (case6 _ _ av_test) as (w' & h' & w & h & rfo & rew & E & T). rewrite E. cbn [get]. split; [reflexivity|]. apply andb_true_iff in T as [T1 T2]. apply negb_true_iff in T1. apply free_ok in T2.
  assert (P : parts_from I rho (below 1) (idE av_rhs) 1 (fun _ => IZR 2) INR) by (apply (times_parts I rho 2 1 (Sym "n") INR); [apply n_value|reflexivity]).
  assert (D : defined_from I rho 2 av_rhs) by (apply (times_defined I rho 2 1 (Sym "n") INR); apply n_value).
  pose proof (below_values I rho G0 (fun x => G0_ok _) idE idE idE any_domain (id_refines I) av_rhs (first_term av_rhs) "k" 1 w' h' w h rfo rew _ _ av_input E P D) as BV.
  assert (Gs : general_solution I rho rfo 0 av_sol).
  { apply (fo_general I rho rfo av_sol 3 1 (fun v n => 3 ^ n * v + (3 ^ n - 1) / 2)).
    - intros y n Hn. destruct T2 as [B0 B1 B2 B3 B4 B5 B6 B7].
      pose proof (shifts_ok I rho G0 (fun x => G0_ok _) idE idE idE any_domain av_rhs (first_term av_rhs) "k" 1 (n_plus (-1)) w' h' w h rfo rew) as Sh. cbv zeta in Sh. replace (expr_eqb (n_plus (-1)) (Sym "n")) with false in Sh by reflexivity. cbn [andb] in Sh.
      assert (V : forall m, (1 <= m)%nat -> at_n I rho y m w' = Some 2 /\ at_n I rho y m h' = Some (INR (m + 1))).
      { intros m Hm. destruct (BV y (m + 1)%nat ltac:(lia)) as (V1 & V2 & _). split; [apply (proj1 (Sh y m 2 0 E B1 B2)), V1|apply (proj1 (proj2 (Sh y m 2 _ E B1 B2))), V2]. }
      destruct (V n Hn) as [V1 V2]. destruct (V (S n) ltac:(lia)) as [V3 V4].
      rewrite (first_order_ok I rho G0 (fun x => G0_ok _) idE idE idE any_domain (id_refines I) _ _ _ _ _ _ _ _ _ _ _ y n _ _ _ _ E Hn B3 B4 B6 B7 V1 V3 V2 V4) by lra. f_equal. rewrite !plus_INR, S_INR. cbn [INR]. field.
    - intros v. cbn. field.
    - intros v n. cbn [pow]. field.
    - intros x n. apply av_sol_val. }
  split; [exact Gs|]. intros x0.
  destruct (answer_below I rho G0 (fun x => G0_ok _) idE idE idE any_domain (id_refines I) (id_refines I) av_rhs (first_term av_rhs) "k" 1 w' h' w h rfo rew _ _ av_input E P D idE av_sol) with (x0 := x0) as [(y & Y) A].
  - intros n _. lra.
  - exact T1.
  - exact T2.
  - exact Gs.
  - vm_compute. repeat split.
  - exists y. split; [exact Y|]. exact (A y Y).
Qed.

(** * x(n) = 2 sum(k, 1, n, x(k)) + n *)
Definition upto : expr := SumE "k" (Num (zq (Z.of_nat 1))) (Sym "n") (Fun FX [Sym "k"]).
Definition at_rhs : expr := Add [Mul [Num (zq 2); upto]; Sym "n"].
Definition at_out : outcome := classify_weighted G0 idE idE idE any_domain at_rhs (first_term at_rhs) "k" (Num (zq (Z.of_nat 1))) (Sym "n") (Fun FX [Sym "k"]).
(** (-1)^n x(0) + ((-1)^n - 1)/2 *)
Definition at_sol : expr := Add [Mul [Pow (Num (zq (-1))) (Sym "n"); Fun FX [Num 0%Qc]]; Mul [Add [Pow (Num (zq (-1))) (Sym "n"); Num (zq (-1))]; Pow (Num (zq 2)) (Num (zq (-1)))]].
Lemma at_sol_val I rho x n : at_n I rho x n at_sol = Some ((-1) ^ n * x 0%nat + ((-1) ^ n - 1) / 2).
Proof.
  unfold at_n, at_sol. rewrite eval_Add2, !eval_Mul2, eval_Add2. cbn [eval omap obind with_x ifun]. change (upd rho "n" (INR n) "n"%string) with (INR n). rewrite !rv_zq, rv_0. cbn [obind]. rewrite (rpow_nat (-1) n).
  change 0 with (IZR 0). rewrite as_int_IZR. rewrite (inv_v 2) by lra. cbn. first [reflexivity|f_equal; lra].
Qed.
Lemma upto_val I rho x n : exists v, at_n I rho x n upto = Some v.
Proof. eexists. unfold upto. rewrite (sum_val I rho x n "k" 1 (Sym "n") (Z.of_nat n)); [reflexivity|discriminate|exact (proj1 (up_val I rho x n (Sym "n")) eq_refl)]. Qed.
Lemma at_parts I rho : parts_from I rho upto at_rhs 1 (fun _ => 2) INR.
Proof.
  intros x n _. cbn [has_parts at_rhs]. replace 2 with (2 + (0 + 0)) by ring. replace (INR n) with (0 + (INR n + 0)) at 2 by ring. repeat apply SP_cons; [| |apply SP_nil].
  - apply (TP_mul _ _ _ [Num (zq 2)] []); [repeat constructor|]. cbn [app eval fold_right]. rewrite rv_zq. cbn [olift2]. f_equal. ring.
  - apply TP_free; [reflexivity|]. exact (n_value I rho x n).
Qed.
Lemma at_defined I rho : defined_from I rho 2 at_rhs.
Proof. intros x n _. destruct (upto_val I rho x n) as (v & V). unfold at_n in *. unfold at_rhs. rewrite eval_Add2, eval_Mul2, V. cbn [eval olift2]. eexists. reflexivity. Qed.
Lemma at_input : input_ok G0 idE "k" 1 (Sym "n") at_rhs (first_term at_rhs).
Proof.
  constructor; [discriminate|right; exists [Num (zq 2)], []; reflexivity|right; eexists; split; [reflexivity|now left]|apply not_unit; vm_compute; reflexivity].
Qed.
Lemma at_test : test6 at_out (usual_test at_sol 1) = true. Proof. vm_compute. reflexivity. Qed.
Lemma at_case I rho : let '(w', h', w, h, rfo, rew) := get at_out in
  at_out = Weighted w' h' w h rfo rew /\ general_solution I rho rfo 0 at_sol /\
  forall x0, exists y, solution_with I rho at_rhs 1 1 x0 y /\ forall n, (1 < n)%nat -> at_n I rho y n (weighted_answer G0 idE at_sol w' h' w h rew 1) = Some (y n).
Proof.
  destruct (case6 _ _ at_test) as (w' & h' & w & h & rfo & rew & E & T). rewrite E. cbn [get]. split; [reflexivity|]. apply andb_true_iff in T as [T1 T2]. apply negb_true_iff in T1. apply free_ok in T2.
  assert (NU : is_num 1%Qc (used_weight G0 upto idE at_rhs (first_term at_rhs)) = false) by (vm_compute; reflexivity).
  assert (N1 : forall n, (1 < n)%nat -> (fun _ : nat => 2) n <> 1) by (intros; lra).
  pose proof (at_values I rho G0 (fun x => G0_ok _) idE idE idE any_domain (id_refines I) at_rhs (first_term at_rhs) "k" 1 w' h' w h rfo rew _ _ at_input E NU (at_parts I rho) (at_defined I rho) N1) as BV.
  assert (Gs : general_solution I rho rfo 0 at_sol).
  { apply (fo_general I rho rfo at_sol (-1) (-1) (fun v n => (-1) ^ n * v + ((-1) ^ n - 1) / 2)).
    - intros y n Hn. destruct T2 as [B0 B1 B2 B3 B4 B5 B6 B7].
      pose proof (shifts_ok I rho G0 (fun x => G0_ok _) idE idE idE any_domain at_rhs (first_term at_rhs) "k" 1 (Sym "n") w' h' w h rfo rew) as Sh. cbv zeta in Sh. change (SumE "k" (Num (zq (Z.of_nat 1))) (Sym "n") (Fun FX [Sym "k"])) with upto in Sh. rewrite NU, andb_false_r in Sh.
      assert (V : forall m, (1 <= m)%nat -> at_n I rho y m w' = Some (-2) /\ at_n I rho y m h' = Some (- INR (m + 1))).
      { intros m Hm. destruct (BV y (m + 1)%nat ltac:(lia)) as (V1 & V2 & _). replace (-2) with (2 / (1 - 2)) by lra. replace (- INR (m + 1)) with (INR (m + 1) / (1 - 2)) by lra.
        split; [apply (proj1 (Sh y m _ 0 E B1 B2)), V1|apply (proj1 (proj2 (Sh y m 2 _ E B1 B2))), V2]. }
      destruct (V n Hn) as [V1 V2]. destruct (V (S n) ltac:(lia)) as [V3 V4].
      rewrite (first_order_ok I rho G0 (fun x => G0_ok _) idE idE idE any_domain (id_refines I) _ _ _ _ _ _ _ _ _ _ _ y n _ _ _ _ E Hn B3 B4 B6 B7 V1 V3 V2 V4) by lra. f_equal. rewrite !plus_INR, S_INR. cbn [INR]. field.
    - intros v. cbn. field.
    - intros v n. cbn [pow]. field.
    - intros x n. apply at_sol_val. }
  split; [exact Gs|]. intros x0.
  destruct (answer_at I rho G0 (fun x => G0_ok _) idE idE idE any_domain (id_refines I) (id_refines I) at_rhs (first_term at_rhs) "k" 1 w' h' w h rfo rew _ _ at_input E NU (at_parts I rho) (at_defined I rho) N1 idE at_sol) with (x0 := x0) as [(y & Y) A].
  - intros n _. lra.
  - exact T1.
  - exact T2.
  - exact Gs.
  - vm_compute. repeat split.
  - exists y. split; [exact Y|]. exact (A y Y).
Qed.

(** * Weight -1 *)
Definition m0_rhs : expr := times_sum (-1) 0 (Pow (Sym "n") (Num (zq 2))).
Definition m0_out : outcome := classify_weighted G0 idE idE idE any_domain m0_rhs (first_term m0_rhs) "k" (Num (zq (Z.of_nat 0))) (n_plus (-1)) (Fun FX [Sym "k"]).
Lemma m0_input : input_ok G0 idE "k" 0 (n_plus (-1)) m0_rhs (first_term m0_rhs).
Proof.
  constructor; [discriminate|right; exists [Num (zq (-1))], []; reflexivity|right; eexists; split; [reflexivity|now left]|apply not_unit; vm_compute; reflexivity].
Qed.
Definition minus_test (w' h' w h rfo : expr) (rew : bool) : bool := is_num (-(1))%Qc w' && no_n [h; h'].
Lemma m0_test : test6 m0_out minus_test = true. Proof. vm_compute. reflexivity. Qed.
Lemma mo_test : test6 mo_out minus_test = true. Proof. vm_compute. reflexivity. Qed.
(** The answer for a weight -1, at an index n where the inhomogeneous term has values there and at the index before. *)
Lemma minus_answer I rho y n sol w' h' w h rew lo a b : is_num (-(1))%Qc w' = true -> not_bound "n" h' -> (1 <= n)%nat -> at_n I rho y n h' = Some a -> at_n I rho y (n - 1) h' = Some b ->
  at_n I rho y n (weighted_answer G0 idE sol w' h' w h rew lo) = Some (a - b).
Proof.
  intros Nm NB Hn A B. unfold weighted_answer. rewrite Nm. apply (gsub_val _ G0 (G0_ok _)); [exact A|]. apply (shifted_v I rho G0 (fun x => G0_ok _) y n (n - 1)); [exact NB|lia|exact B].
Qed.
Lemma m0_case I rho : let '(w', h', w, h, rfo, rew) := get m0_out in
  m0_out = Weighted w' h' w h rfo rew /\ is_num (-(1))%Qc w' = true /\ not_bound "n" h /\
  (forall sol x0 y, solution_with I rho m0_rhs 0 1 x0 y -> (forall n, (1 < n)%nat -> at_n I rho y n (weighted_answer G0 idE sol w' h' w h rew 0) = Some (y n)) /\
    at_n I rho y 1 (weighted_answer G0 idE sol w' h' w h rew 0) = Some 1 /\ y 1%nat = 1 - x0 0%nat) /\
  forall x0, exists y, solution_with I rho m0_rhs 0 1 x0 y.
Proof.
  destruct (case6 _ _ m0_test) as (w' & h' & w & h & rfo & rew & E & T). rewrite E. cbn [get]. apply andb_true_iff in T as [T1 T2]. unfold no_n in T2. cbn [forallb] in T2. rewrite !andb_true_iff in T2. destruct T2 as (T2 & T3 & _). apply not_bound_ok in T2, T3.
  split; [reflexivity|]. split; [exact T1|]. split; [exact T2|].
  set (q := fun n => INR n ^ 2).
  assert (P : parts_from I rho (below 0) (idE m0_rhs) 0 (fun _ => IZR (-1)) q) by (apply (times_parts I rho (-1) 0 _ q); [apply square_val|reflexivity]).
  assert (D : defined_from I rho 1 m0_rhs) by (apply (times_defined I rho (-1) 0 _ q); apply square_val).
  pose proof (below_follows I rho G0 (fun x => G0_ok _) idE idE idE any_domain (id_refines I) m0_rhs (first_term m0_rhs) "k" 0 w' h' w h rfo rew _ _ m0_input E P D) as BF.
  split.
  - intros sol x0 y Y. split; [exact (answer_minus_one I rho G0 (fun x => G0_ok _) idE idE idE any_domain (id_refines I) m0_rhs (first_term m0_rhs) "k" 0 w' h' w h rfo rew _ _ m0_input E P D idE sol (id_refines I) eq_refl T1 T2 x0 y Y)|].
    apply BF in Y as [Y0 Y]. split.
    + assert (Vh : forall n, at_n I rho y n h' = Some (q n)).
      { assert (Eh : h' = gsub G0 (fst (collect_term G0 idE (below 0) m0_rhs)) (gmul G0 (used_weight G0 (below 0) idE m0_rhs (first_term m0_rhs)) (below 0))) by (destruct (classify_inv G0 idE idE idE any_domain _ _ _ _ _ _ _ _ _ _ _ E) as (_ & _ & _ & _ & NF & _ & Eh & _); rewrite Eh; cbn [snd normal_form] in NF |- *; now injection NF as <- <-).
        intros n. destruct n as [|n].
        - assert (Ex : h' = Add [Pow (Sym "n") (Num (zq 2)); Mul [below 0; Num (zq (-1))]; Mul [Num (zq (-1)); Num (zq (-1)); below 0]]) by (rewrite Eh; apply expr_eqb_eq; vm_compute; reflexivity).
          rewrite Ex. unfold at_n. rewrite eval_Add. rewrite !esum_cons. rewrite !eval_Mul. rewrite !eprod_cons, !eprod_nil. cbn [fold_right]. pose proof (below_val I rho y 0 0 ltac:(lia)) as Bv. pose proof (square_val I rho y 0) as Sv. unfold at_n in Bv, Sv. rewrite Bv, Sv. cbn [eval]. rewrite rv_zq. cbn [olift2]. unfold q. cbn [esum fold_right olift2]. f_equal. ring.
        - destruct (below_values I rho G0 (fun x => G0_ok _) idE idE idE any_domain (id_refines I) m0_rhs (first_term m0_rhs) "k" 0 w' h' w h rfo rew _ _ m0_input E P D y (S n) ltac:(lia)) as (_ & V & _).
          destruct (classify_inv G0 idE idE idE any_domain _ _ _ _ _ _ _ _ _ _ _ E) as (_ & _ & _ & _ & NF & _ & Eh' & _). rewrite Eh'. exact V. }
      rewrite (minus_answer I rho y 1 sol w' h' w h rew 0 (q 1%nat) (q 0%nat)); auto. f_equal. unfold q. cbn. lra.
    + rewrite (Y 1%nat) by lia. pose proof (sum_below_1 0 y) as S1. rewrite S1, Y0. unfold q. cbn [INR pow]. lra.
  - intros x0. destruct (follows_exists (fun _ => IZR (-1)) q 0 (x0 0%nat)) as (y & Y). exists y. now apply BF.
Qed.

Lemma mo_case I rho : let '(w', h', w, h, rfo, rew) := get mo_out in
  mo_out = Weighted w' h' w h rfo rew /\ (forall x0, exists y, solution_with I rho mo_rhs 2 1 x0 y) /\
  forall sol x0 y, solution_with I rho mo_rhs 2 1 x0 y -> y 4%nat = 7 /\ at_n I rho y 4 (weighted_answer G0 idE sol w' h' w h rew 2) = Some 11.
Proof.
  destruct (case6 _ _ mo_test) as (w' & h' & w & h & rfo & rew & E & T). rewrite E. cbn [get]. apply andb_true_iff in T as [T1 T2]. unfold no_n in T2. cbn [forallb] in T2. rewrite !andb_true_iff in T2. destruct T2 as (T2 & T3 & _). apply not_bound_ok in T2, T3.
  split; [reflexivity|]. set (q := fun n => INR n ^ 2).
  assert (P : parts_from I rho (below 2) (idE mo_rhs) 2 (fun _ => IZR (-1)) q) by (apply (times_parts I rho (-1) 2 _ q); [apply square_val|reflexivity]).
  assert (D : defined_from I rho 3 mo_rhs) by (apply (times_defined I rho (-1) 2 _ q); apply square_val).
  pose proof (below_follows I rho G0 (fun x => G0_ok _) idE idE idE any_domain (id_refines I) mo_rhs (first_term mo_rhs) "k" 2 w' h' w h rfo rew _ _ mo_input E P D) as BF.
  pose proof (below_values I rho G0 (fun x => G0_ok _) idE idE idE any_domain (id_refines I) mo_rhs (first_term mo_rhs) "k" 2 w' h' w h rfo rew _ _ mo_input E P D) as BV.
  split; [intros x0; destruct (follows_exists (fun _ => IZR (-1)) q 2 (x0 2%nat)) as (y & Y); exists y; now apply BF|].
  intros sol x0 y Y. apply BF in Y as [Y0 Y]. split.
  - pose proof (Y 4%nat ltac:(lia)) as E4. pose proof (Y 3%nat ltac:(lia)) as E3. rewrite sum_below_S in E4 by lia. unfold q in *. cbn [INR pow] in E3, E4. lra.
  - assert (NB : not_bound "n" w).
    { destruct (classify_inv G0 idE idE idE any_domain _ _ _ _ _ _ _ _ _ _ _ E) as (_ & _ & _ & _ & NF & _). replace (expr_eqb (n_plus (-1)) (Sym "n")) with false in NF by reflexivity. cbn [snd normal_form] in NF.
      apply (f_equal (fun p => fst (fst p))) in NF. cbn [fst] in NF. rewrite <- NF. apply not_bound_ok. vm_compute. reflexivity. }
    pose proof (shifts_ok I rho G0 (fun x => G0_ok _) idE idE idE any_domain mo_rhs (first_term mo_rhs) "k" 2 (n_plus (-1)) w' h' w h rfo rew) as Sh. cbv zeta in Sh. replace (expr_eqb (n_plus (-1)) (Sym "n")) with false in Sh by reflexivity. cbn [andb] in Sh.
    assert (V : forall m, (1 <= m)%nat -> at_n I rho y m h' = Some (q (m + 2)%nat)).
    { intros m Hm. destruct (BV y (m + 2)%nat ltac:(lia)) as (_ & V2 & _). exact (proj1 (proj2 (Sh y m 0 _ E NB T2)) V2). }
    rewrite (minus_answer I rho y 4 sol w' h' w h rew 2 (q 6%nat) (q 5%nat)); auto; [|apply (V 4%nat); lia|apply (V 3%nat); lia]. f_equal. unfold q. cbn [INR pow]. lra.
Qed.

(** * A first valid index other than 0 *)
Lemma va_rfo_val I rho y n : (1 <= n)%nat -> at_n I rho y n va_rfo = Some ((- (INR n + 1) ^ 2 + (INR n + 1) * 2) / INR n * y (n - 1)%nat).
Proof.
  intros Hn. unfold at_n, va_rfo. rewrite eval_Mul. rewrite !eprod_cons, eprod_nil. pose proof (x_plus_val I rho y n (-1) (n - 1) ltac:(lia)) as X. unfold at_n in X. rewrite X.
  assert (Nz : INR n <> 0) by (apply not_0_INR; lia).
  assert (Dv : eval (with_x I y) (upd rho "n" (INR n)) va_den = Some (INR n)).
  { unfold va_den. rewrite eval_Add. rewrite !esum_cons. cbn [eval fold_right esum]. rewrite rv_zq, rv_1. change (upd rho "n" (INR n) "n"%string) with (INR n). cbn [olift2]. f_equal. ring. }
  rewrite (eval_Pow (with_x I y) _ va_den), Dv. cbn [eval obind]. rewrite rv_zq. rewrite (inv_v _ Nz).
  assert (Nv : eval (with_x I y) (upd rho "n" (INR n)) va_num = Some (- (INR n + 1) ^ 2 + (INR n + 1) * 2)).
  { assert (A1 : eval (with_x I y) (upd rho "n" (INR n)) (Add [Sym "n"; Num 1%Qc]) = Some (INR n + 1)) by (rewrite eval_Add2; cbn [eval olift2]; now rewrite rv_1).
    unfold va_num. rewrite eval_Add2, !eval_Mul2. rewrite (eval_Pow (with_x I y) _ (Add [Sym "n"; Num 1%Qc])), A1. cbn [eval obind]. rewrite !rv_zq. change 2 with (INR 2) at 1. rewrite rpow_nat. cbn [olift2]. f_equal. ring. }
  rewrite Nv. cbn [olift2]. f_equal. field. exact Nz.
Qed.
Lemma va_v_step n : (1 <= n)%nat -> (- (INR n + 1) ^ 2 + (INR n + 1) * 2) / INR n = va_v n.
Proof. intros Hn. unfold va_v. field. apply not_0_INR. lia. Qed.
Lemma va_parts I rho : parts_from I rho (below 0) va_rhs 0 (fun n => - INR n) (fun _ => 0).
Proof.
  intros x n _. cbn [has_parts va_rhs]. apply (TP_mul _ _ _ [Num (zq (-1)); Sym "n"] []); [repeat constructor|]. cbn [app]. rewrite eval_Mul2. cbn [eval]. rewrite rv_zq. change (upd rho "n" (INR n) "n"%string) with (INR n). cbn [olift2]. f_equal. ring.
Qed.
Lemma va_val I rho x n : at_n I rho x n va_rhs = Some (- INR n * sum_below x 0 n).
Proof.
  unfold at_n, va_rhs. rewrite eval_Mul. rewrite !eprod_cons, eprod_nil. pose proof (below_val I rho x n 0 ltac:(lia)) as B. unfold at_n in B. rewrite B. cbn [eval]. rewrite rv_zq. change (upd rho "n" (INR n) "n"%string) with (INR n). cbn [olift2]. f_equal. ring.
Qed.
Lemma va_case I rho :
  classify_weighted Gz idE va_simp idE any_domain va_rhs va_rhs "k" (Num (zq (Z.of_nat 0))) (n_plus (-1)) (Fun FX [Sym "k"]) = Weighted va_w (Num 0%Qc) va_w (Num 0%Qc) va_rfo false /\
  (exists c, ClassModel.classify Gz lmax lmax va_rfo = inr c /\ first_valid_index Gz va_numer va_denom idE va_roots 5 c = Some 1%Z) /\
  general_solution I rho va_rfo 1 va_sol /\ (forall x0, exists y, solution_with I rho va_rhs 0 1 x0 y) /\
  forall x0 y, solution_with I rho va_rhs 0 1 x0 y -> y 2%nat = 0 /\ at_n I rho y 2 (weighted_answer Gz idE va_sol va_w (Num 0%Qc) va_w (Num 0%Qc) false 0) = Some (- x0 0%nat).
Proof.
  split; [exact va_runs|]. split; [exact va_index|].
  assert (BF : forall x0 y, solution_with I rho va_rhs 0 1 x0 y <-> (y 0%nat = x0 0%nat /\ follows (fun n => - INR n) (fun _ => 0) 0 y)).
  { intros x0 y. split.
    - intros [A B]. split; [apply A; lia|]. intros n Hn. pose proof (B n ltac:(lia)) as Q. unfold holds_at in Q. pose proof (va_val I rho y n) as V. unfold at_n in V. rewrite V in Q. assert (- INR n * sum_below y 0 n = y n) by congruence. lra.
    - intros [A B]. split; [intros i Hi; replace i with 0%nat by lia; exact A|]. intros n Hn. unfold holds_at. etransitivity; [exact (va_val I rho y n)|]. f_equal. rewrite (B n) by lia. ring. }
  split.
  { split.
    - intros x. exists (fun n => x 1%nat * va_p (n - 1)). split; [intros i Hi; replace i with 1%nat by lia; cbn [Nat.sub va_p]; ring|]. intros n Hn. unfold holds_at. etransitivity; [exact (va_rfo_val I rho _ n ltac:(lia))|].
      f_equal. rewrite va_v_step by lia. replace (n - 1)%nat with (S (n - 2)) at 2 by lia. cbn [va_p]. replace (n - 1 - 1)%nat with (n - 2)%nat by lia. replace (2 + (n - 2))%nat with n by lia. ring.
    - intros x y [A B] n Hn. rewrite va_sol_val by lia. f_equal. induction n as [|n IH]; [lia|]. destruct (Nat.eq_dec n 0) as [->|N]; [rewrite (A 1%nat) by lia; cbn; ring|].
      pose proof (B (S n) ltac:(lia)) as Q. unfold holds_at in Q. pose proof (va_rfo_val I rho y (S n) ltac:(lia)) as V. unfold at_n in V. rewrite V in Q. rewrite va_v_step in Q by lia. replace (S n - 1)%nat with n in * by lia.
      assert (Q' : va_v (S n) * y n = y (S n)) by congruence. rewrite <- Q', <- IH by lia. replace n with (S (n - 1)) at 1 by lia. cbn [va_p]. replace (2 + (n - 1))%nat with (S n) by lia. ring. }
  split; [intros x0; destruct (follows_exists (fun n => - INR n) (fun _ => 0) 0 (x0 0%nat)) as (y & Y); exists y; now apply BF|].
  intros x0 y Y. apply BF in Y as [Y0 Y]. pose proof (Y 1%nat ltac:(lia)) as E1. pose proof (Y 2%nat ltac:(lia)) as E2. rewrite sum_below_S in E2 by lia. pose proof (sum_below_1 0 y) as S1. rewrite S1 in E1, E2. cbn [INR] in E1, E2. split; [lra|].
  assert (Ans : weighted_answer Gz idE va_sol va_w (Num 0%Qc) va_w (Num 0%Qc) false 0 = Mul [Fun FX [Num (zq 1)]; ProdE "k" (Num (zq 2)) (Add [Num (zq (-1)); Sym "n"]) va_factor]) by (apply expr_eqb_eq; vm_compute; reflexivity).
  rewrite Ans. unfold at_n. rewrite eval_Mul2. assert (X : eval (with_x I y) (upd rho "n" (INR 2)) (Fun FX [Num (zq 1)]) = Some (y 1%nat)). { cbn [eval omap obind with_x ifun]. rewrite rv_zq, as_int_IZR. reflexivity. }
  rewrite X. rewrite (eval_prod_intro _ _ "k" _ _ _ 1 2 1); [cbn [olift2]; f_equal; lra| | |].
  - cbn [eval]. now rewrite rv_zq.
  - rewrite eval_Add2. cbn [eval]. change (upd rho "n" (INR 2) "n"%string) with (INR 2). rewrite rv_zq. cbn [olift2]. f_equal. cbn [INR]. lra.
  - reflexivity.
Qed.
