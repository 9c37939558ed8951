(** C67: the simplifications of whole expressions (src/simplify.cc:719-1033, 1962-2049). *)
From Coq Require Import ZArith QArith Qcanon Reals List String Bool Lia Lra Permutation.
From Verif Require Import IntUtilModel Ast ExprModel ExprSpec ExprProofs1 ExprProofs2 NonLinProofs NumFormModel CollectModel CollectSpec CollectProofs CollectProps PowModel PowSpec PowProofs PowProps FactModel FactSpec FactCases FactProps DecompProofs NumDenModel NumDenSpec NumDenProofs NumDenCases ExprCases VerifyCases
  SumSimpModel SumSimpSpec SumSimpProps FactRwModel FactRwSpec FactRwProofs FactRwProofs2 FactRwProps LogModel LogSpec LogProps SimpDrvModel SimpDrvSpec SimpDrvProofs SimpDrvProofs2.
Import ListNotations.
Local Open Scope list_scope.
Local Open Scope R_scope.

(** simplify_ex_for_output keeps the value wherever all the rules were applied to powers, numbers and products for which they are valid. *)
Theorem C67_output_partial : forall I G, ginac_ok I G -> keeps_integers I G -> exp_std I ->
  forall expand nd, (forall e, refines I e (expand e)) ->
  forall fuel input rho e r cs v, simplify_ex_for_output G expand nd fuel e input = Some (r, cs) -> calls_valid I G nd rho cs -> eval I rho e = Some v -> eval I rho r = Some v.
Proof. intros I G HG HK Hx ex nd He fuel input rho e r cs v H V Ev. exact (simplify_output_ok I G HG HK ex nd He Hx fuel input (ex e) rho r cs v H V (He e rho v Ev)). Qed.
(** So does simplify_ex_for_input. *)
Theorem C67_input_partial : forall I G, ginac_ok I G -> keeps_integers I G ->
  forall expand nd, (forall e, refines I e (expand e)) ->
  forall fuel input rho e r cs v, simplify_ex_for_input G expand nd fuel e input = Some (r, cs) -> calls_valid I G nd rho cs -> eval I rho e = Some v -> eval I rho r = Some v.
Proof. intros I G HG HK ex nd He fuel input rho e r cs v H V Ev. exact (simplify_input_ok I G HG HK ex nd He fuel input (ex e) rho r cs v H V (He e rho v Ev)). Qed.
(** simplify_numer_denom. *)
Theorem C67_numer_denom_partial : forall I G, ginac_ok I G -> forall expand, (forall e, refines I e (expand e)) ->
  resplits_units split_bases_exponents G -> forall e, nice_sums split_bases_exponents G (numerator_denominator G) e ->
  forall rho r v, simplify_numer_denom G expand e = Some r -> eval I rho e = Some v -> eval I rho r = Some v.
Proof. exact numer_denom_ok. Qed.
(** simplify_all is the composition of the five simplifications, and keeps the value where each of them does. *)
Theorem C67_all_partial : forall I G, ginac_ok I G -> forall expand, (forall e, refines I e (expand e)) ->
  forall nd simplify sum_pe gosper h numer denom canon,
  keeps_integers I G -> exp_std I -> log_std I -> factorial_std I -> binom_std I -> resplits_units split_bases_exponents G ->
  (forall e, refines I e (simplify e)) -> sums_powers I sum_pe -> telescopes I gosper -> fractions I numer denom -> (forall l, Permutation (canon l) l) ->
  forall rho N fuel e e1 e2 e3 e4 e5 cs v, rho "n"%string = IZR N -> h <> "n"%string ->
  simplify_numer_denom G expand e = Some e1 -> nice_sums split_bases_exponents G (numerator_denominator G) e ->
  rewrite_fe G expand fuel (rewrite_binomials G e1) = Some e2 -> binomials_fine I rho e1 -> factorials_fine I (swapped_by G expand) rho (rewrite_binomials G e1) ->
  collect_sums G expand simplify sum_pe gosper h fuel (expand e2) = Some e3 ->
  (e3 = expand e2 \/ Forall (fun a => forall c k b, sum_addend a = Some (c, k, b) -> has h b = false /\ no_capture k (Sym h) b) (ops (expand e2)) /\
     sums_right I G expand simplify sum_pe h true rho (gsum G h (Num 1) (Sym "n") (expand (snd (fst (merge G h (ops (expand e2)))))))) ->
  simplify_ex_for_output G expand nd fuel (expand e3) false = Some (e4, cs) -> calls_valid I G nd rho cs ->
  simplify_log G numer denom (fun p => PowModel.simplify_powers G p false) canon fuel (expand e4) = Some e5 -> logs_fine I G numer denom (fun p => PowModel.simplify_powers G p false) canon rho (expand e4) ->
  simplify_all G expand nd simplify sum_pe gosper h numer denom canon fuel e = Some (expand e5) /\ (eval I rho e = Some v -> eval I rho (expand e5) = Some v).
Proof. exact all_ok. Qed.

(** * Cases *)
(** Constructors with a^0 = 1, a^1 = a, 1^a = 1 and exp(0) = 1. *)
Definition Ge : ginac := MkG (gadd G0) (gmul G0)
  (fun b x => if expr_eqb x (Num 0) then Num 1 else if expr_eqb x (Num 1) then b else if expr_eqb b (Num 1) then Num 1 else Pow b x)
  (fun f l => match f, l with FExp, [Num q] => if Qc_eqb q 0 then Num 1 else Fun f l | _, _ => Fun f l end) SumE ProdE.
Lemma Ge_ok I : exp_std I -> ginac_ok I Ge.
Proof.
  intros Hx. destruct (G0_ok I) as [A B C D E F]. constructor; auto.
  - intros a b rho v Ev. cbn [gpow Ge]. destruct (expr_eqb b (Num 0)) eqn:E1; [|destruct (expr_eqb b (Num 1)) eqn:E2; [|destruct (expr_eqb a (Num 1)) eqn:E3; auto]].
    + apply expr_eqb_eq in E1. subst b. apply power_inv in Ev as (u & y & U & Y & P). rewrite num0 in Y. injection Y as <-. rewrite rpow_0 in P. rewrite num1. exact P.
    + apply expr_eqb_eq in E2. subst b. apply power_inv in Ev as (u & y & U & Y & P). rewrite num1 in Y. injection Y as <-. rewrite rpow_1r in P. congruence.
    + apply expr_eqb_eq in E3. subst a. apply power_inv in Ev as (u & y & U & Y & P). rewrite num1 in U |- *. injection U as <-. now rewrite rpow_1 in P.
  - intros f l rho v Ev. cbn [gfun Ge]. destruct f; auto. destruct l as [|a l]; auto. destruct a as [q| | | | | | | |]; auto. destruct l; auto. destruct (Qc_eqb q 0) eqn:Eq; auto. apply Qc_eqb_eq in Eq. subst q.
    cbn [eval omap obind] in Ev. rewrite Hx, rv_0, exp_0 in Ev. rewrite num1. exact Ev.
Qed.
Lemma Ge_keeps I : keeps_integers I Ge. Proof. exact (keeps_integers_G0 I). Qed.
Definition nm (z : Z) : expr := Num (zq z).
Definition root2 : expr := Num (Q2Qc (1 # 2)).
(** 2^(1/2) 3^(1/2) exp(n) exp(2) + sum(k, 1, n, (a^k)^2 a^3) becomes sum(k, 1, n, a^(2 k + 3)) + 6^(1/2) exp(2 + n). *)
Definition o_e : expr := Add [Mul [Pow (nm 2) root2; Pow (nm 3) root2; Fun FExp [Sym "n"]; Fun FExp [nm 2]]; SumE "k" (nm 1) (Sym "n") (Mul [Pow (Pow (Sym "a") (Sym "k")) (nm 2); Pow (Sym "a") (nm 3)])].
Definition o_r : expr := Add [SumE "k" (nm 1) (Sym "n") (Pow (Sym "a") (Add [Mul [nm 2; Sym "k"]; nm 3])); Mul [Pow (nm 6) root2; Fun FExp [Add [nm 2; Sym "n"]]]].
Example C67_output_used : exists cs, simplify_ex_for_output Ge idE idE 10 o_e false = Some (o_r, cs) /\ forall rho, (forall s, 0 < rho s) -> calls_valid I0 Ge idE rho cs /\ forall v, eval I0 rho o_e = Some v -> eval I0 rho o_r = Some v.
Proof.
  assert (X : match simplify_ex_for_output Ge idE idE 10 o_e false with Some (r, cs) => expr_eqb r o_r && forallb (call_check Ge) cs | None => false end = true) by (vm_compute; reflexivity).
  destruct (simplify_ex_for_output Ge idE idE 10 o_e false) as [[r cs]|] eqn:E; [|discriminate]. apply andb_true_iff in X as [X1 X2]. apply expr_eqb_eq in X1. subst r. exists cs. split; [reflexivity|]. intros rho Hr. pose proof (test_valid I0 Ge rho cs Hr X2) as V. split; auto.
  intros v. exact (C67_output_partial I0 Ge (Ge_ok I0 I0_exp) (Ge_keeps I0) I0_exp idE idE (fun e r v H => H) 10 false rho o_e o_r cs v E V).
Qed.
(** 2^n (a^3)^n n becomes (a^3 2)^n n. *)
Definition i_e : expr := Mul [Pow (nm 2) (Sym "n"); Pow (Pow (Sym "a") (nm 3)) (Sym "n"); Sym "n"].
Definition i_r : expr := Mul [Pow (Mul [Pow (Sym "a") (nm 3); nm 2]) (Sym "n"); Sym "n"].
Example C67_input_used : exists cs, simplify_ex_for_input Ge idE idE 10 i_e true = Some (i_r, cs) /\ forall rho, (forall s, 0 < rho s) -> calls_valid I0 Ge idE rho cs /\ forall v, eval I0 rho i_e = Some v -> eval I0 rho i_r = Some v.
Proof.
  assert (X : match simplify_ex_for_input Ge idE idE 10 i_e true with Some (r, cs) => expr_eqb r i_r && forallb (call_check Ge) cs | None => false end = true) by (vm_compute; reflexivity).
  destruct (simplify_ex_for_input Ge idE idE 10 i_e true) as [[r cs]|] eqn:E; [|discriminate]. apply andb_true_iff in X as [X1 X2]. apply expr_eqb_eq in X1. subst r. exists cs. split; [reflexivity|]. intros rho Hr. pose proof (test_valid I0 Ge rho cs Hr X2) as V. split; auto.
  intros v. exact (C67_input_partial I0 Ge (Ge_ok I0 I0_exp) (Ge_keeps I0) idE idE (fun e r v H => H) 10 true rho i_e i_r cs v E V).
Qed.
(** The case of C51: x^(-1) + y x^(-2), the numerator over the denominator. *)
Example C67_numer_denom_used : simplify_numer_denom G1 idE nd_e = Some (gmul G1 nd_n (gpow G1 nd_d minus_one)) /\ forall rho v, eval I0 rho nd_e = Some v -> eval I0 rho (gmul G1 nd_n (gpow G1 nd_d minus_one)) = Some v.
Proof.
  assert (E : simplify_numer_denom G1 idE nd_e = Some (gmul G1 nd_n (gpow G1 nd_d minus_one))) by (unfold simplify_numer_denom; now rewrite nd_result).
  split; auto. intros rho v. exact (C67_numer_denom_partial I0 G1 (G1_ok I0) idE (fun e r v H => H) G1_units nd_e nd_nice rho _ v E).
Qed.
(** simplify_all on 2^(1/2) 3^(1/2) n. *)
Definition a_e : expr := Mul [Pow (nm 2) root2; Pow (nm 3) root2; Sym "n"].
Definition a_r : expr := Mul [Pow (nm 6) root2; Sym "n"].

Lemma Ge_units : resplits_units split_bases_exponents Ge.
Proof.
  intros c l e H _. assert (E : gpow Ge (Num 1) e = Num 1). { cbn [Ge gpow]. destruct (expr_eqb e (Num 0)); auto. destruct (expr_eqb e (Num 1)); auto. }
  rewrite E. replace (gmul Ge c (Num 1)) with c; auto. destruct c; cbn [Ge G0 gmul]; try reflexivity. f_equal. symmetry. apply Qcmult_1_r.
Qed.
Lemma of_option {A} (o : option A) (test : A -> bool) (a : A) : (forall b, test b = true -> b = a) -> match o with Some b => test b | None => false end = true -> o = Some a.
Proof. intros T H. destruct o as [b|]; [|discriminate]. now rewrite (T b H). Qed.
Definition a_1 : expr := Mul [Sym "n"; Pow (nm 3) (Pow (nm 2) (nm (-1))); Pow (nm 2) (Pow (nm 2) (nm (-1)))].
Definition a_2 : expr := Mul [Pow (nm 2) (Pow (nm 2) (nm (-1))); Pow (nm 3) (Pow (nm 2) (nm (-1))); Sym "n"].
Lemma all_stages : simplify_numer_denom Ge idE a_e = Some a_1 /\ rewrite_binomials Ge a_1 = a_2 /\ rewrite_fe Ge idE 10 a_2 = Some a_1 /\
  collect_sums Ge idE idE sum_pe0 gosper0 "h" 10 a_1 = Some a_1 /\
  (exists cs, simplify_ex_for_output Ge idE idE 10 a_1 false = Some (a_r, cs) /\ forallb (call_check Ge) cs = true) /\
  simplify_log Ge numer0 denom0 (fun p => PowModel.simplify_powers Ge p false) (fun l => l) 10 a_r = Some a_r.
Proof.
  split; [apply (of_option _ (fun b => expr_eqb b a_1)); [intros b; apply expr_eqb_eq|vm_compute; reflexivity]|].
  split; [apply expr_eqb_eq; vm_compute; reflexivity|].
  split; [apply (of_option _ (fun b => expr_eqb b a_1)); [intros b; apply expr_eqb_eq|vm_compute; reflexivity]|].
  split; [apply (of_option _ (fun b => expr_eqb b a_1)); [intros b; apply expr_eqb_eq|vm_compute; reflexivity]|].
  split; [|apply (of_option _ (fun b => expr_eqb b a_r)); [intros b; apply expr_eqb_eq|vm_compute; reflexivity]].
  assert (X : match simplify_ex_for_output Ge idE idE 10 a_1 false with Some (r, cs) => expr_eqb r a_r && forallb (call_check Ge) cs | None => false end = true) by (vm_compute; reflexivity).
  destruct (simplify_ex_for_output Ge idE idE 10 a_1 false) as [[r cs]|]; [|discriminate]. apply andb_true_iff in X as [X1 X2]. apply expr_eqb_eq in X1. subst r. eauto.
Qed.
Lemma a_logs rho : logs_fine I0 Ge numer0 denom0 (fun p => PowModel.simplify_powers Ge p false) (fun l => l) rho a_r.
Proof.
  assert (Lf : forall e, match e with Num _ | Cst _ | Sym _ => True | _ => False end -> logs_fine I0 Ge numer0 denom0 (fun p => PowModel.simplify_powers Ge p false) (fun l => l) rho e) by (intros; now constructor).
  assert (Lp : logs_fine I0 Ge numer0 denom0 (fun p => PowModel.simplify_powers Ge p false) (fun l => l) rho (Pow (nm 6) root2)).
  { assert (Ps : forall fuel b1 x1, power_step Ge (fun p => PowModel.simplify_powers Ge p false) fuel (nm 6) root2 = Some (inr (b1, x1)) -> b1 = nm 6 /\ x1 = root2).
    { intros fuel b1 x1 H. assert (E : power_step Ge (fun p => PowModel.simplify_powers Ge p false) fuel (nm 6) root2 = Some (inr (nm 6, root2))) by reflexivity. split; congruence. }
    apply LF_pow.
    - split; [split; discriminate|]. intros l H. discriminate H.
    - intros fuel b1 x1 H. destruct (Ps _ _ _ H) as [-> _]. now apply Lf.
    - intros fuel b1 x1 H. destruct (Ps _ _ _ H) as [_ ->]. now apply Lf. }
  apply (LF_mul _ _ _ _ _ _ rho _ [Sym "n"; Pow (nm 6) root2]).
  - intros f g r H. discriminate H.
  - apply expr_eqb_eq. vm_compute. reflexivity.
  - constructor; [now apply Lf|]. constructor; [exact Lp|constructor].
Qed.
Example C67_all_used : simplify_all Ge idE idE idE sum_pe0 gosper0 "h" numer0 denom0 (fun l => l) 10 a_e = Some a_r /\
  forall rho N v, (forall s, 0 < rho s) -> rho "n"%string = IZR N -> eval I0 rho a_e = Some v -> eval I0 rho a_r = Some v.
Proof.
  destruct all_stages as (E1 & E2 & E3 & E4 & (cs & E5 & Ck) & E6).
  assert (K : forall rho N v, (forall s, 0 < rho s) -> rho "n"%string = IZR N -> simplify_all Ge idE idE idE sum_pe0 gosper0 "h" numer0 denom0 (fun l => l) 10 a_e = Some (idE a_r) /\ (eval I0 rho a_e = Some v -> eval I0 rho (idE a_r) = Some v)).
  { intros rho N v Hp Hn. apply (C67_all_partial I0 Ge (Ge_ok I0 I0_exp) idE (fun e r v H => H) idE idE sum_pe0 gosper0 "h" numer0 denom0 (fun l => l) (Ge_keeps I0) I0_exp I0_log I0_factorial_std I0_binom_std Ge_units (fun e r v H => H) (sum_pe0_ok I0) (gosper0_ok I0) (fractions0 I0)
      (fun l => Permutation_refl l) rho N 10 a_e a_1 a_1 a_1 a_r a_r cs v Hn ltac:(discriminate) E1).
    - assert (A : forall q, nice_sums split_bases_exponents Ge (numerator_denominator Ge) (Num q)) by (intros q; apply NsAtom; discriminate).
      apply NsMul. constructor; [intros a b _; apply NsPow; apply A|]. constructor; [intros a b _; apply NsPow; apply A|]. constructor; [discriminate|constructor].
    - rewrite E2. exact E3.
    - assert (Lf : forall e, match e with Num _ | Cst _ | Sym _ => True | _ => False end -> binomials_fine I0 rho e) by (intros; now constructor).
      apply BF_mul. constructor; [now apply Lf|]. constructor; [|constructor; [|constructor]]; (apply BF_pow; [now apply Lf|]); apply BF_pow; now apply Lf.
    - rewrite E2. assert (Lf : forall e, match e with Num _ | Cst _ | Sym _ => True | _ => False end -> factorials_fine I0 (swapped_by Ge idE) rho e) by (intros; now constructor).
      assert (P : forall a b, factorials_fine I0 (swapped_by Ge idE) rho b -> factorials_fine I0 (swapped_by Ge idE) rho (Pow (nm a) b)) by (intros a b Hb; apply FF_pow; [discriminate|now apply Lf|exact Hb]).
      apply FF_mul. constructor; [|constructor; [|constructor; [now apply Lf|constructor]]]; apply P, P; now apply Lf.
    - exact E4.
    - now left.
    - exact E5.
    - now apply test_valid.
    - exact E6.
    - apply a_logs. }
  split.
  - apply (K (fun _ => 1) 1%Z 1); auto. intros; lra.
  - intros rho N v Hp Hn. apply (K rho N v Hp Hn).
Qed.

(** * Rules applied where they are not valid *)
(** (a^2)^(1/2) becomes a. *)
Theorem C67_root_of_square_refuted : exists cs, simplify_ex_for_output Ge idE idE 10 (Pow (Pow (Sym "a") (nm 2)) root2) false = Some (Sym "a", cs) /\
  eval I0 (fun _ => -3) (Pow (Pow (Sym "a") (nm 2)) root2) = Some 3 /\ eval I0 (fun _ => -3) (Sym "a") = Some (-3).
Proof.
  assert (X : match simplify_ex_for_output Ge idE idE 10 (Pow (Pow (Sym "a") (nm 2)) root2) false with Some (r, _) => expr_eqb r (Sym "a") | None => false end = true) by (vm_compute; reflexivity).
  destruct (simplify_ex_for_output Ge idE idE 10 (Pow (Pow (Sym "a") (nm 2)) root2) false) as [[r cs]|]; [|discriminate]. apply expr_eqb_eq in X. subst r. exists cs. split; auto. split; [|reflexivity].
  unfold nm, root2. cbn [eval obind]. rewrite rv_zq, rv_half. change 2 with (INR 2) at 1. rewrite rpow_nat. cbn [obind]. replace ((-3) ^ 2) with (3 * 3) by ring. rewrite rpow_half by lra. f_equal. apply sqrt_square. lra.
Qed.
(** (-2)^(1/2 2^(1/2) 3^(1/2) 6^(1/2)) becomes 8: the exponent is simplified to 3, and the sign of the cube is lost. *)
Definition cube : expr := Pow (nm (-2)) (Mul [root2; Pow (nm 2) root2; Pow (nm 3) root2; Pow (nm 6) root2]).
Theorem C67_sign_refuted : exists cs, simplify_ex_for_output Ge idE idE 10 cube false = Some (nm 8, cs) /\
  eval I0 (fun _ => 0) cube = Some (-8) /\ eval I0 (fun _ => 0) (nm 8) = Some 8.
Proof.
  assert (X : match simplify_ex_for_output Ge idE idE 10 cube false with Some (r, _) => expr_eqb r (nm 8) | None => false end = true) by (vm_compute; reflexivity).
  destruct (simplify_ex_for_output Ge idE idE 10 cube false) as [[r cs]|]; [|discriminate]. apply expr_eqb_eq in X. subst r. exists cs. split; auto. split; [|unfold nm; cbn [eval]; now rewrite rv_zq].
  assert (Rt : forall z, 0 < IZR z -> eval I0 (fun _ => 0) (Pow (nm z) root2) = Some (sqrt (IZR z))) by (intros z Hz; unfold nm, root2; cbn [eval obind]; rewrite rv_zq, rv_half; now apply rpow_half).
  unfold cube. rewrite eval_Pow, eval_Mul, !eprod_cons, eprod_nil, !Rt by lra. unfold nm, root2. cbn [eval olift2 obind]. rewrite rv_zq, rv_half.
  replace (1 / 2 * (sqrt 2 * (sqrt 3 * (sqrt 6 * 1)))) with (INR 3).
  - rewrite rpow_nat. f_equal. ring.
  - replace (sqrt 2 * (sqrt 3 * (sqrt 6 * 1))) with (sqrt 2 * sqrt 3 * sqrt 6) by ring. rewrite <- sqrt_mult by lra. replace (2 * 3) with 6 by ring. rewrite sqrt_sqrt by lra. cbn. lra.
Qed.
(** x^(-1/2) + x^(-3/2), the case of C51: 5/8 becomes 2. *)
Theorem C67_numer_denom_refuted : exists e r rho, simplify_numer_denom G1 idE e = Some r /\ eval I0 rho e = Some (5 / 8) /\ eval I0 rho r = Some 2.
Proof.
  destruct C51_root_refuted as (e & n & d & rho & HG & E & Ve & Vn & Vd). exists e, (gmul G1 n (gpow G1 d minus_one)), rho. split; [unfold simplify_numer_denom; now rewrite E|]. split; auto.
  replace 2 with (32 * / 16) by lra. apply (gmul_val _ _ HG); auto. apply (gpow_val _ _ HG _ _ _ 16 (-1)); auto; [apply minus_one_v|]. apply rpow_m1'. lra.
Qed.
Print Assumptions C67_output_partial.
Print Assumptions C67_input_partial.
Print Assumptions C67_numer_denom_partial.
Print Assumptions C67_all_partial.
Print Assumptions C67_root_of_square_refuted.
Print Assumptions C67_sign_refuted.
Print Assumptions C67_numer_denom_refuted.
