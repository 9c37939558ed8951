(** C65: the rules for powers. *)
From Coq Require Import ZArith QArith Qcanon Reals List String Bool Lia Lra.
From Verif Require Import Ast ExprModel ExprSpec ExprProofs1 ExprProofs2 ExprProofs3 PowModel PowSpec PowProofs.
Import ListNotations.
Local Open Scope list_scope.
Local Open Scope R_scope.

(** A power is simplified to an expression of the same value if its innermost base (or each factor of it) is positive, or is not 0 and the exponents
    are integers. Missing: other real bases (see the refutations) and complex numbers. *)
Theorem C65_value_partial : forall I G rho, ginac_ok I G -> keeps_integers I G -> forall e input v,
  simplifiable I rho e -> eval I rho e = Some v -> eval I rho (simplify_powers G e input) = Some v.
Proof. exact simplify_powers_ok. Qed.
(** Nested powers become one power. *)
Lemma innermost_no_power e : match innermost e with Pow _ _ => False | _ => True end.
Proof. induction e; cbn; auto. Qed.
Lemma real_base_innermost G e : forall st, fst (real_base G e st) = innermost e.
Proof. induction e; intros st; cbn; auto. Qed.
Theorem C65_one_power : forall G e, match innermost e with Mul _ | Num _ => False | _ => True end ->
  exists b, simplify_powers G e false = gpow G (innermost e) b /\ match innermost e with Pow _ _ => False | _ => True end.
Proof.
  intros G e H. unfold simplify_powers. pose proof (real_base_innermost G e (1%Qc, Num 1)) as B. destruct (real_base G e (1%Qc, Num 1)) as [base [num rest]]. cbn in B. subst base.
  exists (gmul G (Num num) rest). split; [|apply innermost_no_power]. destruct (innermost e); try contradiction; reflexivity.
Qed.

(** * Examples *)
Lemma keeps_integers_G0 I : keeps_integers I G0.
Proof.
  intros rho a b Ha Hb. cbn [G0 gmul].
  assert (K : Forall (integer_valued I rho) (exponent_factors (if is_num 1%Qc a then b else if is_num 1%Qc b then a else Mul (ops_mul a ++ ops_mul b)))).
  { destruct (is_num 1%Qc a); [exact Hb|]. destruct (is_num 1%Qc b); [exact Ha|]. cbn [exponent_factors]. rewrite flat_map_app. apply Forall_app.
    assert (X : forall c, flat_map exponent_factors (ops_mul c) = exponent_factors c). { intros c. destruct c; cbn [ops_mul flat_map exponent_factors]; rewrite ?app_nil_r; reflexivity. }
    rewrite !X. now split. }
  destruct a, b; auto. cbn [exponent_factors] in *. inversion_clear Ha as [|? ? [x Hx] _]. inversion_clear Hb as [|? ? [y Hy] _]. constructor; [|constructor].
  exists (x * y)%Z. cbn [eval] in *. rewrite rv_mul, mult_IZR. congruence.
Qed.
(** ((a^n)^2)^(1/3) for a positive a is (a^(2/3))^n. *)
Definition nested : expr := Pow (Pow (Pow (Sym "a") (Sym "n")) (Num (zq 2))) (Num (Q2Qc (1 # 3))).
Definition nested_out : expr := Pow (Pow (Sym "a") (Num (Q2Qc (2 # 3)))) (Sym "n").
Example C65_value_used : forall I rho, 0 < rho "a"%string -> expr_eqb (simplify_powers G0 nested true) nested_out = true /\ simplifiable I rho nested /\
  forall v, eval I rho nested = Some v -> eval I rho (simplify_powers G0 nested true) = Some v.
Proof.
  intros I rho H. assert (S : simplifiable I rho nested). { unfold simplifiable. cbn [nested innermost]. exists (rho "a"%string). split; [reflexivity|now left]. }
  split; [vm_compute; reflexivity|]. split; [exact S|]. intros v. exact (C65_value_partial I G0 rho (G0_ok I) (keeps_integers_G0 I) nested true v S).
Qed.
(** (-2 b^3)^(4 n) with integers n and b = -5: the factors are raised one by one, -2 to 4 n and b to 12 n. *)
Definition product : expr := Pow (Mul [Num (zq (-2)); Pow (Sym "b") (Num (zq 3))]) (Mul [Num (zq 4); Sym "n"]).
Definition product_out : expr := Mul [Pow (Sym "b") (Mul [Num (zq 12); Sym "n"]); Pow (Pow (Num (zq (-2))) (Num (zq 4))) (Sym "n")].
Example C65_product_used : forall I rho k, rho "b"%string = -5 -> rho "n"%string = IZR k -> expr_eqb (simplify_powers G0 product false) product_out = true /\ simplifiable I rho product /\
  forall v, eval I rho product = Some v -> eval I rho (simplify_powers G0 product false) = Some v.
Proof.
  intros I rho k Hb Hn. assert (S : simplifiable I rho product).
  { unfold simplifiable, product. cbn [innermost]. assert (N : integer_valued I rho (Sym "n")) by (exists k; cbn [eval]; now rewrite Hn).
    assert (Z : forall z, integer_valued I rho (Num (zq z))). { intros z. exists z. cbn [eval]. now rewrite rv_zq. }
    constructor; [|constructor; [|constructor]].
    - exists (-2). cbn [innermost exponents exponent_factors flat_map app eval]. rewrite rv_zq. split; [reflexivity|]. right. split; [lra|]. repeat (constructor; auto).
    - exists (-5). cbn [innermost exponents exponent_factors flat_map app eval]. rewrite Hb. split; [reflexivity|]. right. split; [lra|]. repeat (constructor; auto). }
  split; [vm_compute; reflexivity|]. split; [exact S|]. intros v. exact (C65_value_partial I G0 rho (G0_ok I) (keeps_integers_G0 I) product false v S).
Qed.

(** * Bases that are not positive *)
Lemma rpow_half u : 0 < u -> rpow u (1 / 2) = Some (sqrt u).
Proof.
  intros H. unfold rpow. destruct (as_int (1 / 2)) as [z|] eqn:E.
  - apply as_int_spec in E. exfalso. assert (F : IZR (2 * z) = IZR 1) by (rewrite mult_IZR; lra). apply eq_IZR in F. lia.
  - destruct (Rlt_dec 0 u) as [|N]; [|lra]. f_equal. replace (1 / 2) with (/ 2) by lra. now apply Rpower_sqrt.
Qed.
Lemma rv_half : rv (Q2Qc (1 # 2)) = 1 / 2.
Proof. unfold rv. assert (E : Q2Qc (1 # 2) = (1 # 2)%Q :> Q) by reflexivity. rewrite E. unfold Q2R. cbn. lra. Qed.
(** ((n - 5)^2)^(1/2) becomes n - 5: at n = 2 the values are 3 and -3. *)
Definition root_of_square : expr := Pow (Pow (Add [Sym "n"; Num (zq (-5))]) (Num (zq 2))) (Num (Q2Qc (1 # 2))).
Theorem C65_root_refuted : forall I rho input, rho "n"%string = 2 ->
  eval I rho root_of_square = Some 3 /\ eval I rho (simplify_powers G0 root_of_square input) = Some (-3).
Proof.
  intros I rho input H. assert (B : eval I rho (Add [Sym "n"; Num (zq (-5))]) = Some (-3)). { rewrite eval_Add2. cbn [eval]. rewrite rv_zq, H. cbn [olift2]. f_equal. lra. }
  split.
  - unfold root_of_square. revert B. generalize (Add [Sym "n"; Num (zq (-5))]). intros b B. cbn [eval]. rewrite B. cbn [obind]. rewrite rv_zq, rv_half. change 2 with (INR 2) at 1. rewrite rpow_nat.
    cbn [obind]. replace ((-3) ^ 2) with (3 * 3) by ring. rewrite rpow_half by lra. f_equal. apply sqrt_square. lra.
  - assert (E : simplify_powers G0 root_of_square input = Pow (Add [Sym "n"; Num (zq (-5))]) (Num ((1 * Q2Qc (1 # 2)) * zq 2 * 1)%Qc)) by (destruct input; reflexivity).
    rewrite E. revert B. generalize (Add [Sym "n"; Num (zq (-5))]). intros b B. cbn [eval]. rewrite B. cbn [obind]. rewrite !rv_mul, rv_zq, rv_half, rv_1.
    replace (1 * (1 / 2) * 2 * 1) with (INR 1) by (cbn; lra). rewrite rpow_nat. f_equal. ring.
Qed.
(** (a b)^(1/2) becomes a^(1/2) b^(1/2): at a = b = -1 the value 1 is lost. *)
Definition root_of_product : expr := Pow (Mul [Sym "a"; Sym "b"]) (Num (Q2Qc (1 # 2))).
Theorem C65_product_refuted : forall I rho input, rho "a"%string = -1 -> rho "b"%string = -1 ->
  eval I rho root_of_product = Some 1 /\ eval I rho (simplify_powers G0 root_of_product input) = None.
Proof.
  intros I rho input Ha Hb. split.
  - assert (B : eval I rho (Mul [Sym "a"; Sym "b"]) = Some 1). { rewrite eval_Mul2. cbn [eval]. rewrite Ha, Hb. cbn [olift2]. f_equal. lra. }
    unfold root_of_product. revert B. generalize (Mul [Sym "a"; Sym "b"]). intros b B. cbn [eval]. rewrite B. cbn [obind]. rewrite rv_half, rpow_half by lra. f_equal. apply sqrt_1.
  - assert (E : simplify_powers G0 root_of_product input = Mul [Pow (Sym "b") (Num (1 * Q2Qc (1 # 2) * 1)%Qc); Pow (Sym "a") (Num (1 * Q2Qc (1 # 2) * 1)%Qc)]) by (destruct input; reflexivity).
    rewrite E, eval_Mul2. cbn [eval]. rewrite Ha, Hb, !rv_mul, rv_half, rv_1. cbn [obind].
    assert (F : rpow (-1) (1 * (1 / 2) * 1) = None).
    { rewrite Rmult_1_l, Rmult_1_r. unfold rpow. destruct (as_int (1 / 2)) as [z|] eqn:Ez.
      - apply as_int_spec in Ez. exfalso. assert (F : IZR (2 * z) = IZR 1) by (rewrite mult_IZR; lra). apply eq_IZR in F. lia.
      - destruct (Rlt_dec 0 (-1)); [lra|]. destruct (Req_EM_T (-1) 0); [lra|reflexivity]. }
    rewrite F. reflexivity.
Qed.
Print Assumptions C65_value_partial.
Print Assumptions C65_one_power.
Print Assumptions C65_root_refuted.
Print Assumptions C65_product_refuted.
