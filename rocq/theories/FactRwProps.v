(** C55: rewriting of factorials, exponentials and binomials (src/simplify.cc:1034-1209). *)
From Coq Require Import ZArith QArith Qcanon Reals List String Bool Lia Lra.
From Verif Require Import Ast ExprModel ExprSpec ExprProofs1 ExprProofs2 DecompSpec DecompCases VerifyCases FactRwModel FactRwSpec FactRwProofs FactRwProofs2.
Import ListNotations.
Local Open Scope list_scope.
Local Open Scope R_scope.

(** (a + z)! rewritten over a!. Missing: z > 0 where a + z is a natural number and a is not. *)
Theorem C55_decompose_factorial_partial : forall (I : interp) (G : ginac), ginac_ok I G -> factorial_std I ->
  forall rho l v, factorial_fine I rho l -> eval I rho (Fun FFact [Add l]) = Some v -> eval I rho (decompose_factorial G (Add l)) = Some v.
Proof. exact decompose_ok. Qed.
Print Assumptions C55_decompose_factorial_partial.
(** Other factorials are left alone. *)
Theorem C55_other_factorials : forall (G : ginac) a, (forall l, a <> Add l) -> decompose_factorial G a = Fun FFact [a].
Proof. intros G a H. destruct a; try reflexivity. now destruct (H l). Qed.
Print Assumptions C55_other_factorials.
(** The whole expression. Missing: factorials as above, and even roots of powers of negative numbers. *)
Theorem C55_factorials_and_exponentials_partial : forall (I : interp) (G : ginac), ginac_ok I G -> factorial_std I ->
  forall expand, (forall e, refines I e (expand e)) ->
  forall fuel rho e r v, factorials_fine I (swapped_by G expand) rho e -> rewrite_fe G expand fuel e = Some r -> eval I rho e = Some v -> eval I rho r = Some v.
Proof. exact rewrite_fe_ok. Qed.
Print Assumptions C55_factorials_and_exponentials_partial.
(** One binomial. Missing: natural m < k (the binomial is 0) and m not an integer. *)
Theorem C55_binomial_partial : forall (I : interp) (G : ginac), ginac_ok I G -> factorial_std I -> binom_std I ->
  forall rho m k v, binomial_fine I rho m k -> eval I rho (Fun FBinom [m; k]) = Some v -> eval I rho (rewrite_binomial G m k) = Some v.
Proof. exact rewrite_binomial_ok. Qed.
Print Assumptions C55_binomial_partial.
(** The whole expression. *)
Theorem C55_binomials_partial : forall (I : interp) (G : ginac), ginac_ok I G -> factorial_std I -> binom_std I ->
  forall e rho v, binomials_fine I rho e -> eval I rho e = Some v -> eval I rho (rewrite_binomials G e) = Some v.
Proof. exact rewrite_binomials_ok. Qed.
Print Assumptions C55_binomials_partial.

(** * The functions are the usual ones *)
Lemma nat_arg v (g : nat -> R) w : match as_int v with Some z => if Z.ltb z 0 then None else Some (g (Z.to_nat z)) | None => None end = Some w <-> exists n, v = INR n /\ w = g n.
Proof.
  split.
  - destruct (as_int v) as [z|] eqn:Ez; [|discriminate]. apply as_int_spec in Ez. destruct (Z.ltb_spec z 0); [discriminate|]. intros [= <-]. exists (Z.to_nat z). split; auto. rewrite INR_IZR_INZ, Z2Nat.id by lia. exact Ez.
  - intros (n & -> & ->). rewrite INR_IZR_INZ, as_int_IZR. destruct (Z.ltb_spec (Z.of_nat n) 0); [lia|]. now rewrite Nat2Z.id.
Qed.
Lemma I0_factorial_std : factorial_std I0.
Proof. intros v w. exact (nat_arg v (fun n => INR (fact n)) w). Qed.
Lemma I0_binom_std : binom_std I0.
Proof. intros m v w. exact (nat_arg v (gbinom m) w). Qed.

(** * Cases *)
(** GiNaC's powers of numbers: (-1)^2 = 1 and (-1)^(1/2) = I, with no real value. *)
Definition m1 : expr := Num (zq (-1)).
Definition half : expr := Num (Q2Qc (1 # 2)).
Definition powi (a b : expr) : expr :=
  if expr_eqb (Pow a b) (Pow m1 (Num (zq 2))) then Num (zq 1) else if expr_eqb (Pow a b) (Pow m1 half) then Sym "I" else Pow a b.
Definition Gi : ginac := MkG (gadd G0) (gmul G0) powi Fun SumE ProdE.
Lemma half_not_int : as_int (rv (Q2Qc (1 # 2))) = None.
Proof. destruct (as_int _) as [z|] eqn:E; auto. apply as_int_spec in E. exfalso. assert (X : is_integer (rv (Q2Qc (1 # 2)))) by (exists z; auto). apply q_is_int_is in X. discriminate. Qed.
Lemma Gi_ok I : ginac_ok I Gi.
Proof.
  destruct (G0_ok I) as [A B C D E F]. constructor; auto. intros a b rho v Ev. cbn [gpow Gi]. unfold powi.
  destruct (expr_eqb (Pow a b) (Pow m1 (Num (zq 2)))) eqn:E1; [|destruct (expr_eqb (Pow a b) (Pow m1 half)) eqn:E2; auto].
  - apply expr_eqb_eq in E1. injection E1 as -> ->. unfold m1 in Ev. cbn [eval obind] in Ev |- *. rewrite !rv_zq in *. change 2 with (INR 2) in Ev. rewrite rpow_nat in Ev. rewrite <- Ev. f_equal. cbn. lra.
  - apply expr_eqb_eq in E2. injection E2 as -> ->. unfold m1, half in Ev. cbn [eval obind] in Ev. unfold rpow in Ev. rewrite half_not_int, rv_zq in Ev. destruct (Rlt_dec 0 (IZR (-1))); [lra|]. destruct (Req_EM_T (IZR (-1)) 0); [lra|discriminate].
Qed.
(** ((-1)^n)^2 (n+2)! + (n-2)! *)
Definition f_e : expr := Add [Mul [Pow (Pow m1 (Sym "n")) (Num (zq 2)); Fun FFact [Add [Sym "n"; Num (zq 2)]]]; Fun FFact [Add [Num (zq (-2)); Sym "n"]]].
Definition f_r : expr :=
  Add [Mul [Fun FFact [Sym "n"]; Pow (Sym "n") (Num (zq (-1))); Pow (Add [Sym "n"; Num (zq (-1))]) (Num (zq (-1)))];
       Mul [Fun FFact [Sym "n"]; Add [Sym "n"; Num (zq 1)]; Add [Sym "n"; Num (zq 2)]; Pow (Num (zq 1)) (Sym "n")]].
Definition env1 (n : nat) : string -> R := fun _ => INR n.
Lemma sym_not_int s : ~ integer_number (Sym s). Proof. intros [z H]. discriminate. Qed.
Lemma f_shape r : swapped_by Gi idE (Pow (Pow m1 (Sym "n")) (Num (zq 2))) r -> r = Pow (Num (zq 1)) (Sym "n").
Proof.
  intros (fuel & c & x & b & c' & b' & x' & E & Hc & Hb & Hx & ->). assert (c = m1) by congruence. assert (x = Sym "n") by congruence. assert (b = Num (zq 2)) by congruence. subst c x b. destruct fuel; [discriminate|]. change (Some m1 = Some c') in Hc. change (Some (Num (zq 2)) = Some b') in Hb. change (Some (Sym "n") = Some x') in Hx.
  assert (c' = m1) by congruence. assert (b' = Num (zq 2)) by congruence. assert (x' = Sym "n") by congruence. subst. apply expr_eqb_eq. vm_compute. reflexivity.
Qed.
Lemma f_fine n : factorials_fine I0 (swapped_by Gi idE) (env1 n) f_e.
Proof.
  apply FF_add. constructor; [|constructor; [|constructor]].
  - apply FF_mul. constructor; [|constructor; [|constructor]].
    + apply FF_pow; [|apply FF_pow; [intros c x q H; discriminate|now constructor|now constructor]|now constructor].
      intros c x q H1 H2. right. assert (Ec : c = zq (-1)) by (unfold m1 in H1; congruence). assert (Eq : q = zq 2) by congruence. subst c q. split.
      * right. rewrite !rv_zq. split; [lra|]. now exists 2%Z.
      * intros r Hr. apply f_shape in Hr as ->. apply FF_pow; [intros c q0 q H; discriminate|now constructor|now constructor].
    + apply FF_fact_sum. exists 2%Z, [Sym "n"]. split; [split; [repeat constructor; apply sym_not_int|right; exists [Sym "n"], []; auto]|]. intros _. exists n. cbn. unfold env1. f_equal. lra.
  - apply FF_fact_sum. exists (-2)%Z, [Sym "n"]. split; [split; [repeat constructor; apply sym_not_int|right; exists [], [Sym "n"]; auto]|]. intros H. discriminate.
Qed.
Example C55_factorials_case : rewrite_fe Gi idE 5 f_e = Some f_r /\
  forall n, (2 <= n)%nat -> eval I0 (env1 n) f_e = Some (INR (fact (n + 2)) + INR (fact (n - 2))) /\ eval I0 (env1 n) f_r = Some (INR (fact (n + 2)) + INR (fact (n - 2))).
Proof.
  assert (R : rewrite_fe Gi idE 5 f_e = Some f_r).
  { destruct (rewrite_fe Gi idE 5 f_e) as [r|] eqn:E; [|vm_compute in E; discriminate]. f_equal. apply expr_eqb_eq.
    assert (X : match rewrite_fe Gi idE 5 f_e with Some r => expr_eqb r f_r | None => false end = true) by (vm_compute; reflexivity). now rewrite E in X. }
  split; auto. intros n Hn.
  assert (E : eval I0 (env1 n) f_e = Some (INR (fact (n + 2)) + INR (fact (n - 2)))).
  { unfold f_e. rewrite eval_Add2, eval_Mul2.
    rewrite (eval_fact _ (Add [Sym "n"; Num (zq 2)]) (n + 2)); [|rewrite eval_Add2; cbn [eval]; rewrite rv_zq; unfold env1; cbn [olift2]; rewrite plus_INR; reflexivity].
    rewrite (eval_fact _ (Add [Num (zq (-2)); Sym "n"]) (n - 2)); [|rewrite eval_Add2; cbn [eval]; rewrite rv_zq; unfold env1; cbn [olift2]; rewrite minus_INR by lia; cbn [INR]; f_equal; lra].
    unfold m1. cbn [eval obind]. rewrite !rv_zq. unfold env1. rewrite rpow_nat. cbn [obind]. change 2 with (INR 2) at 1. rewrite rpow_nat. cbn [olift2]. f_equal. rewrite <- pow_mult, Nat.mul_comm, pow_mult. replace ((-1) ^ 2) with 1 by ring. rewrite pow1. lra. }
  split; auto. exact (rewrite_fe_ok I0 Gi (Gi_ok I0) I0_factorial_std idE (fun e rho v H => H) 5 (env1 n) f_e f_r _ (f_fine n) R E).
Qed.
(** binom(n, k) + sum(k, 0, n, binom(-3, k)) *)
Definition b_e : expr := Add [Fun FBinom [Sym "n"; Sym "k"]; SumE "k" (Num 0) (Sym "n") (Fun FBinom [Num (zq (-3)); Sym "k"])].
Definition env2 (n k : nat) : string -> R := upd (upd (fun _ => 0) "n" (INR n)) "k" (INR k).
Lemma b_fine n k : (k <= n)%nat -> binomials_fine I0 (env2 n k) b_e.
Proof.
  intros H. apply BF_add. constructor; [|constructor; [|constructor]].
  - apply BF_binom. right. left. exists n, k. auto.
  - apply BF_sum; [now constructor|now constructor|]. intros i. apply BF_binom. left. now exists 3%positive.
Qed.
Example C55_binomials_case : (forall rho n k, rho "n"%string = INR n -> rho "k"%string = INR k -> (k <= n)%nat ->
    eval I0 rho (rewrite_binomials G0 (Fun FBinom [Sym "n"; Sym "k"])) = Some (INR (fact n) / (INR (fact (n - k)) * INR (fact k)))) /\
  (forall n k v, (k <= n)%nat -> eval I0 (env2 n k) b_e = Some v -> eval I0 (env2 n k) (rewrite_binomials G0 b_e) = Some v) /\
  eval I0 (env2 1 1) b_e = Some (-1).
Proof.
  split; [|split].
  - intros rho n k Hn Hk H. apply (C55_binomials_partial I0 G0 (G0_ok I0) I0_factorial_std I0_binom_std).
    + apply BF_binom. right. left. exists n, k. cbn [eval]. rewrite Hn, Hk. auto.
    + cbn [eval omap obind]. rewrite Hn, Hk. apply I0_binom_std. exists k. split; auto. symmetry. now apply binom_fact.
  - intros n k v H E. exact (rewrite_binomials_ok I0 G0 (G0_ok I0) I0_factorial_std I0_binom_std b_e _ v (b_fine n k H) E).
  - unfold b_e. rewrite eval_Add2.
    assert (E1 : eval I0 (env2 1 1) (Fun FBinom [Sym "n"; Sym "k"]) = Some 1).
    { cbn [eval omap obind]. change (env2 1 1 "n"%string) with (INR 1). change (env2 1 1 "k"%string) with (INR 1). apply I0_binom_std. exists 1%nat. split; auto. rewrite binom_fact by lia. cbn. lra. }
    assert (E2 : eval I0 (env2 1 1) (SumE "k" (Num 0) (Sym "n") (Fun FBinom [Num (zq (-3)); Sym "k"])) = Some (-2)).
    { apply (eval_sum_intro I0 _ _ _ _ _ _ 0%Z 1%Z); [cbn [eval]; now rewrite rv_0|reflexivity|]. apply osum_some. exists (fun i => gbinom (-3) i). split.
      - intros i Hi. cbn [eval omap obind]. rewrite rv_zq. change (upd (env2 1 1) "k" (IZR (0 + Z.of_nat i)) "k"%string) with (IZR (Z.of_nat i)). rewrite <- INR_IZR_INZ. apply I0_binom_std. now exists i.
      - change (Z.to_nat (1 - 0 + 1)) with 2%nat. cbn. lra. }
    rewrite E1, E2. cbn [olift2]. f_equal. lra.
Qed.

(** * Where the rewriting loses the value *)
(** (n+1)! at n = -1 and binom(n, k) at n = 1, k = 2. *)
Theorem C55_factorials_refuted : exists rho e r, rewrite_fe G0 idE 5 e = Some r /\ eval I0 rho e = Some 1 /\ eval I0 rho r = None.
Proof.
  exists (fun _ => -1), (Fun FFact [Add [Sym "n"; Num (zq 1)]]), (gmul G0 (Fun FFact [Sym "n"]) (Add [Sym "n"; Num (zq 1)])). split; [|split].
  - assert (X : match rewrite_fe G0 idE 5 (Fun FFact [Add [Sym "n"; Num (zq 1)]]) with Some r => expr_eqb r (gmul G0 (Fun FFact [Sym "n"]) (Add [Sym "n"; Num (zq 1)])) | None => false end = true) by (vm_compute; reflexivity).
    destruct (rewrite_fe _ _ _ _); [|discriminate]. apply expr_eqb_eq in X. now rewrite X.
  - replace (Some 1) with (Some (INR (fact 0))) by (cbn; f_equal; lra). apply eval_fact. rewrite eval_Add2. cbn [eval olift2]. rewrite rv_zq. cbn. f_equal. lra.
  - cbn [gmul G0 is_num ops_mul app]. rewrite eval_Mul2. destruct (eval I0 (fun _ => -1) (Fun FFact [Sym "n"])) as [v|] eqn:E; auto. apply fact_value_inv in E as (n & E & _); [|exact I0_factorial_std]. cbn [eval] in E. injection E as E. pose proof (pos_INR n). lra.
Qed.
Print Assumptions C55_factorials_refuted.
Theorem C55_binomials_refuted : exists rho e, eval I0 rho e = Some 0 /\ eval I0 rho (rewrite_binomials G0 e) = None.
Proof.
  exists (env2 1 2), (Fun FBinom [Sym "n"; Sym "k"]). split.
  - cbn [eval omap obind]. apply I0_binom_std. exists 2%nat. split; [reflexivity|]. change (env2 1 2 "n"%string) with (INR 1). cbn. lra.
  - assert (N : eval I0 (env2 1 2) (Fun FFact [Add [Sym "n"; Mul [Num (zq (-1)); Sym "k"]]]) = None).
    { destruct (eval I0 (env2 1 2) (Fun FFact [Add [Sym "n"; Mul [Num (zq (-1)); Sym "k"]]])) as [v|] eqn:E; auto. apply fact_value_inv in E as (n & E & _); [|exact I0_factorial_std].
      rewrite eval_Add2, eval_Mul2 in E. cbn [eval olift2] in E. rewrite rv_zq in E. change (env2 1 2 "n"%string) with 1 in E. change (env2 1 2 "k"%string) with (1 + 1) in E. injection E as E. pose proof (pos_INR n). lra. }
    replace (rewrite_binomials G0 (Fun FBinom [Sym "n"; Sym "k"])) with
      (Mul [Fun FFact [Sym "n"]; Pow (Mul [Fun FFact [Add [Sym "n"; Mul [Num (zq (-1)); Sym "k"]]]; Fun FFact [Sym "k"]]) (Num (zq (-1)))]) by (apply expr_eqb_eq; vm_compute; reflexivity).
    rewrite eval_Mul2. destruct (eval I0 (env2 1 2) (Fun FFact [Sym "n"])); auto.
    match goal with |- context [eval I0 (env2 1 2) (Pow ?a ?b)] => change (eval I0 (env2 1 2) (Pow a b)) with (obind (eval I0 (env2 1 2) a) (fun x => obind (eval I0 (env2 1 2) b) (rpow x))) end.
    rewrite eval_Mul2, N. reflexivity.
Qed.
Print Assumptions C55_binomials_refuted.
(** sqrt((-1)^n) becomes I^n, which is not 1 for n = 2 unless I^2 = 1. *)
Theorem C55_exponents_refuted : exists e r, rewrite_fe Gi idE 5 e = Some r /\
  forall rho, rho "n"%string = 2 -> rho "I"%string ^ 2 <> 1 -> eval I0 rho e = Some 1 /\ eval I0 rho r <> Some 1.
Proof.
  exists (Pow (Pow m1 (Sym "n")) half), (Pow (Sym "I") (Sym "n")). split.
  - assert (X : match rewrite_fe Gi idE 5 (Pow (Pow m1 (Sym "n")) half) with Some r => expr_eqb r (Pow (Sym "I") (Sym "n")) | None => false end = true) by (vm_compute; reflexivity).
    destruct (rewrite_fe _ _ _ _); [|discriminate]. apply expr_eqb_eq in X. now rewrite X.
  - intros rho Hn HI. unfold m1, half. cbn [eval obind]. rewrite rv_zq, Hn. change 2 with (INR 2). rewrite !rpow_nat. cbn [obind]. split.
    + unfold rpow. rewrite half_not_int. replace ((-1) ^ 2) with 1 by ring. destruct (Rlt_dec 0 1); [|lra]. f_equal. unfold Rpower. rewrite ln_1, Rmult_0_r. apply exp_0.
    + congruence.
Qed.
Print Assumptions C55_exponents_refuted.
