(** Computations for the concrete cases and counterexamples of ExprProps.v. *)
From Coq Require Import ZArith QArith Qcanon Qreals Reals List String Bool Lia Lra.
From Verif Require Import Ast ExprModel ExprSpec ExprProofs1 ExprProofs2 ExprProofs3.
Import ListNotations.
Local Open Scope R_scope.

Lemma rv_Q p q : rv (Q2Qc (p # q)) = IZR p / IZR (Z.pos q).
Proof. unfold rv, Q2Qc, this. rewrite (Qeq_eqR _ _ (Qred_correct _)). reflexivity. Qed.
Lemma rpow_num a q n : rv q = INR n -> rpow a (rv q) = Some (a ^ n).
Proof. intros ->. apply rpow_nat. Qed.
(** Equality of computed expressions. *)
Ltac expr_case := try reflexivity; try apply (f_equal Ret); apply expr_eqb_eq; vm_compute; reflexivity.
Ltac qnum := rewrite ?rv_0, ?rv_1, ?rv_zq, ?rv_Q, ?rv_add, ?rv_mul, ?rv_opp, ?rv_sub in *.

Lemma floor_of v z : IZR z <= v < IZR z + 1 -> Int_part v = z.
Proof. apply floor_unique. Qed.
Lemma mod_number_wrong : mod_eval (Num (Q2Qc (5 # 2))) (Num (zq 2)) = Ret (Num 0) /\ rmod (rv (Q2Qc (5 # 2))) (rv (zq 2)) = / 2.
Proof. split; [reflexivity|]. unfold rmod. qnum. rewrite (floor_of _ 1); lra. Qed.
Lemma mod_shift_wrong : mod_eval (Add [Sym "n"; Num (Q2Qc (1 # 2))]) (Num (zq 3)) = Ret (Fun FMod [Sym "n"; Num (zq 3)]) /\
  eval I0 (fun _ => 1) (Fun FMod [Add [Sym "n"; Num (Q2Qc (1 # 2))]; Num (zq 3)]) = Some (3 / 2) /\
  eval I0 (fun _ => 1) (Fun FMod [Sym "n"; Num (zq 3)]) = Some 1.
Proof.
  split; [reflexivity|]. split; cbn [eval]; rewrite !omap_cons.
  - rewrite eval_Add2, !eval_num. cbn [eval olift2 omap obind]. unfold I0, ifun. qnum. destruct (Req_EM_T 3 0); [lra|]. f_equal.
    unfold rmod. rewrite (floor_of _ 0); lra.
  - rewrite eval_num. cbn [eval omap obind]. unfold I0, ifun. qnum. destruct (Req_EM_T 3 0); [lra|]. f_equal.
    unfold rmod. rewrite (floor_of _ 0); lra.
Qed.
Lemma sum_wrong : sum_eval G0 "k" (Num (zq 5)) (Sym "n") (Num 1) = Ret (Add [Sym "n"; Num (zq (-5)); Num 1]) /\
  eval I0 (fun _ => 2) (SumE "k" (Num (zq 5)) (Sym "n") (Num 1)) = Some 0 /\
  eval I0 (fun _ => 2) (Add [Sym "n"; Num (zq (-5)); Num 1]) = Some (-2).
Proof.
  split; [vm_compute; do 3 f_equal; repeat f_equal; apply Qc_is_canon; reflexivity|]. split.
  - apply (eval_sum_intro _ _ _ _ _ _ _ 5 2); cbn; auto. now qnum.
  - cbn. qnum. f_equal. lra.
Qed.

(** prod(k, 1, n+1, 2 k) at n = 1: the factor 2 is taken out n+1 times and again in the new factors. *)
Definition pw_up : expr := Add [Sym "n"; Num (zq 1)].
Definition pw_e : expr := Mul [Num (zq 2); Sym "k"].
Definition pw_res : expr := match prod_eval G0 "k" (Num (zq 1)) pw_up pw_e with Ret r => r | Throw => Num 0 end.
Lemma prod_wrong : prod_eval G0 "k" (Num (zq 1)) pw_up pw_e = Ret pw_res /\
  eval I0 (fun _ => 1) (ProdE "k" (Num (zq 1)) pw_up pw_e) = Some 8 /\ eval I0 (fun _ => 1) pw_res = Some 16.
Proof.
  split; [reflexivity|]. split.
  - apply (eval_prod_intro _ _ _ _ _ _ _ 1 2); [cbn; now qnum|cbn; qnum; f_equal; lra|].
    change (Z.to_nat (2 - 1 + 1)) with 2%nat. cbn. qnum. f_equal. lra.
  - assert (E : pw_res = Mul [Pow (Num (zq 2)) (Add [Sym "n"; Num (zq 1); Num (zq (-1)); Num (zq 1)]); ProdE "k" (Num (zq 1)) (Sym "n") (Sym "k");
       Add [Sym "n"; Num (zq 1)]; Num (zq 2)]).
    { vm_compute. repeat f_equal; apply Qc_is_canon; reflexivity. }
    rewrite E, eval_Mul, !eprod_cons, eprod_nil.
    assert (E1 : eval I0 (fun _ => 1) (Pow (Num (zq 2)) (Add [Sym "n"; Num (zq 1); Num (zq (-1)); Num (zq 1)])) = Some 4).
    { cbn [eval fold_right olift2 obind]. qnum. replace (1 + (1 + (-1 + (1 + 0)))) with (INR 2) by (cbn; lra). rewrite rpow_nat. f_equal. cbn. lra. }
    assert (E2 : eval I0 (fun _ => 1) (ProdE "k" (Num (zq 1)) (Sym "n") (Sym "k")) = Some 1).
    { apply (eval_prod_intro _ _ _ _ _ _ _ 1 1); [cbn; now qnum|reflexivity|]. change (Z.to_nat (1 - 1 + 1)) with 1%nat. cbn. f_equal. lra. }
    rewrite E1, E2. cbn. qnum. f_equal. lra.
Qed.
Lemma max_wrong : max_eval G0 (Num (Q2Qc (1 # 10000000))) (Num 0) = Num 0.
Proof. vm_compute. f_equal. Qed.
Lemma min_wrong : min_eval G0 (Num (Q2Qc (1 # 10000000))) (Num 0) = Num (Q2Qc (1 # 10000000)).
Proof. vm_compute. f_equal. Qed.
Lemma ln2_not_integer : ~ is_integer (ln 2).
Proof.
  intros [z E]. assert (0 < ln 2 < 1).
  { split; [apply ln_lt_2 + (rewrite <- ln_1; apply ln_increasing; lra)|].
    apply exp_lt_inv. rewrite exp_ln by lra. pose proof exp_ineq1 1. lra. }
  rewrite E in H. destruct H as [H1 H2]. apply lt_IZR in H1, H2. lia.
Qed.

(** sum(k, 1, n, x k) with x := k. *)
Definition cap_e : expr := SumE "k" (Num (zq 1)) (Sym "n") (Mul [Sym "x"; Sym "k"]).
Definition cap_res : expr := substitute G0 (Sym "x") (Sym "k") cap_e.
Lemma capture_wrong : eval I0 (fun _ => 2) (Sym "k") = Some 2 /\
  eval I0 (upd (fun _ => 2) "x" 2) cap_e = Some 6 /\ eval I0 (fun _ => 2) cap_res = Some 5.
Proof.
  split; [reflexivity|]. split.
  - apply (eval_sum_intro _ _ _ _ _ _ _ 1 2); [cbn; now qnum|reflexivity|].
    change (Z.to_nat (2 - 1 + 1)) with 2%nat. cbn. f_equal. lra.
  - apply (eval_sum_intro _ _ _ _ _ _ _ 1 2); [cbn; now qnum|reflexivity|].
    change (Z.to_nat (2 - 1 + 1)) with 2%nat. cbn. f_equal. lra.
Qed.
(** (a (b + c) + d) (e + f) *)
Definition dist_e : expr := Mul [Add [Mul [Sym "a"; Add [Sym "b"; Sym "c"]]; Sym "d"]; Add [Sym "e"; Sym "f"]].
Lemma dist_wrong : ~ distributed (distribute_mul_over_add G0 dist_e).
Proof.
  cbn. intros H. apply Forall_forall with (x := Mul [Sym "f"; Sym "a"; Add [Sym "b"; Sym "c"]]) in H; [|cbn; tauto].
  inversion H as [|? ? _ H1]; subst. inversion H1 as [|? ? _ H2]; subst. inversion H2; subst. auto.
Qed.
Lemma rational_wrong : is_rational_scalar_representation "x" (Pow (Num (zq 2)) (Sym "x")) = true /\ has "x" (Pow (Num (zq 2)) (Sym "x")) = true.
Proof. split; reflexivity. Qed.
Lemma integer_wrong : is_integer_scalar_representation "x" (Fun FLog [Sym "a"]) = true /\
  eval I0 (fun _ => 2) (Fun FLog [Sym "a"]) = Some (ln 2) /\ ~ is_integer (ln 2).
Proof.
  split; [reflexivity|]. split; [|apply ln2_not_integer]. cbn. destruct (Rlt_dec 0 2); [auto|lra].
Qed.
Lemma integer_depends_wrong : is_integer_scalar_representation "x" (Fun FFact [Sym "x"]) = true /\ has "x" (Fun FFact [Sym "x"]) = true.
Proof. split; reflexivity. Qed.

Lemma zq_int a : q_is_int (zq a) = true /\ q_int (zq a) = a.
Proof.
  assert (H : q_is_int (zq a) = true). { unfold q_is_int, zq, Q2Qc, this. rewrite <- (Qred_identity (inject_Z a)); [|cbn; apply Z.gcd_1_r]. unfold Qred. cbn. destruct (Z.ggcd a 1) as [g [aa bb]] eqn:E. pose proof (Z.ggcd_correct_divisors a 1) as C. rewrite E in C.
    pose proof (Z.ggcd_gcd a 1) as Gc. rewrite E in Gc. cbn in Gc. rewrite Z.gcd_1_r in Gc. subst g. destruct C as [C1 C2]. replace bb with 1%Z by lia. replace aa with a by lia.
    cbn. destruct (Z.ggcd a 1) as [g2 [a2 b2]] eqn:E2. injection E as -> -> ->. replace bb with 1%Z by lia. reflexivity. }
  split; auto. apply eq_IZR. rewrite <- (proj1 (q_is_int_spec _) H). apply rv_zq.
Qed.
Theorem mod_eval_zq a b r : mod_eval (Num (zq a)) (Num (zq b)) = Ret r ->
  IZR b <> 0 /\ exists m, r = Num m /\ rv m = rmod (IZR a) (IZR b).
Proof. intros H. rewrite <- (rv_zq a), <- (rv_zq b). apply mod_eval_integers in H; auto; apply zq_int. Qed.
Theorem mod_eval_symbolic_zq I : std_interp I -> forall s (h : Z) k x r, x = Add [Sym s; Num (zq h)] \/ x = Add [Num (zq h); Sym s] ->
  mod_eval x (Num k) = Ret r -> refines I (Fun FMod [x; Num k]) r.
Proof. intros SI s h k x r Hx. eapply mod_eval_symbolic; eauto. apply zq_int. Qed.
Theorem mod_rationals_refuted :
  ~ (forall a b r, rv b <> 0 -> mod_eval (Num a) (Num b) = Ret (Num r) -> rv r = rmod (rv a) (rv b)).
Proof.
  intros H. destruct mod_number_wrong as [E1 E2]. apply H in E1; [|qnum; lra]. rewrite E2, rv_0 in E1. lra.
Qed.
Theorem mod_shift_refuted :
  ~ (forall s h k r, mod_eval (Add [Sym s; Num h]) (Num k) = Ret r -> refines I0 (Fun FMod [Add [Sym s; Num h]; Num k]) r).
Proof.
  intros H. destruct mod_shift_wrong as (E1 & E2 & E3). apply H in E1. apply E1 in E2. rewrite E3 in E2. injection E2. lra.
Qed.
Theorem sum_eval_throws G k l u e : sum_eval G k (Num l) (Num u) e <> Throw <-> (is_integer (rv l) /\ is_integer (rv u)).
Proof.
  assert (A : forall q, q_is_int q = true <-> is_integer (rv q)).
  { intros q. split; [intros H; exists (q_int q); now apply q_is_int_spec|]. intros [z E]. rewrite <- rv_zq in E. apply rv_inj in E. subst. apply zq_int. }
  rewrite <- !A. cbn [sum_eval]. destruct (q_is_int l); cbn [negb]; [|split; [congruence|intuition discriminate]].
  destruct (q_is_int u); cbn [negb]; [|split; [congruence|intuition discriminate]].
  split; auto. intros _. destruct (q_lt u l); [discriminate|]. destruct (Qc_eqb l u); discriminate.
Qed.
Theorem sum_eval_refuted :
  ~ (forall k lo up e r rho v, sum_eval G0 k lo up e = Ret r ->
     eval I0 rho (SumE k lo up e) = Some v -> eval I0 rho r = Some v).
Proof. intros H. destruct sum_wrong as (E1 & E2 & E3). rewrite (H _ _ _ _ _ _ _ E1 E2) in E3. injection E3. lra. Qed.
Lemma sum_cases :
  (exists r, sum_eval G0 "k" (Num (zq 2)) (Num (zq 4)) (Pow (Sym "k") (Num (zq 2))) = Ret r /\ eval I0 (fun _ => 0) r = Some 29) /\
  sum_eval G0 "k" (Num (zq 1)) (Sym "n") (Mul [Num (zq 3); Sym "a"; Sym "k"])
   = Ret (Mul [Sym "a"; Num (zq 3); SumE "k" (Num (zq 1)) (Sym "n") (Sym "k")]).
Proof.
  split; [|vm_compute; repeat f_equal; apply Qc_is_canon; reflexivity].
  eexists. split; [reflexivity|]. apply (sum_eval_numeric I0 G0 (G0_ok I0) "k" (zq 2) (zq 4) (Pow (Sym "k") (Num (zq 2)))); [cbn; auto|reflexivity|].
  apply (eval_sum_intro _ _ _ _ _ _ _ 2 4); [rewrite eval_num; now qnum|rewrite eval_num; now qnum|].
  change (Z.to_nat (4 - 2 + 1)) with 3%nat. cbn [eval osum obind]. rewrite !(rpow_num _ _ 2) by (rewrite rv_zq; cbn; lra).
  cbn. unfold upd. cbn. f_equal. lra.
Qed.
Theorem prod_eval_refuted :
  ~ (forall k lo up e r rho a b v, prod_eval G0 k lo up e = Ret r ->
     eval I0 rho lo = Some (IZR a) -> eval I0 rho up = Some (IZR b) -> (a <= b)%Z ->
     eval I0 rho (ProdE k lo up e) = Some v -> eval I0 rho r = Some v).
Proof.
  intros H. destruct prod_wrong as (E1 & E2 & E3).
  assert (X : eval I0 (fun _ => 1) pw_res = Some 8).
  { apply (H _ _ _ _ _ (fun _ => 1) 1%Z 2%Z 8 E1); auto; [| |lia].
    - rewrite eval_num. now qnum.
    - unfold pw_up. rewrite eval_Add2, eval_num. cbn. qnum. f_equal. }
  rewrite E3 in X. injection X. lra.
Qed.
Theorem max_min_refuted :
  ~ (forall p q, exists r, max_eval G0 (Num p) (Num q) = Num r /\ rv r = Rmax (rv p) (rv q)) /\
  ~ (forall p q, exists r, min_eval G0 (Num p) (Num q) = Num r /\ rv r = Rmin (rv p) (rv q)).
Proof.
  split; intros H; destruct (H (Q2Qc (1 # 10000000)) 0%Qc) as (r & E1 & E2).
  - rewrite max_wrong in E1. injection E1 as E1. rewrite <- E1, !rv_Q, Rmax_left in E2; lra.
  - rewrite min_wrong in E1. injection E1 as E1. rewrite <- E1, !rv_Q, Rmin_right in E2; lra.
Qed.
Theorem max_symbol_refuted :
  ~ (forall rho a b x y, eval I0 rho a = Some x -> eval I0 rho b = Some y -> ~ (0 < x - y <= / 1000000) ->
     eval I0 rho (max_eval G0 a b) = Some (Rmax x y)).
Proof.
  intros H. specialize (H (fun _ => -1) (Sym "n") (Num 0) (-1) 0). rewrite eval_num, rv_0 in H. specialize (H eq_refl eq_refl).
  assert (E : max_eval G0 (Sym "n") (Num 0) = Sym "n") by reflexivity. rewrite E in H. cbn in H. rewrite Rmax_right in H by lra.
  assert (X : Some (-1) = Some 0) by (apply H; lra). injection X. lra.
Qed.
Theorem integer_refuted :
  ~ (forall x e, is_integer_scalar_representation x e = true ->
     forall rho v, (forall s, is_integer (rho s)) -> eval I0 rho e = Some v -> is_integer v) /\
  ~ (forall x e, is_integer_scalar_representation x e = true -> has x e = false).
Proof.
  split; intros H.
  - destruct integer_wrong as (E1 & E2 & E3). apply E3. eapply H; eauto. intros s. exists 2%Z. auto.
  - destruct integer_depends_wrong as [E1 E2]. apply H in E1. congruence.
Qed.
Theorem rational_refuted : ~ (forall x e, is_rational_scalar_representation x e = true -> has x e = false).
Proof. intros H. destruct rational_wrong as [E1 E2]. apply H in E1. congruence. Qed.
Theorem capture_refuted :
  ~ (forall s r e rho v w, eval I0 rho r = Some w -> eval I0 (upd rho s w) e = Some v ->
     eval I0 rho (substitute G0 (Sym s) r e) = Some v).
Proof. intros H. destruct capture_wrong as (E1 & E2 & E3). specialize (H _ _ _ _ _ _ E1 E2). fold cap_res in H. rewrite E3 in H. injection H. lra. Qed.
Theorem distribute_refuted : ~ (forall e, distributed (distribute_mul_over_add G0 e)).
Proof. intros H. exact (dist_wrong (H _)). Qed.
