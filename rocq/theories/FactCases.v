(** Computations for the concrete cases and counterexamples of FactProps.v. *)
From Coq Require Import ZArith QArith Qcanon Qreals Reals List String Bool Lia Lra Permutation.
From Verif Require Import IntUtilModel Ast ExprModel ExprSpec ExprProofs1 ExprProofs2 ExprCases FactModel FactSpec FactProofs FactProofs2.
Import ListNotations.
Local Open Scope R_scope.
Local Open Scope string_scope.
Local Open Scope list_scope.

Definition idE (e : expr) : expr := e.
Notation sfold := (fold_right (fun f (acc : option factors) => match acc with Some acc => split_bases_exponents_factor f acc | None => None end)).
Lemma split_factor_acc f acc ps : split_bases_exponents_factor f [] = Some ps ->
  exists ps', split_bases_exponents_factor f acc = Some ps' /\ Permutation ps' (ps ++ acc).
Proof.
  destruct f as [q| | | | | | | |]; cbn [split_bases_exponents_factor app];
    try (intros [= <-]; eexists; split; [reflexivity|]; apply Permutation_app_comm).
  destruct (q_is_int q); [|intros [= <-]; eexists; split; [reflexivity|]; apply Permutation_app_comm].
  destruct (partial_factor (q_int q) ([], [])) as [[bs es]| |]; try discriminate. intros [= <-]. eexists. split; [reflexivity|].
  rewrite <- app_assoc. apply Permutation_app_head, Permutation_app_comm.
Qed.
Lemma split_factor_acc_inv f acc ps' : split_bases_exponents_factor f acc = Some ps' -> exists ps, split_bases_exponents_factor f [] = Some ps.
Proof.
  destruct f as [q| | | | | | | |]; cbn [split_bases_exponents_factor]; eauto.
  destruct (q_is_int q); eauto. destruct (partial_factor (q_int q) ([], [])) as [[bs es]| |]; try discriminate. eauto.
Qed.
Lemma sfold_acc l acc ps : sfold (Some []) l = Some ps -> exists ps', sfold (Some acc) l = Some ps' /\ Permutation ps' (ps ++ acc).
Proof.
  revert ps. induction l as [|f l IH]; intros ps H; cbn [fold_right] in *.
  - injection H as <-. exists acc. auto.
  - destruct (sfold (Some []) l) as [q|]; [|discriminate]. destruct (IH q eq_refl) as (q' & -> & Hq).
    destruct (split_factor_acc_inv _ _ _ H) as [p0 Hp]. destruct (split_factor_acc f q p0 Hp) as (r1 & R1 & S1), (split_factor_acc f q' p0 Hp) as (r2 & R2 & S2).
    rewrite H in R1. injection R1 as <-. exists r2. split; [auto|]. rewrite S1, S2, Hq, app_assoc. reflexivity.
Qed.
Lemma split_as_fold e : exists l, ops_mul e = l /\ split e = sfold (Some []) l.
Proof. destruct e; eexists; split; reflexivity. Qed.
Lemma proper_perm l m : Permutation l m -> Permutation (proper l) (proper m).
Proof.
  induction 1 as [|p l m H IH|p q l|l m n H1 IH1 H2 IH2]; [constructor| | |now transitivity (proper m)]; unfold proper in *; cbn [filter];
    repeat (destruct (negb _)); auto; constructor.
Qed.
Lemma proper_app2 l m : proper (l ++ m) = proper l ++ proper m. Proof. apply filter_app. Qed.
Lemma G0_mul_pow c b e : gmul G0 c (Pow b e) = if is_num 1 c then Pow b e else Mul (ops_mul c ++ [Pow b e]).
Proof. destruct c; cbn; try reflexivity. Qed.
Lemma split_one_proper ps : split (Num 1) = Some ps -> proper ps = [] /\ forall f, In (Num 1, f) ps -> f = Num 1.
Proof. cbn -[zq]. intros [= <-]. rewrite zq_1. split; [reflexivity|]. intros f [H|[H|[]]]; congruence. Qed.
(** Products as G0 forms them: the factors of [m] are appended. *)
Lemma resplit_append c m l ms : splits_to split c l -> sfold (Some []) m = Some ms -> (forall f, In (Num 1, f) ms -> f = Num 1) ->
  splits_to split (Mul (ops_mul c ++ m)) (proper ms ++ l).
Proof.
  intros (cs & Hc & Hset & Hu) Hm Um. destruct (split_as_fold c) as (l0 & El & Es). rewrite El. rewrite Es in Hc.
  destruct (sfold_acc l0 ms cs Hc) as (ps' & E & S). exists ps'. split; [cbn [split_bases_exponents]; rewrite fold_right_app, Hm; exact E|]. split.
  - rewrite (proper_perm _ _ S), proper_app2, Hset. apply Permutation_app_comm.
  - intros g H. apply (Permutation_in _ S), in_app_or in H as [H|H]; auto.
Qed.
Lemma resplit_pow c l b e : splits_to split c l -> (b = Num 1 -> e = Num 1) -> splits_to split (gmul G0 c (Pow b e)) (proper [(b, e)] ++ l).
Proof.
  intros H U. rewrite G0_mul_pow. destruct (is_num 1 c) eqn:N.
  - apply is_num_eq in N. subst c. destruct H as (cs & Hc & Hset & Hu). destruct (split_one_proper cs Hc) as [P _]. rewrite P in Hset. apply Permutation_nil in Hset. subst l.
    exists [(b, e)]. split; [reflexivity|]. split; [now rewrite app_nil_r|]. intros f [X|[]]. injection X as -> ->. auto.
  - apply (resplit_append c [Pow b e] l [(b, e)]); auto. intros f [X|[]]. injection X as -> ->. auto.
Qed.
Lemma G0_resplits ts : resplits split G0 ts.
Proof.
  split.
  - intros c l t ps b f e H _ _ _ B _. pose proof (resplit_pow c l b e H (fun X => False_ind _ (B X))) as R. unfold proper in R. cbn [filter fst] in R.
    assert (Y : is_num 1 b = false) by (apply not_true_iff_false; rewrite is_num_eq; auto). rewrite Y in R. exact R.
  - intros c l H. exact (resplit_pow c l (Num 1) (Num 1) H (fun _ => eq_refl)).
Qed.

(** x^2 y + 3 x z + x *)
Definition fx_ts : list expr := [Mul [Pow (Sym "x") (Num (zq 2)); Sym "y"]; Mul [Num (zq 3); Sym "x"; Sym "z"]; Sym "x"].
Lemma fx_distinct : Forall (distinct_bases split) fx_ts.
Proof.
  constructor; [|constructor; [|constructor; [|constructor]]].
  - eexists. split; [reflexivity|]. split; [cbn; constructor; [|constructor; [|constructor]]; cbn; intuition congruence|]. intros f [H|[H|[]]]; discriminate.
  - eexists. split; [reflexivity|]. split.
    + cbn -[zq]. replace (Qc_eqb (zq 3) 1) with false by reflexivity. cbn -[zq]. constructor; [|constructor; [|constructor; [|constructor]]]; cbn -[zq]; intuition congruence.
    + intros f [H|[H|[H|[]]]]; discriminate H.
  - eexists. split; [reflexivity|]. split; [cbn; constructor; [|constructor]; cbn; tauto|]. intros f [H|[]]; discriminate.
Qed.
Lemma fx_factorizable : factorizable split G0 idE (Add fx_ts).
Proof. apply (FzSum split G0 idE (Add fx_ts) fx_ts); [reflexivity|exact fx_distinct|apply G0_resplits]. Qed.
Definition fx_common : expr := Pow (Sym "x") (Num 1).
Lemma fx_result : exists rest, factorize_no_ratio_ex G0 idE 1 (Add fx_ts) = Some (fx_common, rest).
Proof.
  eexists. cbn -[zq]. cbv. reflexivity.
Qed.
(** 2 2^n a + 2 2^n b: the base 2 appears twice in each term. *)
Definition fb_e : expr := Add [Mul [Num (zq 2); Pow (Num (zq 2)) (Sym "n"); Sym "a"]; Mul [Num (zq 2); Pow (Num (zq 2)) (Sym "n"); Sym "b"]].
Definition fb_e1 : expr := Add [Num (zq 1); Mul [Num (zq (-1)); Sym "n"]].
Definition fb_common : expr := Pow (Num (zq 2)) (Sym "n").
Definition fb_rest : expr := Add [Mul [Pow (Sym "b") (Num 1); Pow (Num (zq 2)) fb_e1]; Mul [Pow (Sym "a") (Num 1); Pow (Num (zq 2)) fb_e1]].
Lemma fact_wrong : factorize_no_ratio_ex G0 idE 1 fb_e = Some (fb_common, fb_rest) /\
  eval I0 (fun _ => 1) fb_e = Some 8 /\ eval I0 (fun _ => 1) (Mul [fb_common; fb_rest]) = Some 4.
Proof.
  assert (P : eval I0 (fun _ => 1) (Pow (Num (zq 2)) (Sym "n")) = Some 2).
  { cbn [eval obind]. rewrite rv_zq. change 1 with (INR 1). rewrite rpow_nat. f_equal. cbn. lra. }
  split; [|split].
  - vm_compute. repeat f_equal; apply Qc_is_canon; reflexivity.
  - unfold fb_e. rewrite eval_Add2, !eval_Mul, !eprod_cons, eprod_nil, P, !eval_num, rv_zq. cbn. f_equal. lra.
  - assert (Q : eval I0 (fun _ => 1) (Pow (Num (zq 2)) fb_e1) = Some 1).
    { cbn [eval obind fold_right olift2 fb_e1]. rewrite !rv_zq. cbn [olift2 obind]. replace (1 + (-1 * (1 * 1) + 0)) with (INR 0) by (cbn; lra). rewrite rpow_nat. reflexivity. }
    assert (R : forall s, eval I0 (fun _ => 1) (Pow (Sym s) (Num 1)) = Some 1).
    { intros s. cbn [eval obind]. rewrite rv_1. change 1 with (INR 1) at 2. rewrite rpow_nat. f_equal. cbn. lra. }
    unfold fb_rest, fb_common. rewrite eval_Mul2, P, eval_Add2, !eval_Mul2, Q, !R. cbn. f_equal. lra.
Qed.
