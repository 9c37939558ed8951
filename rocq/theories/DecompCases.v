(** Computations for the concrete cases and counterexamples of DecompProps.v. *)
From Coq Require Import ZArith QArith Qcanon Qreals Reals List String Bool Lia Lra.
From Verif Require Import Ast ExprModel ExprSpec ExprProofs1 ExprProofs2 ExprProofs3 ExprCases DecompModel DecompSpec.
Import ListNotations.
Local Open Scope R_scope.
Local Open Scope string_scope.
Local Open Scope list_scope.

Definition idE (e : expr) : expr := e.
Lemma I0_fact n : ifun I0 FFact [INR n] = Some (INR (fact n)).
Proof.
  cbn [ifun I0]. rewrite INR_IZR_INZ, as_int_IZR.
  destruct (Z.ltb_spec (Z.of_nat n) 0) as [L|L]; [lia|]. now rewrite Nat2Z.id.
Qed.
Lemma I0_factorial : factorial_interp I0. Proof. exact I0_fact. Qed.
Lemma G0_num a b : gmul G0 (Num a) (Num b) = Num (a * b). Proof. reflexivity. Qed.
Lemma eval_fact rho e n : eval I0 rho e = Some (INR n) -> eval I0 rho (Fun FFact [e]) = Some (INR (fact n)).
Proof. intros H. cbn [eval]. rewrite omap_cons, H. cbn [omap obind]. apply I0_fact. Qed.
Lemma eval_Mul2 I rho a b : eval I rho (Mul [a; b]) = olift2 Rmult (eval I rho a) (eval I rho b).
Proof. rewrite eval_Mul, !eprod_cons, eprod_nil. destruct (eval I rho a), (eval I rho b); cbn; try reflexivity. f_equal. lra. Qed.

(** k! with k a symbol other than the variable: the coefficient 1! = 1 is stored for it. *)
Definition fw_e : expr := Fun FFact [Sym "k"].
Definition fw_l : list (Qc * expr) := [(0%Qc, Fun FFact [Num 1])].
Lemma fact_symbol_wrong : factorial_decomposition G0 idE fw_e "n" = Some fw_l /\
  eval I0 (fun _ => 3) fw_e = Some 6 /\ eval I0 (fun _ => 3) (fact_sum "n" fw_l) = Some 1.
Proof.
  split; [reflexivity|]. split.
  - unfold fw_e. rewrite (eval_fact _ _ 3); [f_equal; cbn; lra|cbn; f_equal; lra].
  - unfold fact_sum, fw_l. cbn [map fst snd]. rewrite eval_Add, esum_cons, esum_nil, eval_Mul2.
    rewrite (eval_fact _ (Num 1) 1); [|cbn; now rewrite rv_1].
    rewrite (eval_fact _ (Mul [Num 0; Sym "n"]) 0); [|rewrite eval_Mul2; cbn; rewrite rv_0; f_equal; lra].
    cbn. f_equal. lra.
Qed.
(** (2n)! twice: the second coefficient is dropped. *)
Definition fr_e : expr := Add [Fun FFact [Mul [Num (zq 2); Sym "n"]]; Mul [Num (zq 3); Fun FFact [Mul [Num (zq 2); Sym "n"]]]].
Definition fr_l : list (Qc * expr) := [(zq 2, Num (zq 3))].
Lemma fact_repeated_wrong : factorial_decomposition G0 idE fr_e "n" = Some fr_l /\
  eval I0 (fun _ => 1) fr_e = Some 8 /\ eval I0 (fun _ => 1) (fact_sum "n" fr_l) = Some 6.
Proof.
  assert (F : eval I0 (fun _ => 1) (Fun FFact [Mul [Num (zq 2); Sym "n"]]) = Some 2).
  { rewrite (eval_fact _ _ 2); [f_equal; cbn; lra|]. rewrite eval_Mul2. cbn. rewrite rv_zq. f_equal. lra. }
  split; [|split].
  - vm_compute. repeat f_equal; apply Qc_is_canon; reflexivity.
  - unfold fr_e. rewrite eval_Add2, eval_Mul2, F. cbn. rewrite rv_zq. f_equal. lra.
  - unfold fact_sum, fr_l. cbn [map fst snd]. rewrite eval_Add, esum_cons, esum_nil, eval_Mul2, F. cbn. rewrite rv_zq. f_equal. lra.
Qed.
(** A case of the theorem: n! + 2 (3n)! + 5. *)
Definition fc_e : expr := Add [Fun FFact [Sym "n"]; Mul [Num (zq 2); Fun FFact [Mul [Num (zq 3); Sym "n"]]]; Num (zq 5)].
Lemma fact_case_shape : Forall2 (fact_summand "n") [None; Some (zq 3); None]
  [Fun FFact [Sym "n"]; Mul [Num (zq 2); Fun FFact [Mul [Num (zq 3); Sym "n"]]]; Num (zq 5)].
Proof.
  constructor; [|constructor; [|constructor; [|constructor]]].
  - apply FS_fact. reflexivity.
  - apply (FS_mul "n" (Some (zq 3)) (Mul [Num (zq 3); Sym "n"]) [Num (zq 2)] []); [|repeat constructor|constructor].
    cbn. split; [|split; [|now left]]; intros E; apply (f_equal this) in E; discriminate.
  - apply FS_plain; [discriminate|exact Logic.I].
Qed.
Lemma fact_case_keys : NoDup (keys_of [None; Some (zq 3); None]).
Proof. cbn. constructor; [intros []|constructor]. Qed.
Lemma fact_case_val : exists v, eval I0 (fun _ => 1) fc_e = Some v.
Proof.
  unfold fc_e. rewrite eval_Add, !esum_cons, esum_nil, eval_Mul2.
  rewrite (eval_fact _ (Sym "n") 1) by reflexivity.
  rewrite (eval_fact _ (Mul [Num (zq 3); Sym "n"]) 3) by (rewrite eval_Mul2; cbn; rewrite rv_zq; f_equal; lra).
  cbn. eexists. reflexivity.
Qed.
(** exp_poly_decomposition of n 2^n + log(n) + 2^n: base 2 with p = 1 + n, base 1 with q = log(n). *)
Definition ep_e : expr := Add [Mul [Sym "n"; Pow (Num (zq 2)) (Sym "n")]; Fun FLog [Sym "n"]; Pow (Num (zq 2)) (Sym "n")].
Lemma ep_case : exp_poly_decomposition G0 idE ep_e "n" = [(Num (zq 2), Add [Num 1; Sym "n"], Num 0); (Num 1, Num 0, Fun FLog [Sym "n"])].
Proof. vm_compute. repeat f_equal; apply Qc_is_canon; reflexivity. Qed.
