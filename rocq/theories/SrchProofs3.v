(** A wrong acceptance, and a test of the functions x of an expression. *)
From Coq Require Import ZArith QArith Qcanon List String Bool Lia Lra Reals.
From Verif Require Import Ast ExprModel ExprSpec ExprProofs1 ExprProofs2 ExprProofs3 SrchModel SrchSpec.
Import ListNotations.
Local Open Scope string_scope.
Local Open Scope list_scope.
Local Open Scope R_scope.
Set Bullet Behavior "Strict Subproofs".

(** Every function x in [e] has one argument. *)
Fixpoint one_arg (e : expr) : bool :=
  match e with
  | Num _ | Cst _ | Sym _ => true
  | Add l | Mul l => forallb one_arg l
  | Fun f l => forallb one_arg l && match f with FX => match l with [_] => true | _ => false end | _ => true end
  | Pow a b => one_arg a && one_arg b
  | SumE _ lo up b | ProdE _ lo up b => one_arg lo && one_arg up && one_arg b
  end.
Lemma one_arg_inside s e : inside s e -> one_arg e = true -> one_arg s = true.
Proof.
  induction 1 as [|c f Hc _ IH]; auto. intros H. apply IH. clear IH.
  destruct f as [q|k|t|l|l|a b|fn l|k lo up b|k lo up b]; cbn [children one_arg] in *; try contradiction;
    rewrite ?andb_true_iff in H; try (rewrite forallb_forall in H; now apply H); try (destruct H as [H _]; rewrite forallb_forall in H; now apply H).
  - destruct Hc as [<- |[<- |[]]]; tauto.
  - destruct Hc as [<- |[<- |[<- |[<- |[]]]]]; cbn; tauto.
  - destruct Hc as [<- |[<- |[<- |[<- |[]]]]]; cbn; tauto.
Qed.
Lemma unary_list e l : inside (Fun FX l) e -> one_arg e = true -> exists a, l = [a].
Proof.
  intros H E. apply (one_arg_inside _ _ H) in E. cbn in E. apply andb_true_iff in E as [_ E].
  destruct l as [|a [|b l]]; try discriminate. now exists a.
Qed.
(** (-1)^x has no value at 1/2. *)
Lemma rat_poly_refuted : ~ (forall I x e, is_rational_polynomial x e = true -> polynomial_function I x e).
Proof.
  intros H. specialize (H I0 "x" (Pow (Num (zq (-1))) (Sym "x")) eq_refl (fun _ => 0)).
  assert (E : forall t, eval I0 (upd (fun _ => 0) "x" t) (Pow (Num (zq (-1))) (Sym "x")) = rpow (-1) t).
  { intros t. cbn [eval obind]. rewrite rv_zq. unfold upd. now rewrite String.eqb_refl. }
  assert (F : rpow (-1) (/ 2) = None).
  { unfold rpow. destruct (as_int (/ 2)) as [z|] eqn:A.
    - apply as_int_spec in A. exfalso. assert (B : (1 = 2 * z)%Z) by (apply eq_IZR; rewrite mult_IZR; lra). lia.
    - destruct (Rlt_dec 0 (-1)); [lra|]. destruct (Req_EM_T (-1) 0); [lra|reflexivity]. }
  destruct H as [N|[c C]].
  - specialize (N 0). rewrite E in N. change 0 with (INR 0) in N. rewrite rpow_nat in N. discriminate.
  - specialize (C (/ 2)). rewrite E, F in C. discriminate.
Qed.
