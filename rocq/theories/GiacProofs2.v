(** An instance of giac's product; numeric factors that are not numbers; lost operands. *)
From Coq Require Import ZArith QArith Qcanon Reals List String Bool Lia Lra.
From Verif Require Import Ast ExprModel ExprSpec ExprProofs1 ExprProofs2 ExprProofs3 ExprCases GiacModel GiacSpec GiacProofs.
Import ListNotations.
Local Open Scope string_scope.
Local Open Scope list_scope.
Local Open Scope R_scope.
Set Bullet Behavior "Strict Subproofs".

Section T.
Variable I : interp.
Variable ff : string -> option fname.
Notation gv := (gval I ff).
Notation pv rho := (fold_right (fun a acc => olift2 Rmult (gv rho a) acc) (Some 1)).
Lemma pv_app rho l m x y : pv rho l = Some x -> pv rho m = Some y -> pv rho (l ++ m) = Some (x * y).
Proof.
  revert x. induction l as [|a l IH]; intros x X Y.
  - cbn in X. injection X as <-. cbn [app]. rewrite Y. f_equal. ring.
  - cbn [app fold_right] in *. destruct (gv rho a) as [u|]; [|discriminate]. destruct (pv rho l) as [w|]; [|discriminate].
    cbn in X. injection X as <-. rewrite (IH w eq_refl Y). cbn. f_equal. ring.
Qed.
Lemma gops_ok rho g x : gv rho g = Some x -> pv rho (gops g) = Some x.
Proof.
  intros X. assert (D : pv rho [g] = Some x) by (cbn [fold_right]; rewrite X; cbn; f_equal; ring).
  destruct g as [z|n d|s|l|o a|]; try exact D. destruct o; try exact D. destruct a; try exact D. exact X.
Qed.
Definition general (a b : gen) : gen :=
  match a with GInt 1 => b | _ => match b with GInt 1 => a | _ => GSymb OProd (GVec (gops a ++ gops b)) end end.
Lemma times0_ok : times_ok I ff times0.
Proof.
  intros rho a b x y X Y.
  assert (N : gv rho (GSymb OProd (GVec (gops a ++ gops b))) = Some (x * y)) by (apply (pv_app rho); now apply gops_ok).
  assert (D : gv rho (general a b) = Some (x * y)).
  { assert (DA : a = GInt 1 \/ forall (A : Type) (u w : A), match a with GInt 1 => u | _ => w end = w).
    { destruct a as [[|[p|p|]|p]| | | | |]; auto. }
    assert (DB : b = GInt 1 \/ forall (A : Type) (u w : A), match b with GInt 1 => u | _ => w end = w).
    { destruct b as [[|[p|p|]|p]| | | | |]; auto. }
    unfold general. destruct DA as [-> |DA].
    - cbn in X. injection X as <-. rewrite Y. f_equal. ring.
    - rewrite DA. destruct DB as [-> |DB].
      + cbn in Y. injection Y as <-. rewrite X. f_equal. ring.
      + rewrite DB. exact N. }
  unfold times0. destruct a as [z| | | | |]; try exact D. destruct b as [w| | | | |]; try exact D.
  cbn in *. injection X as <-. injection Y as <-. now rewrite mult_IZR.
Qed.
End T.

Definition at_n (v : R) : string -> R := fun _ => v.
(** 1 / n *)
Lemma numeric_refuted ff : ~ (forall rho g v, gval I0 ff rho g = Some v ->
  exists r, forall rho' w, gval I0 ff rho' (fst (split_factors times0 g)) = Some w -> w = r).
Proof.
  intros H. assert (V : forall v, v <> 0 -> gval I0 ff (at_n v) (GSymb OInv (GIdnt "n")) = Some (/ v)).
  { intros v Hv. cbn. unfold at_n. destruct (Req_EM_T v 0); [contradiction|reflexivity]. }
  destruct (H (at_n 1) _ _ (V 1 ltac:(lra))) as (r & Hr).
  change (fst (split_factors times0 (GSymb OInv (GIdnt "n")))) with (GSymb OInv (GIdnt "n")) in Hr.
  pose proof (Hr _ _ (V 1 ltac:(lra))). pose proof (Hr _ _ (V 2 ltac:(lra))). lra.
Qed.
(** A product whose operand is not a vector. *)
Lemma single_refuted ff : ~ (forall rho g v e, gval I0 ff rho g = Some v -> translate_back G0 ff g = Some e -> eval I0 rho e = Some v).
Proof.
  intros H. specialize (H (at_n 2) (GSymb OProd (GIdnt "n")) 2 (Num 1%Qc) eq_refl eq_refl). cbn [eval] in H. rewrite rv_1 in H. injection H. lra.
Qed.
