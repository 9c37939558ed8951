(** Decision procedures used in the concrete cases of XargProps.v. *)
From Coq Require Import List String Bool.
From Verif Require Import Ast ExprModel SrchSpec SrchProofs.
Import ListNotations.
Local Open Scope list_scope.
Set Bullet Behavior "Strict Subproofs".

(** s may occur outside the arguments of x. *)
Fixpoint occ_out (s : string) (e : expr) : bool :=
  match e with
  | Num _ | Cst _ => false
  | Sym t => String.eqb s t
  | Add l | Mul l => existsb (occ_out s) l
  | Fun f l => match f with FX => false | _ => existsb (occ_out s) l end
  | Pow a b => occ_out s a || occ_out s b
  | SumE k lo up b | ProdE k lo up b => String.eqb s k || occ_out s lo || occ_out s up || occ_out s b
  end.
Lemma occ_out_ok s e : occ_out s e = false -> ~ outside_x (Sym s) e.
Proof.
  assert (P : outside_x (Sym s) e -> occ_out s e = true).
  { induction 1 as [|c f N Hc _ IH]; [apply String.eqb_refl|].
    destruct f as [q|k|t|l|l|a b|fn l|k lo up b|k lo up b]; cbn [children occ_out] in *; try contradiction;
      try (apply existsb_exists; eauto; fail).
    - destruct Hc as [<- |[<- |[]]]; rewrite IH; auto using orb_true_r.
    - destruct fn; try (apply existsb_exists; eauto; fail). destruct (N l eq_refl).
    - destruct Hc as [<- |[<- |[<- |[<- |[]]]]]; cbn [occ_out] in IH; rewrite IH, ?orb_true_r; reflexivity.
    - destruct Hc as [<- |[<- |[<- |[<- |[]]]]]; cbn [occ_out] in IH; rewrite IH, ?orb_true_r; reflexivity. }
  intros E H. rewrite (P H) in E. discriminate.
Qed.
(** Every x has one argument, without x. *)
Fixpoint flat_x (e : expr) : bool :=
  match e with
  | Num _ | Cst _ | Sym _ => true
  | Add l | Mul l => forallb flat_x l
  | Fun f l => forallb flat_x l && match f with FX => match l with [a] => negb (has_x_function a) | _ => false end | _ => true end
  | Pow a b => flat_x a && flat_x b
  | SumE _ lo up b | ProdE _ lo up b => flat_x lo && flat_x up && flat_x b
  end.
Lemma flat_x_inside s e : inside s e -> flat_x e = true -> flat_x s = true.
Proof.
  induction 1 as [|c f Hc _ IH]; auto. intros H. apply IH. clear IH.
  destruct f as [q|k|t|l|l|a b|fn l|k lo up b|k lo up b]; cbn [children flat_x] in *; try contradiction;
    rewrite ?andb_true_iff in H; try (rewrite forallb_forall in H; now apply H); try (destruct H as [H _]; rewrite forallb_forall in H; now apply H).
  - destruct Hc as [<- |[<- |[]]]; tauto.
  - destruct Hc as [<- |[<- |[<- |[<- |[]]]]]; cbn; tauto.
  - destruct Hc as [<- |[<- |[<- |[<- |[]]]]]; cbn; tauto.
Qed.
Lemma flat_x_ok e : flat_x e = true -> forall l, inside (Fun FX l) e -> exists a, l = [a] /\ forall l', ~ inside (Fun FX l') a.
Proof.
  intros E l H. apply (flat_x_inside _ _ H) in E. cbn in E. apply andb_true_iff in E as [_ E].
  destruct l as [|a [|b l]]; try discriminate. exists a. split; [reflexivity|]. intros l' N.
  rewrite (proj2 (x_function_exact a) (ex_intro _ l' N)) in E. discriminate.
Qed.
