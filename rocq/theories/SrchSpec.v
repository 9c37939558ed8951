(** Subexpressions. *)
From Coq Require Import ZArith QArith Qcanon List String.
From Verif Require Import Ast.
Import ListNotations.
Local Open Scope list_scope.

(** The operands, or the arguments, of an expression. *)
Definition children (e : expr) : list expr :=
  match e with
  | Num _ | Cst _ | Sym _ => []
  | Add l | Mul l | Fun _ l => l
  | Pow a b => [a; b]
  | SumE k lo up b | ProdE k lo up b => [Sym k; lo; up; b]
  end.
(** [s] occurs in [e]. *)
Inductive inside (s : expr) : expr -> Prop :=
  | inside_itself : inside s s
  | inside_child : forall c e, In c (children e) -> inside s c -> inside s e.
(** [s] occurs in [e] elsewhere than in an argument of x. *)
Inductive outside_x (s : expr) : expr -> Prop :=
  | outside_itself : outside_x s s
  | outside_child : forall c e, (forall l, e <> Fun FX l) -> In c (children e) -> outside_x s c -> outside_x s e.
(** The functions x have one argument. *)
Definition unary_x (e : expr) : Prop := forall l, inside (Fun FX l) e -> exists a, l = [a].
