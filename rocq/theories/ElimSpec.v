(** Specification for the elimination of negative and null decrements. *)
From Coq Require Import ZArith QArith Qcanon Reals List String.
From Verif Require Import Ast ExprModel ExprSpec SeqInterp.
Import ListNotations.
Local Open Scope list_scope.

(** The value of an expression at the index [n], for the sequence [x]. *)
Definition at_n (I : interp) (rho : string -> R) (x : nat -> R) (n : nat) (e : expr) : option R :=
  eval (with_x I x) (upd rho "n" (INR n)) e.
(** The canonical constructors introduce no sums or products that were not there. *)
Definition no_new_binders (G : ginac) : Prop := forall a b, no_binders a -> no_binders b ->
  no_binders (gadd G a b) /\ no_binders (gmul G a b) /\ no_binders (gpow G a b).
(** [a] is n + j. *)
Definition is_n_plus (a : expr) (j : Z) : Prop :=
  (a = Sym "n" /\ j = 0%Z) \/ a = Add [Sym "n"; Num (zq j)] \/ a = Add [Num (zq j); Sym "n"].
Definition is_x (e : expr) : Prop := match e with Fun FX _ => True | _ => False end.
(** [t] is the product of x(n+j) and of the expressions [cs]. *)
Definition x_term (t : expr) (j : Z) (cs : list expr) : Prop :=
  exists a, is_n_plus a j /\
  ((t = Fun FX [a] /\ cs = []) \/
   (exists f1 f2, t = Mul (f1 ++ Fun FX [a] :: f2) /\ cs = f1 ++ f2 /\ Forall (fun f => ~ is_x f) cs)).
(** [t] has no factor x(.). *)
Definition plain_term (t : expr) : Prop :=
  ~ is_x t /\ match t with Mul l => Forall (fun f => ~ is_x f) l | _ => True end.
Definition not_mul (t : expr) : Prop := match t with Mul _ => False | _ => True end.
(** Exactly one of the terms [l] is a multiple of x(n), the product of x(n) and of [cs];
    the others are [rest]. *)
Definition has_x_n (t : expr) : Prop :=
  t = Fun FX [Sym "n"] \/ exists l, t = Mul l /\ In (Fun FX [Sym "n"]) l.
Definition one_x_n (l cs rest : list expr) : Prop :=
  exists l1 t l2, l = l1 ++ t :: l2 /\ rest = l1 ++ l2 /\ Forall (fun u => ~ has_x_n u) rest /\
  ((t = Fun FX [Sym "n"] /\ cs = []) \/
   (exists f1 f2, t = Mul (f1 ++ Fun FX [Sym "n"] :: f2) /\ cs = f1 ++ f2 /\ ~ In (Fun FX [Sym "n"]) cs)).
