(** Specification vocabulary for sqrfree. *)
From Coq Require Import ZArith QArith Qcanon List String Bool Reals.
From Verif Require Import Ast ExprModel.
Import ListNotations.
Local Open Scope list_scope.

(** What GiNaC takes for a rational expression: numbers, constants, symbols, sums, products, powers with integer exponents. *)
Inductive rational_form : expr -> Prop :=
  | rf_num q : rational_form (Num q)
  | rf_cst c : rational_form (Cst c)
  | rf_sym z : rational_form (Sym z)
  | rf_add l : Forall rational_form l -> rational_form (Add l)
  | rf_mul l : Forall rational_form l -> rational_form (Mul l)
  | rf_pow a q : rational_form a -> (exists z : Z, rv q = IZR z) -> rational_form (Pow a (Num q)).
(** GiNaC's constructors keep the form. *)
Definition keeps_rational (G : ginac) : Prop :=
  (forall a b, rational_form a -> rational_form b -> rational_form (gadd G a b)) /\
  (forall a b, rational_form a -> rational_form b -> rational_form (gmul G a b)) /\
  (forall a q, rational_form a -> (exists z : Z, rv q = IZR z) -> rational_form (gpow G a (Num q))).
(** The square-free factorisation of rational expressions is a rational expression with the same value, for all values of the symbols. *)
Definition factorises (I : interp) (f : expr -> expr) : Prop :=
  forall e, rational_form e -> rational_form (f e) /\ forall rho v, eval I rho e = Some v -> eval I rho (f e) = Some v.
(** e1 has the value of e whenever e has one. *)
Definition same_value (I : interp) (e e1 : expr) : Prop := forall rho v, eval I rho e = Some v -> eval I rho e1 = Some v.
(** The names of new symbols are different from each other and from the ones of an expression. *)
Definition new_names (fresh : nat -> string) (e : expr) : Prop :=
  (forall i j, fresh i = fresh j -> i = j) /\ forall i, has (fresh i) e = false.
