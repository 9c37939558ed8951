(** Model of the test for non-negative, non-decreasing functions (src/functional_equation.cc).
    find_domain_in_N and the simplified difference f(n+1) - f(n) are parameters. *)
From Coq Require Import ZArith QArith Qcanon List String Bool.
From Verif Require Import Ast ExprModel.
Import ListNotations.
Local Open Scope list_scope.

(** e.is_a_number(num) && !num.is_positive() *)
Definition is_non_positive_number (e : expr) : bool := match e with Num q => negb (q_lt 0 q) | _ => false end.
Definition is_positive_number (e : expr) : bool := match e with Num q => q_lt 0 q | _ => false end.

(** functional_equation.cc:80-115 is_non_decreasing_poly; Expr.cc:739-754 is_a_constant_power and
    is_a_constant_function.  sum and prod are functions with four arguments: refused. *)
Fixpoint is_non_decreasing_poly (x : string) (e : expr) : bool :=
  match e with
  | Num _ | Cst _ => true
  | Sym s => String.eqb s x
  | Pow a b => negb (has x e) || (is_non_decreasing_poly x a && is_pos_int_num b)
  | Fun _ [_] => negb (has x e)
  | Mul l => forallb (is_non_decreasing_poly x) l
  | Add l => forallb (fun a => negb (is_non_positive_number a) && is_non_decreasing_poly x a) l
  | _ => false
  end.

(** functional_equation.cc:129-171 is_non_decreasing_no_poly.  Recurrence::n is the symbol "n". *)
Fixpoint is_non_decreasing_no_poly (x : string) (e : expr) : bool :=
  if is_polynomial x e then is_non_decreasing_poly x e
  else match e with
  | Mul l => forallb (is_non_decreasing_no_poly x) l
  | Add l => forallb (fun a => negb (is_non_positive_number a) && is_non_decreasing_no_poly x a) l
  | Fun FLog _ => true
  | Pow a b =>
    (expr_eqb a (Sym "n") && is_positive_number b)
    || (is_polynomial x a && is_polynomial x b &&
        match b with
        | Num _ => is_pos_int_num b
        | _ => is_non_decreasing_poly x a && is_non_decreasing_poly x b
        end)
  | _ => false
  end.

Section Test.
(** find_domain_in_N(e, x, i): the new value of i, if e is accepted. *)
Context (find_domain : expr -> string -> Z -> option Z).
(** simplify_ex_for_input(e[n+1/n] - e, true) *)
Context (difference : expr -> expr).
(** functional_equation.cc:50-59 is_non_negative. *)
Definition is_non_negative (e : expr) (x : string) (i : Z) : option Z :=
  match find_domain e x i with
  | None => None
  | Some i => Some (if (i =? -1)%Z then 0%Z else i)
  end.
(** functional_equation.cc:181-216 is_non_negative_non_decreasing: the condition, or [None] for false.
    The recursive call is made only the first time. *)
Definition second_time (base : Qc) (coefficient : expr) (x : string) (condition : Z) : option Z :=
  if negb (q_lt 0 base) then None
  else match is_non_negative coefficient x condition with
  | None => None
  | Some condition => if is_non_decreasing_poly x coefficient then Some condition else None
  end.
Definition is_non_negative_non_decreasing (base : Qc) (coefficient : expr) (poly : bool) (x : string) (condition : Z) : option Z :=
  if negb (q_lt 0 base) then None
  else match is_non_negative coefficient x condition with
  | None => None
  | Some condition =>
    if poly then
      if is_non_decreasing_poly x coefficient then Some condition
      else second_time base (difference coefficient) x condition
    else if is_non_decreasing_no_poly x coefficient then Some condition else None
  end.
End Test.
