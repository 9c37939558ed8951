(** Model of the rewritings of the order reduction in src/finite_order.cc, on expressions. [d] is gcd_among_decrements, [r] the symbol for
    mod(n, d). [None]: an assertion fails, or a sum or product has n or r as its index. *)
From Coq Require Import ZArith QArith Qcanon List String Bool.
From Verif Require Import Ast ExprModel.
Import ListNotations.
Local Open Scope bool_scope.
Local Open Scope list_scope.

Section Model.
Context (G : ginac) (r : string) (d : nat).
Definition number (k : nat) : expr := Num (zq (Z.of_nat k)).
(** All results, or [None]. *)
Definition all_some (f : expr -> option expr) : list expr -> option (list expr) :=
  fix go l := match l with
  | [] => Some []
  | a :: l => match f a, go l with Some b, Some m => Some (b :: m) | _, _ => None end
  end.
Definition index_ok (k : string) : bool := negb (String.eqb k "n") && negb (String.eqb k r).

(** finite_order.cc:131-136: the number in the argument of x(). *)
Definition decrement (a : expr) : option Qc :=
  match a with Add [Num q; _] => Some q | Add [_; Num q] => Some q | _ => None end.
(** finite_order.cc:123-151 rewrite_factor: sums and products are returned as they are. *)
Fixpoint rewrite_factor (e : expr) : option expr :=
  match e with
  | Pow a b => match rewrite_factor a, rewrite_factor b with Some a, Some b => Some (gpow G a b) | _, _ => None end
  | Fun f l =>
    match f with
    | FX => match l with
            | [a] => match decrement a with
                     | Some q => Some (gfun G FX [gadd G (Sym "n") (Num (q / zq (Z.of_nat d))%Qc)])
                     | None => None
                     end
            | _ => None
            end
    | _ => match all_some rewrite_factor l with Some m => Some (gfun G f m) | None => None end
    end
  | SumE k lo up b =>
    if index_ok k then match rewrite_factor lo, rewrite_factor up, rewrite_factor b with Some lo, Some up, Some b => Some (gsum G k lo up b) | _, _, _ => None end else None
  | ProdE k lo up b =>
    if index_ok k then match rewrite_factor lo, rewrite_factor up, rewrite_factor b with Some lo, Some up, Some b => Some (gprod G k lo up b) | _, _, _ => None end else None
  | Sym s => if String.eqb s "n" then Some (gadd G (gmul G (number d) (Sym "n")) (Sym r)) else Some e
  | _ => Some e
  end.
(** finite_order.cc:156-168 rewrite_term. *)
Definition rewrite_term (e : expr) : option expr :=
  match e with
  | Mul l => match all_some rewrite_factor l with Some m => Some (mul_all G m) | None => None end
  | _ => rewrite_factor e
  end.
(** Expr.cc:1111-1134 has_x_function(n). *)
Fixpoint has_x_of_n (e : expr) : bool :=
  match e with
  | Add l | Mul l => existsb has_x_of_n l
  | Pow a b => has_x_of_n a || has_x_of_n b
  | Fun FX l => existsb (has "n") l
  | Fun _ l => existsb has_x_of_n l
  | SumE _ lo up e | ProdE _ lo up e => has_x_of_n lo || has_x_of_n up || has_x_of_n e
  | _ => false
  end.
(** finite_order.cc:635-655 write_reduced_order_recurrence: the right-hand side and the inhomogeneous term (for the coefficients see OrderRedModel.v). *)
Definition write_reduced_order_recurrence (rhs : expr) : option (expr * expr) :=
  match all_some rewrite_term (match rhs with Add l => l | _ => [rhs] end) with
  | Some ts => Some (add_all G ts, add_all G (filter (fun t => negb (has_x_of_n t)) ts))
  | None => None
  end.

(** mod(n, d), the definition of r (Recurrence.cc:425). *)
Definition m_expr : expr := Fun FMod [Sym "n"; number d].
(** finite_order.cc:690-743 come_back_to_original_variable. *)
Fixpoint come_back_to_original_variable (e : expr) : option expr :=
  match e with
  | Add l => match all_some come_back_to_original_variable l with Some m => Some (add_all G m) | None => None end
  | Mul l => match all_some come_back_to_original_variable l with Some m => Some (mul_all G m) | None => None end
  | Pow a b => match come_back_to_original_variable a, come_back_to_original_variable b with Some a, Some b => Some (gpow G a b) | _, _ => None end
  | Fun f l =>
    match f with
    | FX => match l with [Num q] => Some (gfun G FX [gadd G (gmul G (number d) (Num q)) m_expr]) | _ => None end
    | _ => match all_some come_back_to_original_variable l with Some m => Some (gfun G f m) | None => None end
    end
  | SumE k lo up b =>
    if index_ok k then
      match come_back_to_original_variable lo, come_back_to_original_variable up, come_back_to_original_variable b with
      | Some lo, Some up, Some b => Some (gsum G k lo up b) | _, _, _ => None end
    else None
  | ProdE k lo up b =>
    if index_ok k then
      match come_back_to_original_variable lo, come_back_to_original_variable up, come_back_to_original_variable b with
      | Some lo, Some up, Some b => Some (gprod G k lo up b) | _, _, _ => None end
    else None
  | Sym s =>
    if String.eqb s "n" then Some (gmul G (Num (/ zq (Z.of_nat d))%Qc) (gsub G (Sym "n") m_expr))
    else if String.eqb s r then Some m_expr else Some e
  | _ => Some e
  end.
End Model.
