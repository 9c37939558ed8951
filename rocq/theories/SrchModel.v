(** Model of the searches in an expression: Expr::has_sum_or_prod_function,
    Expr::is_rational_polynomial (src/Expr.cc) and get_max_index_symbolic_i_c
    (src/Recurrence.cc).  has_x_function is in ExprModel.v and ClassModel.v. *)
From Coq Require Import ZArith QArith Qcanon List String Bool.
From Verif Require Import Ast ExprModel.
Import ListNotations.
Local Open Scope list_scope.

(** Expr.cc:1136-1157. *)
Fixpoint has_sum_or_prod_function (e : expr) : bool :=
  match e with
  | Add l | Mul l => existsb has_sum_or_prod_function l
  | Pow a b => has_sum_or_prod_function a || has_sum_or_prod_function b
  | SumE _ _ _ _ | ProdE _ _ _ _ => true
  | Fun _ l => existsb has_sum_or_prod_function l
  | _ => false
  end.

(** Expr.cc:982-1000. *)
Fixpoint is_rational_polynomial (x : string) (e : expr) : bool :=
  is_rational_scalar_representation x e ||
  match e with
  | Sym s => String.eqb s x
  | Pow a b => is_rational_polynomial x a && is_pos_int_num b
  | Add l | Mul l => forallb (is_rational_polynomial x) l
  | _ => false
  end.

(** Number.inlines.hh:338-346 [to_unsigned_int]: integers beyond INT_MAX throw. *)
Definition int_max : Z := 2147483647.
Definition to_unsigned_int (q : Qc) : option Z :=
  if q_is_int q && negb (q_lt (zq int_max) q) && negb (q_lt q (zq (- int_max - 1))) then Some (Qnum (this q)) else None.
(** Recurrence.cc:748-768; [m] is max_index.  None: the exception of to_unsigned_int.
    Operands and arguments are visited from the last one. *)
Fixpoint get_max_index_symbolic_i_c (e : expr) (m : Z) : option Z :=
  let fix go (l : list expr) (m : Z) : option Z :=
    match l with
    | [] => Some m
    | a :: l' => match go l' m with None => None | Some m' => get_max_index_symbolic_i_c a m' end
    end in
  match e with
  | Add l | Mul l => go l m
  | Pow a b => match get_max_index_symbolic_i_c a m with None => None | Some m' => get_max_index_symbolic_i_c b m' end
  | Fun FX l =>
    match l with
    | Num q :: _ => if q_is_int q && q_lt (zq m) q then to_unsigned_int q else Some m
    | _ => Some m
    end
  | Fun _ l => go l m
  | SumE _ lo up b | ProdE _ lo up b =>
    match get_max_index_symbolic_i_c b m with
    | None => None
    | Some m1 => match get_max_index_symbolic_i_c up m1 with None => None | Some m2 => get_max_index_symbolic_i_c lo m2 end
    end
  | _ => Some m
  end.
