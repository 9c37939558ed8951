(** Model of the two functions that replace the arguments of x in an expression:
    increase_argument_x_function (src/Recurrence.cc) and change_variable_function_x
    (src/rr_classifier.cc). *)
From Coq Require Import ZArith QArith Qcanon List String Bool.
From Verif Require Import Ast ExprModel.
Import ListNotations.
Local Open Scope list_scope.

Section M.
Variable G : ginac.
(** Recurrence.cc:640-669 and rr_classifier.cc:139-171 have the same text but for the argument
    of x, which is here [h].  Sums and products are rebuilt from the last operand
    ([add_all], [mul_all]: ExprModel.v); the index of a symbolic sum is a symbol, left as it is. *)
Fixpoint on_x (h : expr -> expr) (e : expr) : expr :=
  match e with
  | Add l => add_all G (map (on_x h) l)
  | Mul l => mul_all G (map (on_x h) l)
  | Pow a b => gpow G (on_x h a) (on_x h b)
  | Fun FX l => match l with a :: _ => gfun G FX [h a] | [] => gfun G FX [] end
  | Fun f l => gfun G f (map (on_x h) l)
  | SumE k lo up b => gsum G k (on_x h lo) (on_x h up) (on_x h b)
  | ProdE k lo up b => gprod G k (on_x h lo) (on_x h up) (on_x h b)
  | _ => e
  end.
(** Recurrence.cc:640-669; line 657: x(e.arg(0) + num). *)
Definition increase_argument_x_function (e : expr) (num : Z) : expr := on_x (fun a => gadd G a (Num (zq num))) e.
(** rr_classifier.cc:139-171; line 158: e.arg(0).substitute(s, r), for a symbol s. *)
Definition change_variable_function_x (e : expr) (s : string) (r : expr) : expr := on_x (substitute G (Sym s) r) e.
End M.
