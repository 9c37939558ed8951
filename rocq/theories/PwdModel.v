(** Model of the rewriting of powers of a difference of symbols that
    Recurrence::solve_constant_coeff_order_2 uses (src/compute_exact_solution.cc). *)
From Coq Require Import ZArith QArith Qcanon List String Bool.
From Verif Require Import Ast ExprModel.
Import ListNotations.
Local Open Scope bool_scope.
Local Open Scope list_scope.

Section Model.
Context (G : ginac) (alpha lambda : string).
(** compute_exact_solution.cc:253-256: is the base [lambda - alpha], or [alpha - lambda]? *)
Definition is_diff (a b : string) (e : expr) : bool := expr_eqb e (gsub G (Sym a) (Sym b)).
(** compute_exact_solution.cc:229-276 substitute_pwr_diff_symbols. PURRS::apply on the function
    sum (prod), whose index is a symbol and does not change, is [gsum] ([gprod]). *)
Fixpoint substitute_pwr_diff_symbols (to : expr) (e : expr) : expr :=
  match e with
  | Add l => add_all G (map (substitute_pwr_diff_symbols to) l)
  | Mul l => mul_all G (map (substitute_pwr_diff_symbols to) l)
  | Pow base exponent =>
    let deep := gpow G (substitute_pwr_diff_symbols to base) (substitute_pwr_diff_symbols to exponent) in
    match is_a_number exponent with
    | Some q =>
      if q_lt q 0 then
        if is_diff lambda alpha base then gpow G to (Num (- q)%Qc)
        else if is_diff alpha lambda base then gpow G (gmul G (Num (-(1))%Qc) to) (Num (- q)%Qc)
        else deep
      else deep
    | None => deep
    end
  | Fun f l => gfun G f (map (substitute_pwr_diff_symbols to) l)
  | SumE k lo up b => gsum G k (substitute_pwr_diff_symbols to lo) (substitute_pwr_diff_symbols to up) (substitute_pwr_diff_symbols to b)
  | ProdE k lo up b => gprod G k (substitute_pwr_diff_symbols to lo) (substitute_pwr_diff_symbols to up) (substitute_pwr_diff_symbols to b)
  | _ => e
  end.
(** compute_exact_solution.cc:487-490: [(lambda + alpha - c) * pwr(-alpha^2 + alpha*c + d, -1)],
    [c] the coefficient of x(n-1), [d] that of x(n-2). *)
Definition subs_to_diff (c d : Qc) : expr :=
  gmul G (gsub G (gadd G (Sym lambda) (Sym alpha)) (Num c))
    (gpow G (gadd G (gadd G (gmul G (Num (-(1))%Qc) (gpow G (Sym alpha) (Num (1 + 1)%Qc))) (gmul G (Sym alpha) (Num c))) (Num d)) (Num (-(1))%Qc)).
(** compute_exact_solution.cc:487-493, before the expansion: what is done with each symbolic sum. *)
Definition rewrite_differences (c d : Qc) (e : expr) : expr := substitute_pwr_diff_symbols (subs_to_diff c d) e.
End Model.
