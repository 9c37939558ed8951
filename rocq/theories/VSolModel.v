(** Model of the way from a classified linear recurrence of order 1 with a variable coefficient to its solution
    (src/compute_exact_solution.cc): the expressions built; the sum is SolverModel.solve_variable_coeff_order_1. *)
From Coq Require Import ZArith QArith Qcanon List String Bool.
From Verif Require Import Ast ExprModel NonLinModel DecompModel ProdModel.
Import ListNotations.
Local Open Scope list_scope.

Section M.
Context (G : ginac) (is_poly lc_negative : expr -> bool) (content primpart : expr -> expr).
Context (num_den : expr -> expr * expr) (expand simplify : expr -> expr) (factorize : expr -> expr * expr).
Context (sum_pe : expr -> string -> expr -> expr) (h index : string) (post : expr -> expr).
(** compute_exact_solution.cc:199-207: the product of the coefficients from first_valid_index + 1 = [f] + 1 to n.
    [index] is the fresh symbol, [post] stands for simplify_binomials_factorials_exponentials. *)
Definition product_factor (fuel : nat) (f : nat) (coeffs : list expr) : outcome :=
  let '(a, b) := num_den (substitute G (Sym "n") (Sym index) (nth 1 coeffs (Num 0))) in
  bind (compute_product G is_poly lc_negative content primpart num_den expand simplify factorize sum_pe h index (Z.of_nat f + 1) fuel (gdiv G a b))
    (fun p => Value (post p)).
(** compute_exact_solution.cc:211-218 with 122-124: the decomposition of inhomogeneous_term / product_factor. *)
Definition divided_term (inhom pf : expr) : list term := exp_poly_decomposition G simplify (expand (gdiv G inhom pf)) "n".
End M.
