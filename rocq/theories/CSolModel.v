(** Model of the way from a classified linear recurrence with constant coefficients to its solution
    (src/compute_exact_solution.cc, src/finite_order.cc).  Expressions free of n are represented by their values in
    a field, the polynomials found by the decomposition by their coefficients (see SolverModel). *)
From Coq Require Import ZArith QArith Qcanon List String Bool.
From Verif Require Import Fld FPoly SeqSpec Ast ExprModel DecompModel SumPolyModel LinSolve SolverModel CplxF FindRootModel.
Import ListNotations.
Local Open Scope list_scope.

(** util.cc:52-58 vector_not_all_zero, on the parts that are not polynomials (compute_exact_solution.cc:914). *)
Definition not_all_polynomials (l : list term) : bool := existsb (fun t => negb (is_num 0 (snd t))) l.

Section M.
Context {K : Fld}.
Local Open Scope fld_scope.
(** finite_order.cc:177-214 characteristic_equation_and_its_roots: order 1 without solving an equation;
    otherwise the coefficients have to be numbers.  [lcm] is the least common multiple of their denominators. *)
Definition characteristic_roots (find_roots : list K -> option (list (K * nat) * bool)) (numbers : bool) (lcm : K) (a : list K)
  : option (list (K * nat) * bool) :=
  match a with
  | [a1] => Some ([(a1, 1%nat)], true)
  | _ => if numbers then find_roots (build_characteristic_equation lcm (0 :: a)) else None
  end.
(** compute_exact_solution.cc:752-1114 solve_linear_finite_order for constant coefficients
    [a] = a_1, ..., a_k; [None]: TOO_COMPLEX.  [ls] stands for lsolve and Matrix::solve, [gos] for Gosper's algorithm; [f]
    is the first valid index, [x] gives the symbolic initial conditions. *)
Definition solve_linear_finite_order (ls : nat -> list (list K * K) -> option (list K)) (gos : comp (K:=K) -> option (Z -> K))
    (find_roots : list K -> option (list (K * nat) * bool)) (numbers : bool) (lcm : K) (a : list K) (others : bool) (inh : list (comp (K:=K))) (f : nat)
    (x : Z -> K) : option (Z -> K) :=
  match a with
  | [] => Some (inh_value inh)
  | _ =>
    match characteristic_roots find_roots numbers lcm a with
    | None => None
    | Some (roots, all_distinct) =>
      if others then
        match a with
        | [a1] => Some (order_1_old gos a1 inh f x)
        | _ => solve_old ls all_distinct (0 :: a) roots (inh_value inh) (Z.of_nat f) x
        end
      else solve_new ls a roots (map (fun e => (cbase e, cpoly e)) inh) (Z.of_nat f) x
    end
  end.
End M.

(** finite_order.cc:199-213 with find_roots (alg_eq_solver.cc), for a polynomial in the form found by GiNaC's sqrfree: the values and
    the multiplicities. *)
Definition number_roots (poly_factor : list Qc -> list (list Qc)) (fuel : nat) (q : sqrfree_form) : option (list (CF * nat) * bool) :=
  match find_roots_top poly_factor fuel q with
  | Some (true, roots, all_distinct) => Some (map (fun r => (rvalue r : CF, multiplicity r)) roots, all_distinct)
  | _ => None
  end.
