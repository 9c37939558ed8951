(** Model of the way from a linear recurrence with constant coefficients to its solution when the order is reduced
    (src/Recurrence.cc, src/finite_order.cc).  As in SolverModel and CSolModel expressions free of n are represented by their values. *)
From Coq Require Import ZArith List.
From Verif Require Import Fld FPoly SolverModel CSolModel OrderRedModel.
Import ListNotations.
Local Open Scope list_scope.

Section M.
Context {K : Fld}.
Context (ls : nat -> list (list K * K) -> option (list K)) (gos : nat -> comp (K:=K) -> option (Z -> K)).
Context (find_roots : list K -> option (list (K * nat) * bool)) (numbers : bool) (lcm : K).
(** Recurrence.cc:431-440: rec_rewritten.solve_linear_finite_order() for the reduced recurrence, whose coefficients are those found by
    write_reduced_order_recurrence (finite_order.cc:647-653) and whose first valid index is that of the original one; the symbol r has the value [r],
    [inh r] are the values of the parts of the inhomogeneous term. *)
Definition reduced_solution (d : nat) (a : list K) (others : bool) (inh : nat -> list (comp (K:=K))) (f r : nat) (x : Z -> K) : option (Z -> K) :=
  solve_linear_finite_order ls (gos r) find_roots numbers lcm (tl (reduced_coefficients d (f0 :: a))) others (inh r) f x.
(** Recurrence.cc:420-473 apply_order_reduction: the value at n of the solution after come_back_to_original_variable (finite_order.cc:680-743);
    [None]: the reduced recurrence is not solved.  The expanded form (Recurrence.cc:462-466) is in OrderRedModel. *)
Definition apply_order_reduction (d : nat) (a : list K) (others : bool) (inh : nat -> list (comp (K:=K))) (f : nat) (x : Z -> K) (n : Z) : option K :=
  let r := (n mod Z.of_nat d)%Z in
  match reduced_solution d a others inh f (Z.to_nat r) (fun k => x (Z.of_nat d * k + r)%Z) with
  | Some X => Some (X ((n - r) / Z.of_nat d)%Z)
  | None => None
  end.
(** Recurrence.cc:1140-1163 compute_exact_solution_finite_order: constant coefficients.  [inh1], [others1] belong to the inhomogeneous term of the recurrence, [inh], [others]
    to that of the reduced one. *)
Definition compute_exact_solution_finite_order (gcd : Z) (a : list K) (others1 : bool) (inh1 : list (comp (K:=K))) (others : bool) (inh : nat -> list (comp (K:=K))) (f : nat) (x : Z -> K) (n : Z)
  : option K :=
  if (1 <? gcd)%Z then apply_order_reduction (Z.to_nat gcd) a others inh f x n
  else match solve_linear_finite_order ls (gos 0%nat) find_roots numbers lcm a others1 inh1 f x with Some X => Some (X n) | None => None end.
End M.
