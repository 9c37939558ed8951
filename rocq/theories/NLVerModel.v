(** Model of the verification of exact solutions of non-linear recurrences and of the choice of the
    verification method (src/verify.cc).  The fields of [problem] are those of VerifyModel; the order is
    that of the associated linear recurrence.  [Broken]: assertion failure, or a null pointer is followed.
    GiNaC's exception for a negative power of zero is not modelled. *)
From Coq Require Import ZArith QArith Qcanon List String Bool.
From Verif Require Import Ast ExprModel ElimModel VerifyModel.
Import ListNotations.
Local Open Scope bool_scope.
Local Open Scope list_scope.

Section Verify.
Context (G : ginac) (simplify_all simplify_sum rewrite : expr -> expr).

(** verify.cc:117-165, non-linear branch of validate_initial_conditions. *)
Definition validate_non_linear (p : problem) (with_ic part : expr) : bool :=
  forallb (fun i =>
    expr_eqb (value_at_index G simplify_all rewrite with_ic (p_fvi p + i)) (Fun FX [Num (nq (p_fvi p + i))])
    && is_num 0 (value_at_index G simplify_all rewrite part (p_fvi p + i))) (seq 0 (p_order p)).
(** verify.cc:715-1016 verify_finite_order for a non-linear recurrence.  At 978-996 applied_order_reduction()
    (Recurrence.inlines.hh:401-406) is called, which requires a linear recurrence. *)
Definition verify_directly (partial : bool) (p : problem) : verdict :=
  let good := if partial then Partially_correct else Provably_correct in
  if Nat.eqb (p_order p) 0 then Provably_correct
  else
    let '(with_ic, part) := split_solution G (symbolic p) (p_solution p) in
    if (if symbolic p then validate_non_linear p with_ic part else validate_numeric G simplify_all rewrite p part) then
      if traditional_step_3 G simplify_all simplify_sum rewrite (p_order p) (p_rhs p) (p_inhom p) with_ic then
        if symbolic p && is_num 0 (p_inhom p) then
          if is_num 0 part then good else Inconclusive
        else if is_num 0 (simplify_all (rewrite (traditional_residual G simplify_all simplify_sum (p_order p) part (p_rhs p)))) then good
        else Broken
      else Inconclusive
    else Inconclusive.

(** Type of the recurrence (Recurrence.defs.hh). *)
Inductive rec_type := Order_zero | Linear_const | Linear_var | Non_linear | Weighted_average | Functional_equation | Other_type.
(** verify.cc:1280-1326 verify_exact_solution; [None]: exception.  [finite] is verify_finite_order(),
    [weighted] verify_weighted_average(), [associated] verify_exact_solution() of the associated recurrence. *)
Definition verify_exact_solution (t : rec_type) (has_exact : bool) (finite : bool -> verdict) (weighted : verdict) (associated : bool -> verdict)
    (partial : bool) : option verdict :=
  if negb has_exact then None
  else match t with
  | Order_zero | Linear_const | Linear_var => Some (finite partial)
  | Non_linear => match finite partial with Inconclusive => Some (if partial then Inconclusive else associated true) | v => Some v end
  | Weighted_average => match weighted with Inconclusive => Some (if partial then Inconclusive else associated true) | v => Some v end
  | Functional_equation => Some Inconclusive
  | Other_type => None
  end.
End Verify.
