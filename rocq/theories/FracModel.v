(** Model of numerator(), denominator() and transform_in_single_fraction() (src/numerator_denominator.cc). *)
From Coq Require Import ZArith QArith Qcanon List String Bool.
From Verif Require Import Ast ExprModel FactModel NumDenModel.
Import ListNotations.

Section M.
Context (G : ginac).
(** numerator_denominator.cc:388-398 numerator; [None]: an assertion or an undefined access of the functions called. *)
Definition numerator (prep : expr -> expr) (fuel : nat) (e : expr) : option expr :=
  match numerator_denominator G (distribute_mul_over_add G e) with
  | Some (n, _) => match factorize_no_ratio_ex G prep fuel n with Some (common, rest) => Some (gmul G common rest) | None => None end
  | None => None
  end.
(** numerator_denominator.cc:405-412 denominator. *)
Definition denominator (e : expr) : option expr :=
  match numerator_denominator G (distribute_mul_over_add G e) with Some (_, d) => Some d | None => None end.
(** numerator_denominator.cc:421-431 transform_in_single_fraction; [num_den]: Expr::numerator_denominator, which is GiNaC's numer_denom. *)
Definition transform_in_single_fraction (num_den : expr -> expr * expr) (prep : expr -> expr) (fuel : nat) (e : expr) : option expr :=
  let '(n, d) := num_den (distribute_mul_over_add G e) in
  match factorize_no_ratio_ex G prep fuel n with
  | Some (common, rest) => Some (gdiv G (gmul G common rest) d)
  | None => None
  end.
End M.
