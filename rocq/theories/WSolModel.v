(** Model of the way from a classified weighted-average recurrence to its solution (src/Recurrence.cc), on expressions. *)
From Coq Require Import ZArith QArith Qcanon List String Bool.
From Verif Require Import Ast ExprModel ElimModel WClassModel.
Import ListNotations.
Local Open Scope list_scope.

(** Recurrence.cc:732-736: what x(0), the initial value of the first order recurrence, is replaced with. *)
Definition initial_term (G : ginac) (weight inhom : expr) (lower : nat) : expr :=
  substitute G (Sym "n") (Num (zq (Z.of_nat lower + 1))) (gadd G (gmul G weight (Fun FX [Num (zq (Z.of_nat lower))])) inhom).
(** Recurrence.cc:698-743 compute_weighted_average_recurrence; [sol]: the exact solution of the associated first order
    recurrence; [lower]: the lower limit of the sum as written by the user (rr_classifier.cc:1198-1199, 1318-1319); the other
    arguments are those of the outcome [Weighted] (weight, inhomogeneous_term, original_weight, original_inhomogeneous,
    recurrence_rewritten). *)
Definition weighted_answer (G : ginac) (expand : expr -> expr) (sol weight inhom orig_weight orig_inhom : expr) (rewritten : bool) (lower : nat) : expr :=
  if is_num (-(1))%Qc weight then gsub G inhom (expand (shifted G (-1) inhom))
  else
    let '(w, h, l) := if rewritten then (orig_weight, orig_inhom, lower) else (weight, inhom, 0%nat) in
    substitute G (Fun FX [Num 0%Qc]) (initial_term G w h l) (shifted G (-1 - Z.of_nat l) sol).
