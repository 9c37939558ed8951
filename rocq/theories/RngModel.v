(** Model of the range versions of Recurrence::evaluate_exact_solution, evaluate_lower_bound and
    evaluate_upper_bound (src/Recurrence.inlines.hh), on top of the state machine of RecModel. *)
From Coq Require Import ZArith QArith Qcanon Qround List Bool Arith.
From Verif Require Import Ast ExprModel RecModel.
Import ListNotations.
Local Open Scope list_scope.
Local Open Scope nat_scope.

Section Range.
Context (G : engine).

(** Recurrence.inlines.hh:205-209, 224-228, 243-247: the loop [for (Number i = begin; i < end; ++i)
    { *oi = evaluate(kind, i); ++oi; }]; [out] is what was written through the output iterator so
    far, in reverse. The result is [None] when the fuel does not suffice (it always does, see
    C93_range_ends). An exception, or undefined behaviour, of evaluate leaves the loop; what was
    written stays written. *)
Fixpoint range_loop (fuel : nat) (kind : nat) (i stop : Qc) (s : state G) (out : list (E G)) : option (state G * list (E G) * res unit) :=
  if negb (q_lt i stop) then Some (s, rev out, Ok tt)
  else
    match fuel with
    | O => None
    | S fuel =>
      match evaluate G kind i s with
      | (s, Ok v) => range_loop fuel kind (i + 1)%Qc stop s (v :: out)
      | (s, Exc) => Some (s, rev out, Exc)
      | (s, UB) => Some (s, rev out, UB)
      end
    end.
(** The number of iterations from [a] up to [b]. *)
Definition steps (a b : Qc) : nat := Z.to_nat (Qceiling (this (b - a)%Qc)).
(** Recurrence.inlines.hh:197-210 (kind 0), 218-230 (kind 1), 238-250 (kind 2); 200-203:
    throw_invalid_argument when begin > end. *)
Definition evaluate_range (kind : nat) (b e : Qc) (s : state G) : option (state G * list (E G) * res unit) :=
  if q_lt e b then Some (s, [], Exc) else range_loop (steps b e) kind b e s [].
End Range.
