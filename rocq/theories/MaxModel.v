(** Model of Recurrence::compute_exact_solution_max (src/Recurrence.cc). *)
From Coq Require Import ZArith QArith Qcanon List String Bool Arith.
From Verif Require Import Ast RecModel.
Import ListNotations.
Local Open Scope list_scope.

(** The auxiliary Recurrence object built from the functional argument:
    classify() and is_linear_finite_order() (order, [None] if it is not linear of finite order),
    compute_exact_solution(), and the closed form that exact_solution() returns after
    set_initial_conditions({0: c}). *)
Record aux_rec := MkAux {
  a_order : expr -> option nat;
  a_status : expr -> sstatus;
  a_solution : expr -> expr -> expr }.

Definition number_or_symbol (e : expr) : bool := match e with Num _ | Sym _ => true | _ => false end.

(** Recurrence.cc:1274-1285: the numeric or symbolic argument and the functional one. *)
Definition split_max (rhs : expr) : option (expr * expr) :=
  match rhs with
  | Fun FMax [p; q] => if number_or_symbol p then Some (p, q) else if number_or_symbol q then Some (q, p) else None
  | _ => None
  end.

(** Recurrence.cc:1264-1311. No initial conditions: they are refused for this type
    (set_initial_conditions throws), so that lines 1298-1303 are dead.
    set_initial_conditions of the auxiliary recurrence throws if its order is 2 or more, since
    only x(0) is given (Recurrence.cc:91-131). *)
Definition compute_exact_solution_max (A : aux_rec) (rhs : expr) : res (expr + sstatus) :=
  match split_max rhs with
  | None => Ok (inr TOO_COMPLEX)
  | Some (c, f) =>
    match a_order A f with
    | None => Ok (inr TOO_COMPLEX)
    | Some k =>
      match a_status A f with
      | SUCCESS => if 1 <? k then Exc else Ok (inl (a_solution A f c))
      | s => Ok (inr s)
      end
    end
  end.
