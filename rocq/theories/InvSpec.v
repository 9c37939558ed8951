(** When the structures a Recurrence object needs are there. *)
From Coq Require Import List Bool Arith.
From Verif Require Import RecModel InvModel.
Import ListNotations.
Local Open Scope list_scope.

(** The structure that the accessors (order(), coefficients(), rank(), base_exp_log(), weight(), ...)
    of each type read; recurrences of type MAX_FUNCTION have none. *)
Definition structure_present (o : robj) : Prop :=
  match r_type o with
  | ORDER_ZERO | CONST_COEFF | VAR_COEFF => r_fo o = true
  | FUNCTIONAL_EQUATION => r_fe o = true
  | NON_LINEAR => r_nl o = true
  | WEIGHTED_AVERAGE => r_wa o = true
  | MAX_FUNCTION => True
  | UNKNOWN => False
  end.
(** [from_default h b i]: object [i] was default constructed, or copied or assigned from such an
    object, and replace_recurrence was not called on it since. The second argument says this of
    the objects before the history. *)
Fixpoint from_default (h : list icmd) (b : nat -> bool) : nat -> bool :=
  let set i v := fun j => if Nat.eqb j i then v else b j in
  match h with
  | [] => b
  | IDefault i :: h => from_default h (set i true)
  | IMake i :: h => from_default h (set i false)
  | ICopy i j :: h => from_default h (set i (b j))
  | IAssign i j :: h => from_default h (set i (b j))
  | IReplace i :: h => from_default h (set i false)
  | IClassify _ _ :: h => from_default h b
  end.
(** No exception is thrown while an object is classified. *)
Definition no_throw (h : list icmd) : Prop := forall i l a, In (IClassify i l) h -> In a l -> a_ending a <> EThrow.
(** The statuses other than success are those a refusal gives. *)
Definition refusals (h : list icmd) : Prop := forall i l a c, In (IClassify i l) h -> In a l -> a_ending a = ERefuse c -> c <> CL_SUCCESS /\ c <> NOT_CLASSIFIED.
