(** Specification of three-valued answers, independent of the functions.
    A three-valued answer stands for the set of truth values it admits. *)
From Verif Require Import Bool3Model.

Definition admits (a : bool3) (v : bool) : Prop :=
  match a with
  | ALWAYS => v = true
  | NEVER => v = false
  | MAYBE => True
  end.

(** [exact_op2 f op]: [f a b] admits exactly the truth values obtainable by
    applying [op] to truth values admitted by [a] and by [b]: nothing is
    claimed that is not justified, nothing determined is lost. *)
Definition exact_op2 (f : bool3 -> bool3 -> bool3) (op : bool -> bool -> bool) : Prop :=
  forall a b v,
    admits (f a b) v <-> exists va vb, admits a va /\ admits b vb /\ v = op va vb.

Definition exact_op1 (f : bool3 -> bool3) (op : bool -> bool) : Prop :=
  forall a v, admits (f a) v <-> exists va, admits a va /\ v = op va.

(** Information order: [a] carries at least as much information as [b]. *)
Definition at_least_as_informative (a b : bool3) : Prop :=
  forall v, admits a v -> admits b v.
