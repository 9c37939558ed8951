(** Which histories share or forget the memory owned by a recurrence. *)
From Coq Require Import List Bool Arith.
From Verif Require Import RecMemModel.
Import ListNotations.
Local Open Scope list_scope.
Local Open Scope nat_scope.

(** Histories that copy or assign only recurrences that were not classified before. *)
Fixpoint no_shared (l : list mcmd) (classified : nat -> bool) : bool :=
  let set i b := fun j => if j =? i then b else classified j in
  match l with
  | [] => true
  | MCopy _ j :: l | MAssign _ j :: l => negb (classified j) && no_shared l classified
  | MClassify i _ :: l => no_shared l (set i true)
  | _ :: l => no_shared l classified
  end.
(** ... and moreover that do not make a classified recurrence forget its structures. *)
Fixpoint no_forget (l : list mcmd) (classified : nat -> bool) : bool :=
  let set i b := fun j => if j =? i then b else classified j in
  match l with
  | [] => true
  | MAssign i _ :: l | MReplace i :: l => negb (classified i) && no_forget l classified
  | MClassify i _ :: l => no_forget l (set i true)
  | _ :: l => no_forget l classified
  end.

