(** The memory owned by Recurrence objects: the four pointers to the structures made by the
    classifier. *)
From Coq Require Import List Bool Arith.
Import ListNotations.
Local Open Scope list_scope.
Local Open Scope nat_scope.

(** Recurrence.defs.hh:1327-1330: finite_order_p, functional_eq_p, non_linear_p,
    weighted_average_p. *)
Record robject := MkObj { o_done : bool; o_ptrs : list (option nat) }.
(** The heap: the addresses allocated and not deleted, the next address. *)
Record heap := MkHeap { h_live : list nat; h_next : nat }.
Record mem := MkMem { objects : nat -> option robject; the_heap : heap }.

Inductive mcmd := MNew (i : nat) | MCopy (i j : nat) | MAssign (i j : nat) | MReplace (i : nat) | MClassify (i : nat) (kind : nat) | MUse (i : nat) | MDestroy (i : nat).

Definition set_obj (m : mem) (i : nat) (o : option robject) : mem := MkMem (fun j => if j =? i then o else objects m j) (the_heap m).
(** delete p: nothing for the null pointer, undefined for an address not allocated. *)
Definition delete (p : option nat) (h : heap) : option heap :=
  match p with
  | None => Some h
  | Some a => if existsb (Nat.eqb a) (h_live h) then Some (MkHeap (List.remove Nat.eq_dec a (h_live h)) (h_next h)) else None
  end.
Fixpoint delete_all (l : list (option nat)) (h : heap) : option heap :=
  match l with [] => Some h | p :: l => match delete p h with Some h => delete_all l h | None => None end end.
Definition readable (h : heap) (p : option nat) : bool := match p with None => true | Some a => existsb (Nat.eqb a) (h_live h) end.
Fixpoint set_nth (k : nat) (p : option nat) (l : list (option nat)) : list (option nat) :=
  match l, k with [] , _ => [] | _ :: l, O => p :: l | q :: l, S k => q :: set_nth k p l end.

(** One call; [None] is undefined behaviour. Calls on objects that do not exist, and
    constructions where one exists, are not possible in C++ and do nothing here.
    Recurrence.inlines.hh:40-68 constructors, 71-91 copy (the pointers are copied), 93-114
    operator= (likewise, nothing is deleted), 116-122 destructor, 124-128 replace_recurrence;
    rr_classifier.cc:1076, 1545, 1557 allocation, for a recurrence not yet classified. [MUse]
    stands for any call that reads the structures of a classified recurrence. *)
Definition mstep (c : mcmd) (m : mem) : option mem :=
  match c with
  | MNew i => match objects m i with None => Some (set_obj m i (Some (MkObj false [None; None; None; None]))) | Some _ => Some m end
  | MCopy i j => match objects m i, objects m j with None, Some o => Some (set_obj m i (Some o)) | _, _ => Some m end
  | MAssign i j => match objects m i, objects m j with Some _, Some o => Some (set_obj m i (Some o)) | _, _ => Some m end
  | MReplace i => match objects m i with Some o => Some (set_obj m i (Some (MkObj false (o_ptrs o)))) | None => Some m end
  | MClassify i kind =>
    match objects m i with
    | Some o =>
      if o_done o then Some m
      else if kind <? 4 then
        let a := h_next (the_heap m) in
        Some (MkMem (objects (set_obj m i (Some (MkObj true (set_nth kind (Some a) (o_ptrs o)))))) (MkHeap (a :: h_live (the_heap m)) (S a)))
      else Some (set_obj m i (Some (MkObj true (o_ptrs o))))
    | None => Some m
    end
  | MUse i =>
    match objects m i with
    | Some o => if negb (o_done o) || forallb (readable (the_heap m)) (o_ptrs o) then Some m else None
    | None => Some m
    end
  | MDestroy i =>
    match objects m i with
    | Some o => match delete_all (o_ptrs o) (the_heap m) with Some h => Some (set_obj (MkMem (objects m) h) i None) | None => None end
    | None => Some m
    end
  end.
Fixpoint mrun (l : list mcmd) (m : mem) : option mem :=
  match l with [] => Some m | c :: l => match mstep c m with Some m => mrun l m | None => None end end.
Definition no_objects : mem := MkMem (fun _ => None) (MkHeap [] 0).
