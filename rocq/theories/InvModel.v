(** Model of the bookkeeping of the classifier in Recurrence objects: the type, the status and the
    pointers to the structures of each type, and Recurrence::OK (src/Recurrence.cc,
    src/Recurrence.inlines.hh, src/rr_classifier.cc). What the classifier sees in the right-hand
    side is the subject of other files; here it is any sequence of decisions. *)
From Coq Require Import List Bool Arith.
From Verif Require Import RecModel.
Import ListNotations.
Local Open Scope list_scope.
Local Open Scope nat_scope.

(** The members classifier_status_, type_, and whether finite_order_p, functional_eq_p,
    non_linear_p, weighted_average_p are not null (Recurrence.defs.hh:1327-1330). *)
Record robj := MkR { r_cls : cstatus; r_type : rtype; r_fo : bool; r_fe : bool; r_nl : bool; r_wa : bool }.
(** Recurrence.inlines.hh:39-53 Recurrence(); 55-69 Recurrence(e). *)
Definition default_object : robj := MkR CL_SUCCESS ORDER_ZERO false false false false.
Definition new_object : robj := MkR NOT_CLASSIFIED UNKNOWN false false false false.
(** Recurrence.inlines.hh:124-128 replace_recurrence. *)
Definition replaced (o : robj) : robj := MkR NOT_CLASSIFIED (r_type o) (r_fo o) (r_fe o) (r_nl o) (r_wa o).

(** The decisions of classification_summand (rr_classifier.cc:1055-1356): the calls of set_order_zero
    (1156, 1212, 1354), set_linear_finite_order_const_coeff (1122, 1348),
    set_linear_finite_order_var_coeff (1346), set_functional_equation (1142, 1260), of
    set_non_linear_finite_order with the allocation (1074-1077), and of set_weighted_average after
    the allocation (1187-1189, 1307-1309). *)
Inductive decision := DZero | DConst | DVar | DFunctional | DNonLinear | DWeighted.
Definition set_type (c : cstatus) (t : rtype) (o : robj) : robj := MkR c t (r_fo o) (r_fe o) (r_nl o) (r_wa o).
Definition decide (d : decision) (o : robj) : robj :=
  match d with
  | DZero => set_type CL_SUCCESS ORDER_ZERO o
  | DConst => set_type CL_SUCCESS CONST_COEFF o
  | DVar => set_type CL_SUCCESS VAR_COEFF o
  | DFunctional => set_type CL_SUCCESS FUNCTIONAL_EQUATION o
  | DNonLinear => MkR CL_SUCCESS NON_LINEAR (r_fo o) (r_fe o) true (r_wa o)
  | DWeighted => MkR CL_SUCCESS WEIGHTED_AVERAGE (r_fo o) (r_fe o) (r_nl o) true
  end.
(** How one run of classify() ends (rr_classifier.cc:1430-1567): a right-hand side that is a
    maximum (1472-1475), all the summands classified (1504-1566), a status other than success, a
    negative or null decrement that leads to another run with a rewritten right-hand side
    (1635-1669), an exception. *)
Inductive ending := EMax | EAll | ERefuse (c : cstatus) | EAgain | EThrow.
Record attempt := MkAttempt { a_decisions : list decision; a_ending : ending }.
(** rr_classifier.cc:1504-1566: the structure of the type found. For non-linear and
    weighted-average recurrences it was allocated before. The assertion at 1563 fails for the other
    types: the result is [None]. *)
Definition allocate (o : robj) : option robj :=
  match r_type o with
  | ORDER_ZERO | CONST_COEFF | VAR_COEFF => Some (MkR (r_cls o) (r_type o) true (r_fe o) (r_nl o) (r_wa o))
  | FUNCTIONAL_EQUATION => Some (MkR (r_cls o) (r_type o) (r_fo o) true (r_nl o) (r_wa o))
  | NON_LINEAR | WEIGHTED_AVERAGE => Some o
  | _ => None
  end.
(** rr_classifier.cc:1615-1682 classify_and_catch_special_cases on the runs [l] of classify();
    the runs after one that ends the loop do not take place. At the end classifier_status_ is the
    status of the last run (1680), unless an exception was thrown. An object whose summands led to
    no decision would fail the assertions of the predicates used at 1504-1566 ([None]). *)
Fixpoint classify_runs (l : list attempt) (o : robj) : option robj :=
  match l with
  | [] => Some o
  | a :: l =>
    let o' := fold_left (fun o d => decide d o) (a_decisions a) o in
    match a_ending a with
    | EMax => Some (set_type CL_SUCCESS MAX_FUNCTION o)
    | EAll => match r_cls o' with NOT_CLASSIFIED => None | _ => match allocate o' with Some o' => Some (set_type CL_SUCCESS (r_type o') o') | None => None end end
    | ERefuse c => Some (set_type c (r_type o') o')
    | EAgain => classify_runs l (set_type NOT_CLASSIFIED UNKNOWN o')
    | EThrow => Some o'
    end
  end.
(** rr_classifier.cc:1617-1618: nothing for an object already classified. *)
Definition classify (l : list attempt) (o : robj) : option robj :=
  match r_cls o with NOT_CLASSIFIED => classify_runs l o | _ => Some o end.

(** Recurrence.cc:1649-1683 OK(): no [break] after the case ORDER_ZERO. *)
Definition OK (o : robj) : bool :=
  let finite := if negb (r_fo o) then false else true in
  match r_type o with
  | ORDER_ZERO => if r_fo o then false else finite
  | CONST_COEFF | VAR_COEFF => finite
  | _ => true
  end.

(** Histories; [None]: a failed assertion, or a call C++ does not allow (on objects that do not
    exist, or constructing one that exists). *)
Inductive icmd := IDefault (i : nat) | IMake (i : nat) | ICopy (i j : nat) | IAssign (i j : nat) | IReplace (i : nat) | IClassify (i : nat) (l : list attempt).
Definition iput (w : nat -> option robj) (i : nat) (o : robj) : nat -> option robj := fun j => if j =? i then Some o else w j.
Definition istep (c : icmd) (w : nat -> option robj) : option (nat -> option robj) :=
  match c with
  | IDefault i => match w i with None => Some (iput w i default_object) | _ => None end
  | IMake i => match w i with None => Some (iput w i new_object) | _ => None end
  | ICopy i j => match w i, w j with None, Some o => Some (iput w i o) | _, _ => None end
  | IAssign i j => match w i, w j with Some _, Some o => Some (iput w i o) | _, _ => None end
  | IReplace i => match w i with Some o => Some (iput w i (replaced o)) | None => None end
  | IClassify i l => match w i with Some o => match classify l o with Some o => Some (iput w i o) | None => None end | None => None end
  end.
Fixpoint irun (h : list icmd) (w : nat -> option robj) : option (nat -> option robj) :=
  match h with [] => Some w | c :: h => match istep c w with Some w => irun h w | None => None end end.
Definition after (h : list icmd) : option (nat -> option robj) := irun h (fun _ => None).
