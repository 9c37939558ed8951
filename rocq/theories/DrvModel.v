(** Model of the last part of classify() (the first valid index) and of classify_and_catch_special_cases()
    (src/rr_classifier.cc).  Simplifications: the three simplifications applied by classify() are one parameter; what
    becomes of non-linear and weighted-average recurrences (NonLinModel, WClassModel) is a parameter, and so is the type
    that a failed classification leaves behind; the homogeneous terms are taken in the order in which they were found. *)
From Coq Require Import ZArith QArith Qcanon List String Bool.
From Verif Require Import Ast ExprModel ElimModel ClassModel DomModel.
Import ListNotations.
Local Open Scope bool_scope.
Local Open Scope list_scope.

Section Index.
Context (G : ginac) (numerator denominator expand : expr -> expr) (roots : string -> expr -> list Qc) (fuel : nat).
(** util.cc:489-582 find_domain_in_N as used here: [None] if the answer is false. *)
Definition raise_index (e : expr) (z : Z) : option Z :=
  match find_domain_in_N G numerator denominator expand roots fuel "n" e z with Some (true, z) => Some z | _ => None end.
(** rr_classifier.cc:1527-1534: the denominator of the inhomogeneous term. *)
Definition check_inhomogeneous (e : expr) (z : Z) : option Z :=
  if is_num 0 e then Some z else let d := denominator e in if has_parameters d then None else raise_index d z.
(** rr_classifier.cc:1535-1542: the coefficient of x(n-1). *)
Definition check_coefficient (s : cls) (z : Z) : option Z :=
  match c_type s with
  | Some VAR_COEFF =>
    if Nat.eqb (c_order s) 1 then let c := nth 1 (c_coeffs s) (Num 0%Qc) in if has_parameters c then None else raise_index c z
    else Some z
  | _ => Some z
  end.
(** rr_classifier.cc:1549-1555: the coefficients of the x(n/b). *)
Fixpoint check_homogeneous (l : list (Qc * expr)) (z : Z) : option Z :=
  match l with [] => Some z | (_, a) :: l => match raise_index a z with Some z => check_homogeneous l z | None => None end end.
(** rr_classifier.cc:1515-1560; [None]: CL_TOO_COMPLEX. *)
Definition first_valid_index (s : cls) : option Z :=
  match c_type s with
  | Some FUNCTIONAL => match check_homogeneous (c_hom s) 0 with Some z => Some (Z.max z 1) | None => None end
  | _ =>
    if Nat.ltb 0 (c_order s) then match check_inhomogeneous (c_inhom s) 0 with Some z => check_coefficient s z | None => None end
    else Some 0%Z
  end.
End Index.

(** The final answers: success, with the data found if the recurrence is linear or a functional equation, or a failure. *)
Inductive final := Success | Failed (e : status).
(** What the driver has done so far, for the statement of its properties only. *)
Inductive action := Simplified (e : expr) | Solved_negative (e : expr) | Solved_null (e : expr).
(** The members of Recurrence that the classification changes. *)
Record state := MkSt { d_rhs : expr; d_rewritten : bool; d_status : option final; d_type : option rtype; d_data : option (cls * Z); d_log : list action }.

Section Driver.
Context (G : ginac) (long_max max_size : Z) (simplify expand collect : expr -> expr) (index : cls -> option Z)
  (other : expr -> final) (leftover : expr -> option rtype).
Definition is_max (e : expr) : bool := match e with Fun FMax _ => true | _ => false end.
(** rr_classifier.cc:1445-1521, with the type_ the object has; see ClassModel. *)
Definition classify_from (t : option rtype) (rhs : expr) : status + cls :=
  classify_terms G long_max max_size (match rhs with Add l => l | e => [e] end) 0 (MkC 0 [] 0%Z [] (Num 0%Qc) t).
(** rr_classifier.cc:1441-1565 classify. *)
Definition classify_object (r : state) : state * final :=
  let rhs := simplify (d_rhs r) in
  let r := MkSt rhs (d_rewritten r) (d_status r) (d_type r) (d_data r) (d_log r ++ [Simplified (d_rhs r)]) in
  let give t data := MkSt rhs (d_rewritten r) (d_status r) t data (d_log r) in
  if is_max rhs then (r, Success)
  else match classify_from (d_type r) rhs with
  | inl NON_LINEAR | inl WEIGHTED_AVERAGE => (give (leftover rhs) (d_data r), other rhs)
  | inl e => (give (leftover rhs) (d_data r), Failed e)
  | inr s => match index s with
             | Some z => (give (c_type s) (Some (s, z)), Success)
             | None => (give (c_type s) (d_data r), Failed CL_TOO_COMPLEX)
             end
  end.
Definition finish (r : state) (f : final) : option (state * final) :=
  Some (MkSt (d_rhs r) (d_rewritten r) (Some f) (d_type r) (d_data r) (d_log r), f).
Definition rewrite_rhs (a : action) (new : expr) (r : state) : state := MkSt new true None None (d_data r) (d_log r ++ [a]).
(** rr_classifier.cc:1621-1679: the loop and the recursion; the object is not classified yet when the recursive calls are made.
    [None]: more rounds than the fuel. *)
Fixpoint drive (fuel : nat) (r : state) : option (state * final) :=
  match fuel with
  | O => None
  | S fuel =>
    match classify_object r with
    | (r, Failed HAS_NEGATIVE) =>
      match drive fuel (rewrite_rhs (Solved_negative (d_rhs r)) (eliminate_negative G expand collect (d_rhs r)) r) with
      | Some (r, Success) => finish r Success
      | Some (r, Failed _) => drive fuel r
      | None => None
      end
    | (r, Failed HAS_NULL) =>
      match eliminate_null G collect (d_rhs r) with
      | Rewritten new =>
        match drive fuel (rewrite_rhs (Solved_null (d_rhs r)) new r) with
        | Some (r, f) => finish r f
        | None => None
        end
      | Unsolvable => finish r (Failed CL_UNSOLVABLE)
      | Indeterminate => finish r (Failed CL_INDETERMINATE)
      | Too_complex => finish r (Failed CL_TOO_COMPLEX)
      end
    | (r, f) => finish r f
    end
  end.
(** rr_classifier.cc:1615-1683 classify_and_catch_special_cases. *)
Definition classify_and_catch_special_cases (fuel : nat) (r : state) : option (state * final) :=
  match d_status r with Some f => Some (r, f) | None => drive fuel r end.
End Driver.
(** A recurrence as constructed (Recurrence.hh). *)
Definition new_recurrence (rhs : expr) : state := MkSt rhs false None None None [].
