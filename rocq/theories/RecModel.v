(** Model of the class Recurrence (src/Recurrence.cc, src/Recurrence.inlines.hh) as a state
    machine: caches, initial conditions, evaluation.
    The algorithms behind it (classifier, solvers, bounds, substitution of initial conditions)
    are the fields of [engine]; they are the subject of the other files. *)
From Coq Require Import ZArith QArith Qcanon List Bool Arith Lia.
From Verif Require Import Ast ExprModel.
Import ListNotations.
Local Open Scope list_scope.
Local Open Scope nat_scope.

(** Recurrence.defs.hh: Type, Solver_Status, Classifier_Status, Bound. *)
Inductive rtype := ORDER_ZERO | CONST_COEFF | VAR_COEFF | NON_LINEAR | WEIGHTED_AVERAGE | FUNCTIONAL_EQUATION | MAX_FUNCTION | UNKNOWN.
Inductive sstatus := SUCCESS | UNSOLVABLE | INDETERMINATE | MALFORMED | DOMAIN_ERROR | TOO_COMPLEX.
Inductive cstatus := CL_SUCCESS | CL_INDETERMINATE | CL_UNSOLVABLE | CL_NON_INTEGER | CL_MALFORMED | CL_DOMAIN | CL_HUGE | CL_TOO_COMPLEX | CL_NEGATIVE | CL_NULL | NOT_CLASSIFIED.
Inductive bound := LOWER | UPPER.

(** What the classifier leaves in the object and the pointed structures. *)
Record info := MkInfo {
  i_type : rtype;
  i_order : nat;            (** order() or, for non-linear recurrences, the order of the associated linear one *)
  i_linear_zero : bool;     (** associated_linear_rec().recurrence_rhs == 0 *)
  i_simple : bool;          (** coeff_simple_non_linear_rec() != 0 *)
  i_conditions : nat;       (** functional equations: (ht_begin()->first - 1).to_unsigned_int() *)
  i_first : nat;            (** first_valid_index *)
}.

(** Results of a method: normal return, C++ exception, undefined behaviour / failed assertion. *)
Inductive res (A : Type) := Ok (a : A) | Exc | UB.
Arguments Ok {A} a. Arguments Exc {A}. Arguments UB {A}.

Record engine := MkEngine {
  E : Type;
  e_eqb : E -> E -> bool;                             (** operator== *)
  e_one : E;                                          (** Expr(true) *)
  e_number : E -> option Qc;                          (** is_a_number / ex_to_number *)
  e_classify : E -> cstatus * E * info;               (** classify(), rewriting the right-hand side *)
  e_solve : E -> info -> E + sstatus;                 (** the exact solvers: a solution or a status other than SUCCESS *)
  e_approx : bound -> E -> info -> E + sstatus;       (** approximate_functional_equation up to the caches; compute_non_linear_recurrence *)
  e_on_ic : info -> list (nat * E) -> E -> E;         (** compute_solution_or_bound_on_i_c *)
  e_rename : E -> E;                                  (** replace_system_generated_symbols *)
  e_x : nat -> E;                                     (** x(k) *)
  e_subst : E -> Qc -> E;                             (** substitute(n, number) *)
}.

Section Machine.
Context (G : engine).
Notation E := (E G).

(** The map of initial conditions is a list sorted by strictly increasing index. *)
Record state := MkState {
  rhs : E; cls : cstatus; inf : info;
  exact : option E; lower : option E; upper : option E;
  ev_exact : option E; ev_lower : option E; ev_upper : option E;
  ics : list (nat * E); tried : bool; fvis : nat }.

Definition set_rhs (r : E) (c : cstatus) (i : info) (s : state) : state :=
  MkState r c i (exact s) (lower s) (upper s) (ev_exact s) (ev_lower s) (ev_upper s) (ics s) (tried s) (fvis s).
Definition set_exact (e : option E) (s : state) : state :=
  MkState (rhs s) (cls s) (inf s) e (lower s) (upper s) (ev_exact s) (ev_lower s) (ev_upper s) (ics s) (tried s) (fvis s).
Definition set_lower (e : option E) (s : state) : state :=
  MkState (rhs s) (cls s) (inf s) (exact s) e (upper s) (ev_exact s) (ev_lower s) (ev_upper s) (ics s) (tried s) (fvis s).
Definition set_upper (e : option E) (s : state) : state :=
  MkState (rhs s) (cls s) (inf s) (exact s) (lower s) e (ev_exact s) (ev_lower s) (ev_upper s) (ics s) (tried s) (fvis s).
Definition set_ev (a b c : option E) (s : state) : state :=
  MkState (rhs s) (cls s) (inf s) (exact s) (lower s) (upper s) a b c (ics s) (tried s) (fvis s).
Definition set_ics (m : list (nat * E)) (s : state) : state :=
  MkState (rhs s) (cls s) (inf s) (exact s) (lower s) (upper s) (ev_exact s) (ev_lower s) (ev_upper s) m (tried s) (fvis s).
Definition set_tried (b : bool) (s : state) : state :=
  MkState (rhs s) (cls s) (inf s) (exact s) (lower s) (upper s) (ev_exact s) (ev_lower s) (ev_upper s) (ics s) b (fvis s).
Definition set_fvis (k : nat) (s : state) : state :=
  MkState (rhs s) (cls s) (inf s) (exact s) (lower s) (upper s) (ev_exact s) (ev_lower s) (ev_upper s) (ics s) (tried s) k.

Definition no_info : info := MkInfo UNKNOWN 0 false false 0 0.
(** Recurrence.inlines.hh:54-68. *)
Definition construct (e : E) : state := MkState e NOT_CLASSIFIED no_info None None None None None None [] false 0.
(** Recurrence.inlines.hh:71-91: the evaluated expressions are not copied. *)
Definition copy (y : state) : state := set_ev None None None y.
(** Recurrence.inlines.hh:93-114 operator=: the evaluated expressions of the target stay. *)
Definition assign (t y : state) : state := set_ev (ev_exact t) (ev_lower t) (ev_upper t) y.
(** Recurrence.inlines.hh:124-128 replace_recurrence. *)
Definition replace_recurrence (e : E) (s : state) : state := set_rhs e NOT_CLASSIFIED (inf s) s.
(** Recurrence.inlines.hh:158-164 reset_initial_conditions. *)
Definition reset_initial_conditions (s : state) : state := set_ev None None None (set_ics [] s).
(** Recurrence.inlines.hh:171-178 get_initial_condition. *)
Fixpoint find_ic (k : nat) (m : list (nat * E)) : option E :=
  match m with [] => None | (i, e) :: m => if i =? k then Some e else find_ic k m end.
Definition get_initial_condition (k : nat) (s : state) : E := match find_ic k (ics s) with Some e => e | None => e_x G k end.
(** Recurrence.inlines.hh:180-188 get_max_index_initial_condition. *)
Definition max_index (m : list (nat * E)) : nat := match rev m with [] => 0 | (i, _) :: _ => i end.

(** rr_classifier.cc:1615-1682 classify_and_catch_special_cases: nothing is done for a
    classified recurrence. [e_classify] stands for the loop that rewrites the right-hand side. *)
Definition classify (s : state) : state :=
  match cls s with
  | NOT_CLASSIFIED => let '(c, r, i) := e_classify G (rhs s) in set_rhs r c i s
  | _ => s
  end.
(** Recurrence.cc:476-500 map_status; the default branch throws. *)
Definition map_status (c : cstatus) : res sstatus :=
  match c with
  | CL_SUCCESS => Ok SUCCESS
  | CL_INDETERMINATE => Ok INDETERMINATE
  | CL_UNSOLVABLE => Ok UNSOLVABLE
  | CL_NON_INTEGER | CL_MALFORMED => Ok MALFORMED
  | CL_DOMAIN => Ok DOMAIN_ERROR
  | CL_HUGE | CL_TOO_COMPLEX => Ok TOO_COMPLEX
  | _ => Exc
  end.

(** * Initial conditions *)
Definition negative (e : E) : bool := match e_number G e with Some q => q_lt q 0 | None => false end.
Definition is_number (e : E) : bool := match e_number G e with Some _ => true | None => false end.
(** Recurrence.cc:117-131: the [k-1] conditions after the largest one have consecutive indices. *)
Fixpoint consecutive (m : list (nat * E)) (largest j : nat) (count : nat) : bool :=
  match count with
  | O => true
  | S count => match m with (i, _) :: m => (Z.of_nat i =? Z.of_nat largest - Z.of_nat j)%Z && consecutive m largest (S j) count | [] => false end
  end.
(** Recurrence.cc:78-245: the checks of set_initial_conditions, [true] when accepted. *)
Definition check_ic (i : info) (m : list (nat * E)) : res bool :=
  match i_type i with
  | ORDER_ZERO => Ok true
  | CONST_COEFF | VAR_COEFF | NON_LINEAR =>
    let non_linear := match i_type i with NON_LINEAR => true | _ => false end in
    let k := if non_linear && i_linear_zero i then 1 else i_order i in
    if length m <? k then Ok false
    else match rev m with
         | [] => UB
         | (largest, _) :: rest =>
           if largest <? i_first i then Ok false
           else if negb (consecutive rest largest 1 (k - 1)) then Ok false
           else if non_linear && existsb (fun p => negative (snd p)) m then Ok false
           else Ok true
         end
  | WEIGHTED_AVERAGE => match rev m with [] => Ok false | (largest, _) :: _ => Ok (negb (largest <? i_first i)) end
  | FUNCTIONAL_EQUATION =>
    let k := i_conditions i in
    if negb (length m =? k) then Ok false
    else Ok (forallb (fun p => (fst (snd p) =? fst p) && is_number (snd (snd p)) && negb (negative (snd (snd p)))) (combine (seq 1 k) m))
  | _ => Exc
  end.
(** Recurrence.cc:65-248 set_initial_conditions. The loop for functional equations (204-236)
    and its special case for one condition are folded into one. *)
Definition set_initial_conditions (m : list (nat * E)) (s : state) : state * res unit :=
  let s := match ics s with [] => s | _ => reset_initial_conditions s end in
  let s := classify s in
  match cls s with
  | CL_SUCCESS =>
    match check_ic (inf s) m with
    | Ok true => (set_ics m s, Ok tt)
    | Ok false => (s, Exc)
    | Exc => (s, Exc)
    | UB => (s, UB)
    end
  | _ => (s, Exc)
  end.

(** * Solving *)
(** Recurrence.cc:1264-1311 etc.: is the type solved by compute_exact_solution_finite_order? *)
Definition all_three (e : E) (s : state) : state := set_upper (Some e) (set_lower (Some e) (set_exact (Some e) s)).
Definition ev_three (e : E) (s : state) : state := set_ev (Some e) (Some e) (Some e) s.
Definition on_ic (e : E) (s : state) : E := e_on_ic G (inf s) (ics s) e.
Definition has_ics (s : state) : bool := match ics s with [] => false | _ => true end.
(** compute_bounds.cc:937-980 approximate_functional_equation: when both bounds are equal the
    exact solution is set to the expression made from the value of has_expression(). *)
Definition approximate (b : bound) (s : state) : state * sstatus :=
  match e_approx G b (rhs s) (inf s) with
  | inl e =>
    let s := match b with LOWER => set_lower (Some e) s | UPPER => set_upper (Some e) s end in
    match lower s, upper s with
    | Some l, Some u => if e_eqb G u l then (set_exact (Some (e_one G)) s, SUCCESS) else (s, SUCCESS)
    | _, _ => (s, SUCCESS)
    end
  | inr st => (s, st)
  end.
Definition sum_ok (st : sstatus) : bool := match st with SUCCESS => true | _ => false end.
(** Recurrence.cc:1135-1311 compute_exact_solution_{finite_order,functional_equation,
    non_linear,weighted_average,max}. *)
Definition exact_by_type (s : state) : state * res sstatus :=
  match i_type (inf s) with
  | ORDER_ZERO | CONST_COEFF | VAR_COEFF =>
    match e_solve G (rhs s) (inf s) with
    | inr st => (s, Ok st)
    | inl e =>
      let s := all_three e s in
      if has_ics s && (0 <? i_order (inf s)) then (ev_three (e_rename G (on_ic e s)) s, Ok SUCCESS) else (s, Ok SUCCESS)
    end
  | NON_LINEAR | WEIGHTED_AVERAGE =>
    match e_solve G (rhs s) (inf s) with
    | inr st => (s, Ok st)
    | inl e => let s := all_three e s in if has_ics s then (ev_three (on_ic e s) s, Ok SUCCESS) else (s, Ok SUCCESS)
    end
  | FUNCTIONAL_EQUATION =>
    let (s, st) := approximate LOWER s in
    if sum_ok st then
      let (s, st) := approximate UPPER s in
      if sum_ok st then
        match lower s, upper s with
        | Some l, Some u =>
          if e_eqb G l u then
            let s := set_exact (Some l) s in
            if has_ics s then (ev_three (on_ic l s) s, Ok SUCCESS) else (s, Ok SUCCESS)
          else (s, Ok TOO_COMPLEX)
        | _, _ => (s, UB)
        end
      else (s, Ok TOO_COMPLEX)
    else (s, Ok TOO_COMPLEX)
  | MAX_FUNCTION =>
    match e_solve G (rhs s) (inf s) with
    | inr st => (s, Ok st)
    | inl e => (set_exact (Some e) s, Ok SUCCESS)      (* initial conditions are never accepted for this type *)
    end
  | UNKNOWN => (s, Exc)
  end.
(** Recurrence.cc:1313-1372 compute_exact_solution. *)
Definition compute_exact_solution (s : state) : state * res sstatus :=
  let s := set_tried true s in
  match exact s with
  | Some e =>
    match ev_exact s with
    | None => if has_ics s then (ev_three (on_ic e s) s, Ok SUCCESS) else (s, Ok SUCCESS)
    | Some _ => (s, Ok SUCCESS)
    end
  | None =>
    let by_class :=
      let s := classify s in
      match cls s with CL_SUCCESS => exact_by_type s | c => (s, map_status c) end in
    match lower s, upper s with
    | Some l, Some u => if e_eqb G l u then (set_exact (Some l) s, Ok SUCCESS) else by_class
    | _, _ => by_class
    end
  end.
(** Recurrence.cc:1412-1449 compute_bound_functional_equation, compute_bound_non_linear. *)
Definition compute_bound (b : bound) (s : state) : state * res sstatus :=
  match i_type (inf s) with
  | FUNCTIONAL_EQUATION =>
    let (s, st) := approximate b s in
    if sum_ok st then
      if has_ics s then
        match b, lower s, upper s with
        | LOWER, Some l, _ => (set_ev (ev_exact s) (Some (on_ic l s)) (ev_upper s) s, Ok SUCCESS)
        | UPPER, _, Some u => (set_ev (ev_exact s) (ev_lower s) (Some (on_ic u s)) s, Ok SUCCESS)
        | _, _, _ => (s, UB)
        end
      else (s, Ok SUCCESS)
    else (s, Ok st)
  | _ =>
    match e_approx G b (rhs s) (inf s) with
    | inl e => (match b with LOWER => set_lower (Some e) s | UPPER => set_upper (Some e) s end, Ok SUCCESS)
    | inr st => (s, Ok st)
    end
  end.
Definition bound_of (b : bound) (s : state) : option E := match b with LOWER => lower s | UPPER => upper s end.
Definition ev_bound_of (b : bound) (s : state) : option E := match b with LOWER => ev_lower s | UPPER => ev_upper s end.
Definition set_bound (b : bound) (e : E) (s : state) : state := match b with LOWER => set_lower (Some e) s | UPPER => set_upper (Some e) s end.
Definition set_ev_bound (b : bound) (e : E) (s : state) : state :=
  match b with LOWER => set_ev (ev_exact s) (Some e) (ev_upper s) s | UPPER => set_ev (ev_exact s) (ev_lower s) (Some e) s end.
(** Recurrence.cc:1451-1576 compute_lower_bound, compute_upper_bound. *)
Definition compute_bound_top (b : bound) (s : state) : state * res sstatus :=
  match bound_of b s with
  | Some l => if has_ics s && match ev_bound_of b s with None => true | _ => false end then (set_ev_bound b (on_ic l s) s, Ok SUCCESS) else (s, Ok SUCCESS)
  | None =>
    match exact s with
    | Some e =>
      let s := if has_ics s && match ev_bound_of b s with None => true | _ => false end
               then set_ev_bound b (on_ic e s) (set_ev (Some (on_ic e s)) (ev_lower s) (ev_upper s) s) else s in
      (set_bound b e s, Ok SUCCESS)
    | None =>
      let s := classify s in
      match cls s with
      | CL_SUCCESS =>
        match i_type (inf s) with
        | ORDER_ZERO | CONST_COEFF | VAR_COEFF | WEIGHTED_AVERAGE => if tried s then (s, Ok TOO_COMPLEX) else compute_exact_solution s
        | FUNCTIONAL_EQUATION | NON_LINEAR => compute_bound b s
        | MAX_FUNCTION => (s, Ok TOO_COMPLEX)
        | UNKNOWN => (s, Exc)
        end
      | c => (s, map_status c)
      end
    end
  end.

(** * Reading *)
(** Recurrence.cc:250-283 set_first_valid_index_for_solution. Advancing past the end of the
    map, and order 0 (the unsigned order - 1), are undefined. *)
Definition first_for_solution (i : info) (m : list (nat * E)) : res nat :=
  match m with
  | [] => Ok (match i_type i with WEIGHTED_AVERAGE => S (i_first i) | _ => i_first i end)
  | _ =>
    match i_type i with
    | CONST_COEFF | VAR_COEFF | NON_LINEAR =>
      let k := match i_type i with NON_LINEAR => if i_simple i then 1 else i_order i | _ => i_order i end in
      if k =? 0 then UB
      else match nth_error (rev m) (k - 1) with Some (j, _) => Ok (Nat.max (i_first i) j) | None => UB end
    | WEIGHTED_AVERAGE => Ok (S (Nat.max (i_first i) (max_index m)))
    | _ => Ok (i_first i)
    end
  end.
Definition finish (e : E) (s : state) : state * res E :=
  match cls s with
  | NOT_CLASSIFIED => (s, UB)                          (* the is_... predicates assert *)
  | _ => match first_for_solution (inf s) (ics s) with
         | Ok k => (set_fvis k s, Ok e)
         | Exc => (s, Exc)
         | UB => (s, UB)
         end
  end.
(** Recurrence.cc:1374-1410 exact_solution. *)
Definition exact_solution (s : state) : state * res E :=
  match exact s with
  | None => (s, Exc)
  | Some e =>
    if has_ics s then
      match ev_exact s with
      | Some e => finish e s
      | None => let e := e_rename G (on_ic e s) in finish e (ev_three e s)
      end
    else let e := e_rename G e in finish e (set_exact (Some e) s)
  end.
(** Recurrence.cc:1578-1647 lower_bound, upper_bound. *)
Definition read_bound (b : bound) (s : state) : state * res E :=
  match bound_of b s with
  | None => (s, Exc)
  | Some e =>
    if has_ics s then
      match ev_bound_of b s with
      | Some e => finish e s
      | None => let e := e_rename G (on_ic e s) in finish e (set_ev_bound b e s)
      end
    else let e := e_rename G e in finish e (set_bound b e s)
  end.

(** * Evaluation at a number *)
(** Recurrence.cc:285-354 check_number_for_evaluation. to_unsigned_int of a number that is not
    an integer is undefined. The exception thrown for non-linear recurrences and functional
    equations is a string. *)
Definition q_of_nat (k : nat) : Qc := zq (Z.of_nat k).
Definition find_at (x : Qc) (m : list (nat * E)) : res (option E) :=
  if q_is_int x then Ok (find_ic (Z.to_nat (q_int x)) m) else UB.
Definition must_have_ic (x : Qc) (s : state) : res bool :=
  match find_at x (ics s) with Ok (Some _) => Ok true | Ok None => Ok false | Exc => Exc | UB => UB end.
Definition check_number (x : Qc) (s : state) : res bool :=
  if q_lt x 0 then Ok false
  else match i_type (inf s) with
       | CONST_COEFF | VAR_COEFF =>
         let min_index := if i_order (inf s) <=? S (i_first (inf s)) then i_first (inf s) + 1 - i_order (inf s) else 0 in
         if q_lt x (q_of_nat min_index) then must_have_ic x s else Ok true
       | ORDER_ZERO | WEIGHTED_AVERAGE => if q_le x (q_of_nat (i_first (inf s))) then must_have_ic x s else Ok true
       | _ => Ok false
       end.
(** Recurrence.cc:356-417 evaluate; [kind] 0, 1, 2. *)
Definition read_kind (kind : nat) (s : state) : state * res E :=
  match kind with 0 => exact_solution s | 1 => read_bound LOWER s | _ => read_bound UPPER s end.
Definition evaluate (kind : nat) (x : Qc) (s : state) : state * res E :=
  match read_kind kind s with
  | (s, Ok e) =>
    match check_number x s with
    | Ok true =>
      match i_type (inf s) with
      | ORDER_ZERO => (s, Ok (e_subst G e x))
      | CONST_COEFF | VAR_COEFF | WEIGHTED_AVERAGE =>
        if q_le x (q_of_nat (max_index (ics s))) then
          (if q_is_int x then (s, Ok (get_initial_condition (Z.to_nat (q_int x)) s)) else (s, UB))
        else (s, Ok (e_subst G e x))
      | _ => (s, Exc)
      end
    | Ok false => (s, Exc)
    | Exc => (s, Exc)
    | UB => (s, UB)
    end
  | (s, r) => (s, r)
  end.
End Machine.
