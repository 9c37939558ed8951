(** Histories of calls on Recurrence objects, and what their answers should mean. *)
From Coq Require Import ZArith QArith Qcanon List Bool Arith.
From Verif Require Import RecModel.
Import ListNotations.
Local Open Scope list_scope.
Local Open Scope nat_scope.

(** The calls of the public interface on an object. *)
Inductive op (G : engine) :=
| Replace (e : E G) | SetIC (m : list (nat * E G)) | ResetIC | Classify
| ComputeExact | ComputeBound (b : bound) | ReadExact | ReadBound (b : bound).
Arguments Replace {G} e. Arguments SetIC {G} m. Arguments ResetIC {G}. Arguments Classify {G}. Arguments ComputeExact {G}.
Arguments ComputeBound {G} b. Arguments ReadExact {G}. Arguments ReadBound {G} b.
(** Objects are numbered. *)
Inductive cmd (G : engine) :=
| New (i : nat) (e : E G) | CopyTo (i j : nat) | AssignTo (i j : nat) | Call (i : nat) (o : op G).
Arguments New {G} i e. Arguments CopyTo {G} i j. Arguments AssignTo {G} i j. Arguments Call {G} i o.

(** The outcome of one call on an object: the object afterwards, and the answer read, if the
    call is one that reads. *)
Inductive answer (G : engine) := Read (k : option bound) (r : res (E G)) | Status (r : res sstatus) | Done (r : res unit).
Arguments Read {G} k r. Arguments Status {G} r. Arguments Done {G} r.
Definition call {G : engine} (o : op G) (s : state G) : state G * answer G :=
  match o with
  | Replace e => (replace_recurrence G e s, Done (Ok tt))
  | SetIC m => let (s, r) := set_initial_conditions G m s in (s, Done r)
  | ResetIC => (reset_initial_conditions G s, Done (Ok tt))
  | Classify => (classify G s, Done (Ok tt))
  | ComputeExact => let (s, r) := compute_exact_solution G s in (s, Status r)
  | ComputeBound b => let (s, r) := compute_bound_top G b s in (s, Status r)
  | ReadExact => let (s, r) := exact_solution G s in (s, Read None r)
  | ReadBound b => let (s, r) := read_bound G b s in (s, Read (Some b) r)
  end.
(** The world: for each object the right-hand side that was given to it last (by the
    constructor, replace_recurrence, copying) and its state. *)
Definition world (G : engine) : Type := nat -> option (E G * state G).
Definition put {G : engine} (w : world G) (i : nat) (x : E G * state G) : world G := fun j => if j =? i then Some x else w j.
(** An event: the recurrence and the initial conditions of the object, and the answer. *)
Record event (G : engine) := MkEvent { ev_rhs : E G; ev_ics : list (nat * E G); ev_answer : answer G }.
Arguments MkEvent {G}. Arguments ev_rhs {G}. Arguments ev_ics {G}. Arguments ev_answer {G}.
Definition step {G : engine} (c : cmd G) (w : world G) : world G * list (event G) :=
  match c with
  | New i e => (put w i (e, construct G e), [])
  | CopyTo i j => (match w j with Some (e, s) => put w i (e, copy G s) | None => w end, [])
  | AssignTo i j => (match w i, w j with Some (_, t), Some (e, s) => put w i (e, assign G t s) | _, _ => w end, [])
  | Call i o =>
    match w i with
    | Some (e, s) =>
      let e := match o with Replace e' => e' | _ => e end in
      let (s, a) := call o s in (put w i (e, s), [MkEvent e (ics G s) a])
    | None => (w, [])
    end
  end.
Fixpoint run {G : engine} (h : list (cmd G)) (w : world G) : list (event G) :=
  match h with [] => [] | c :: h => let (w, l) := step c w in l ++ run h w end.
Definition history {G : engine} (h : list (cmd G)) : list (event G) := run h (fun _ => None).

(** What it means for an expression to be a solution, a lower or an upper bound of the
    recurrence with a given right-hand side, for symbolic or for given initial conditions. *)
Record meaning (G : engine) := MkMeaning {
  Sol : E G -> E G -> Prop;
  Bnd : bound -> E G -> E G -> Prop;
  SolAt : E G -> list (nat * E G) -> E G -> Prop;
  BndAt : bound -> E G -> list (nat * E G) -> E G -> Prop }.
Arguments Sol {G}. Arguments Bnd {G}. Arguments SolAt {G}. Arguments BndAt {G}.

(** The algorithms behind the class are right. *)
Record sound (G : engine) (M : meaning G) : Prop := MkSound {
  s_eqb : forall a b, e_eqb G a b = true <-> a = b;
  s_solve : forall g r i e, e_classify G g = (CL_SUCCESS, r, i) -> e_solve G r i = inl e -> Sol M g e;
  s_not_success : forall r i st, e_solve G r i = inr st -> st <> SUCCESS;
  s_approx : forall b g r i e, e_classify G g = (CL_SUCCESS, r, i) -> e_approx G b r i = inl e -> Bnd M b g e;
  s_approx_not : forall b r i st, e_approx G b r i = inr st -> st <> SUCCESS;
  s_exact_bound : forall b g e, Sol M g e -> Bnd M b g e;
  s_exact_bound_at : forall b g m e, SolAt M g m e -> BndAt M b g m e;
  s_both : forall g e, Bnd M LOWER g e -> Bnd M UPPER g e -> Sol M g e;
  s_on_ic : forall g r i m e, e_classify G g = (CL_SUCCESS, r, i) -> check_ic G i m = Ok true -> m <> [] -> Sol M g e -> SolAt M g m (e_on_ic G i m e);
  s_on_ic_bound : forall b g r i m e, e_classify G g = (CL_SUCCESS, r, i) -> check_ic G i m = Ok true -> m <> [] -> Bnd M b g e -> BndAt M b g m (e_on_ic G i m e);
  s_rename : forall g e, Sol M g e -> Sol M g (e_rename G e);
  s_rename_at : forall g m e, SolAt M g m e -> SolAt M g m (e_rename G e);
  s_rename_bound : forall b g e, Bnd M b g e -> Bnd M b g (e_rename G e);
  s_rename_bound_at : forall b g m e, BndAt M b g m e -> BndAt M b g m (e_rename G e);
  s_classified : forall g, fst (fst (e_classify G g)) <> NOT_CLASSIFIED }.

(** The answers of an event concern the recurrence and the initial conditions of the object. *)
Definition right {G : engine} (M : meaning G) (v : event G) : Prop :=
  match ev_answer v with
  | Read None (Ok e) => match ev_ics v with [] => Sol M (ev_rhs v) e | m => SolAt M (ev_rhs v) m e end
  | Read (Some b) (Ok e) => match ev_ics v with [] => Bnd M b (ev_rhs v) e | m => BndAt M b (ev_rhs v) m e end
  | _ => True
  end.

(** Histories in which replace_recurrence and operator= are only applied to objects on which
    nothing was called since they were made (or copied from such an object). *)
Fixpoint disciplined {G : engine} (h : list (cmd G)) (untouched : nat -> bool) : bool :=
  let set i b := fun j => if j =? i then b else untouched j in
  match h with
  | [] => true
  | New i _ :: h => disciplined h (set i true)
  | CopyTo i j :: h => disciplined h (set i (untouched j))
  | AssignTo i j :: h => untouched i && disciplined h (set i (untouched j))
  | Call i (Replace _) :: h => untouched i && disciplined h untouched
  | Call i _ :: h => disciplined h (set i false)
  end.
(** Histories without the calls about bounds. *)
Definition exact_only {G : engine} (h : list (cmd G)) : bool :=
  forallb (fun c => match c with Call _ (ComputeBound _) | Call _ (ReadBound _) => false | _ => true end) h.
(** Functional equations whose two bounds never coincide (up to the renaming of symbols that
    reading them does). *)
Definition bounds_differ (G : engine) : Prop := forall g r i l u j k,
  e_classify G g = (CL_SUCCESS, r, i) -> i_type i = FUNCTIONAL_EQUATION ->
  e_approx G LOWER r i = inl l -> e_approx G UPPER r i = inl u ->
  Nat.iter j (e_rename G) l <> Nat.iter k (e_rename G) u.

(** What the classifier guarantees about the structures it fills in. *)
Definition well_formed (G : engine) : Prop := forall g r i, e_classify G g = (CL_SUCCESS, r, i) ->
  match i_type i with
  | CONST_COEFF | VAR_COEFF => 1 <= i_order i
  | NON_LINEAR => 1 <= i_order i /\ (i_linear_zero i = true -> i_simple i = true)
  | _ => True
  end.
Definition undefined {G : engine} (a : answer G) : Prop :=
  match a with Read _ UB | Status UB | Done UB => True | _ => False end.

(** * Initial conditions *)
(** The maps of the interface: no index twice, listed in increasing order. *)
Fixpoint is_map {A : Type} (m : list (nat * A)) : Prop :=
  match m with [] => True | (i, _) :: m => Forall (fun p => i < fst p) m /\ is_map m end.
Definition given {A : Type} (m : list (nat * A)) (k : nat) : Prop := exists e, In (k, e) m.
(** The k largest indices given are consecutive and the largest is at least [first]. *)
Definition last_consecutive {A : Type} (m : list (nat * A)) (k first : nat) : Prop :=
  exists largest, first <= largest /\ given m largest /\ (forall i, given m i -> i <= largest) /\
  forall j, j < k -> j <= largest /\ given m (largest - j).
(** The initial conditions a classified recurrence needs. *)
Definition usable (G : engine) (i : info) (m : list (nat * E G)) : Prop :=
  match i_type i with
  | ORDER_ZERO => True
  | CONST_COEFF | VAR_COEFF => last_consecutive m (i_order i) (i_first i)
  | NON_LINEAR => last_consecutive m (if i_linear_zero i then 1 else i_order i) (i_first i) /\
                  forall k e q, In (k, e) m -> e_number G e = Some q -> (0 <= q)%Qc
  | WEIGHTED_AVERAGE => exists k, i_first i <= k /\ given m k
  | FUNCTIONAL_EQUATION => (forall k, given m k <-> 1 <= k <= i_conditions i) /\
                  forall k e, In (k, e) m -> exists q, e_number G e = Some q /\ (0 <= q)%Qc
  | _ => False
  end.

(** * Evaluation *)
(** The smallest index at which the solution of the recurrence is defined by the recurrence and
    the symbolic initial conditions. *)
Definition first_index (i : info) : nat :=
  match i_type i with
  | CONST_COEFF | VAR_COEFF => S (i_first i) - i_order i
  | _ => S (i_first i)
  end.
(** The value expected at [k] of a solution [e] with initial conditions [m]. *)
Definition value_at {G : engine} (m : list (nat * E G)) (e : E G) (k : nat) (v : E G) : Prop :=
  In (k, v) m \/ ~ given m k /\ v = e_subst G e (Ast.zq (Z.of_nat k)).
(** The types of recurrences that take initial conditions, and those that can be evaluated. *)
Definition type_ok (i : info) : Prop :=
  match i_type i with CONST_COEFF | VAR_COEFF | NON_LINEAR => 1 <= i_order i | MAX_FUNCTION | UNKNOWN => False | _ => True end.
Definition evaluated (i : info) : Prop := match i_type i with CONST_COEFF | VAR_COEFF | WEIGHTED_AVERAGE => True | _ => False end.

(** * Statuses *)
(** The status reported when the classifier refuses a recurrence. *)
Inductive reason : cstatus -> sstatus -> Prop :=
| Why_indeterminate : reason CL_INDETERMINATE INDETERMINATE
| Why_unsolvable : reason CL_UNSOLVABLE UNSOLVABLE
| Why_malformed : reason CL_MALFORMED MALFORMED
| Why_decrement : reason CL_NON_INTEGER MALFORMED
| Why_domain : reason CL_DOMAIN DOMAIN_ERROR
| Why_huge : reason CL_HUGE TOO_COMPLEX
| Why_complex : reason CL_TOO_COMPLEX TOO_COMPLEX.
