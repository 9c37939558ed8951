(** Model of the verification of bounds of functional equations x(n) = a x(n/b) + p(n)
    (src/verify.cc).  simplify_sum, simplify_ex_for_input and simplify_logarithm are parameters;
    the validation of the initial conditions is not called (verify.cc:1196-1207). *)
From Coq Require Import ZArith QArith Qcanon List String Bool.
From Verif Require Import Ast ExprModel ElimModel VerifyModel.
Import ListNotations.
Local Open Scope bool_scope.
Local Open Scope list_scope.

Inductive bound_kind := Upper | Lower.
Definition q_neg (q : Qc) : bool := q_lt q 0.
Definition q_pos (q : Qc) : bool := q_lt 0 q.

Section Bound.
Context (G : ginac) (simplify_sum simplify_input simplify_log : expr -> expr).

(** verify.cc:46-56 split. *)
Definition split (l : list expr) : expr * expr :=
  fold_right (fun t st => if has "n" t then (gadd G (fst st) t, snd st) else (fst st, gadd G (snd st) t)) (Num 0, Num 0) l.
(** verify.cc:71-74, 1261-1264. *)
Definition is_n_factor (f : expr) : bool :=
  is_n f || match f with Pow a (Num q) => is_n a && q_is_int q && (0 <? q_int q)%Z | _ => false end.
Definition coeff_n (l : list expr) : expr := mul_all G (filter (fun f => negb (is_n_factor f)) l).
(** verify.cc:80-83. *)
Definition above (c o : expr) (condition : nat) : bool :=
  match c, o with
  | Num denom, Num numer => q_pos denom && q_neg numer && q_le (- numer / denom)%Qc (nq condition)
  | _, _ => false
  end.
(** verify.cc:58-90 ok_inequalities. *)
Definition ok_inequalities (l : list expr) (condition : nat) : bool :=
  let '(with_n, others) := split l in
  if is_n with_n then above (Num 1) others condition
  else match with_n with Mul fs => above (coeff_n fs) others condition | _ => false end.

(** verify.cc:1253-1276: is the difference recognised as non-negative? *)
Definition non_negative_diff (diff : expr) (condition : nat) : bool :=
  match diff with
  | Num q => q_le 0 q
  | Mul l => match coeff_n l with Num q => q_pos q | _ => false end
  | Add l => ok_inequalities l condition
  | _ => false
  end.
(** verify.cc:1226-1236. *)
Definition base_refused (kind : bound_kind) (e : expr) (condition : nat) : bool :=
  match substitute G (Sym "n") (Num (nq condition)) e with
  | Num q => match kind with Upper => q_neg q | Lower => q_pos q end
  | _ => false
  end.
(** verify.cc:1239-1245; [arg] is n/b. *)
Definition approximation (arg e rhs : expr) : expr :=
  simplify_log (simplify_input (substitute G (Fun FX [arg]) (substitute G (Sym "n") arg e) rhs)).
(** verify.cc:1226-1276: steps 3 and 4. *)
Definition verify_induction (kind : bound_kind) (arg rhs e : expr) (condition : nat) : verdict :=
  if base_refused kind e condition then Inconclusive
  else
    let approx := approximation arg e rhs in
    let diff := match kind with Upper => gsub G e approx | Lower => gsub G approx e end in
    if non_negative_diff diff condition then Provably_correct else Inconclusive.
(** verify.cc:1209-1220: step 2. *)
Definition partial_bound (bound : expr) : expr :=
  match bound with
  | Add l => fold_right (fun t acc => if has_only_symbolic_initial_conditions t then acc else gadd G acc t) (Num 0) l
  | t => if has_only_symbolic_initial_conditions t then Num 0 else t
  end.
(** verify.cc:1186-1277 verify_bound; [bound] is the bound of that kind. *)
Definition verify_bound (kind : bound_kind) (arg rhs bound : expr) (condition : nat) : verdict :=
  let e := partial_bound (simplify_sum bound) in
  if is_num 0 e then Provably_correct else verify_induction kind arg rhs e condition.

(** verify.cc:1328-1356 verify_lower_bound, verify_upper_bound for a functional equation: the
    exact solution is verified instead if there is one; [None]: exception. *)
Definition verify_bounds (kind : bound_kind) (exact : option verdict) (arg rhs : expr) (bound : option expr) (condition : nat) : option verdict :=
  match exact, bound with
  | Some v, _ => Some v
  | None, Some b => Some (verify_bound kind arg rhs b condition)
  | None, None => None
  end.
End Bound.
