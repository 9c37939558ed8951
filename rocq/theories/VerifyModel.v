(** Model of the verification of exact solutions of linear recurrences of finite order
    (src/verify.cc, src/util.cc).  simplify_all, simplify_sum(., REWRITE_UPPER_LIMIT),
    blackboard.rewrite, expand and degree are parameters; index_type is unbounded; non-linear
    recurrences are left out; a failing assertion, an access out of bounds or a conversion of
    something that is no natural number gives [Broken]. *)
From Coq Require Import ZArith QArith Qcanon List String Bool.
From Verif Require Import Ast ExprModel ElimModel DecompModel.
Import ListNotations.
Local Open Scope bool_scope.
Local Open Scope list_scope.

(** Recurrence.defs.hh: Verify_Status. *)
Inductive verdict := Provably_correct | Partially_correct | Inconclusive | Broken.
(** The answers that vouch for the solution. *)
Definition accepted (v : verdict) : Prop := v = Provably_correct \/ v = Partially_correct.

(** Does [s] occur in [e] (GiNaC's has, for an expression [s] without wildcards)? *)
Fixpoint occurs (s e : expr) : bool :=
  expr_eqb e s ||
  match e with
  | Add l | Mul l | Fun _ l => existsb (occurs s) l
  | Pow a b => occurs s a || occurs s b
  | SumE k lo up e | ProdE k lo up e => expr_eqb (Sym k) s || occurs s lo || occurs s up || occurs s e
  | _ => false
  end.
(** Number::to_unsigned_int. *)
Definition to_nat (e : expr) : option nat :=
  match e with Num q => if q_is_int q && (0 <=? q_int q)%Z then Some (Z.to_nat (q_int q)) else None | _ => None end.
Definition is_n (e : expr) : bool := expr_eqb e (Sym "n").
Definition nq (k : nat) : Qc := zq (Z.of_nat k).

(** util.cc:653-685 has_only_symbolic_initial_conditions. *)
Definition is_mod (e : expr) : bool := match e with Fun FMod _ => true | _ => false end.
Definition is_nonneg_int (e : expr) : bool := match e with Num q => q_is_int q && (0 <=? q_int q)%Z | _ => false end.
Definition symbolic_index (a : expr) : bool :=
  is_nonneg_int a
  || match a with
     | Fun FMod (b :: c :: _) => is_n b && is_pos_int_num c
     | Fun FSc (_ :: c :: _) => is_pos_int_num c
     | Add [b; c] => is_mod b || is_mod c
     | _ => false
     end.
Fixpoint has_only_symbolic_initial_conditions (e : expr) : bool :=
  match e with
  | Add l | Mul l => forallb has_only_symbolic_initial_conditions l
  | Pow a b => has_only_symbolic_initial_conditions a && has_only_symbolic_initial_conditions b
  | Fun FX (a :: _) => symbolic_index a
  | Fun _ l => forallb has_only_symbolic_initial_conditions l
  | SumE _ lo up e | ProdE _ lo up e =>
    has_only_symbolic_initial_conditions lo && has_only_symbolic_initial_conditions up && has_only_symbolic_initial_conditions e
  | _ => true
  end.
(** util.cc:687-690. *)
Definition has_at_least_a_symbolic_initial_condition (e : expr) : bool :=
  has_x_function e && has_only_symbolic_initial_conditions e.

Section Verify.
Context (G : ginac) (simplify_all simplify_sum rewrite expand decomp_simplify : expr -> expr) (degree : expr -> nat).

(** * Substitution of a candidate in the recurrence *)
(** verify.cc:189-194, 341-346: x(n-d) is replaced if it occurs. *)
Definition plug (shifted : nat -> expr) (rhs : expr) (d : nat) : expr :=
  let xd := x_n_plus (- Z.of_nat d) in
  if occurs xd rhs then substitute G xd (shifted d) rhs else rhs.
(** e(n-d). *)
Definition shift_by (e : expr) (d : nat) : expr := substitute G (Sym "n") (n_shift (Z.of_nat d)) e.
(** verify.cc:186-194, 954-959. *)
Definition traditional_residual (order : nat) (e rhs : expr) : expr :=
  gsub G e (fold_left (plug (fun d => simplify_sum (simplify_all (shift_by e d)))) (seq 1 order) rhs).
(** verify.cc:212-217, 980-983, 1011-1012. *)
Definition simplifies_to_zero (diff : expr) : bool :=
  let diff := simplify_all (rewrite diff) in is_num 0 diff || is_num 0 (simplify_all diff).
(** verify.cc:168-219 traditional_step_3. *)
Definition traditional_step_3 (order : nat) (rhs inhom e : expr) : bool :=
  simplifies_to_zero (traditional_residual order e (gsub G rhs inhom)).

(** * The method for constant coefficients *)
(** verify.cc:337-366; the loop runs from the greatest decrement. *)
Definition new_residual (order : nat) (e rhs : expr) : expr :=
  expand (rewrite (gsub G e (fold_left (plug (shift_by e)) (rev (seq 1 order)) rhs))).
(** Where a summand goes: the position and what is added there.  A power of n found among the
    factors is divided out (GiNaC cancels it). *)
Definition n_power (f : expr) : option (option nat) :=
  match f with
  | Sym s => if String.eqb s "n" then Some (Some 1%nat) else None
  | Pow a b => if is_n a then Some (to_nat b) else None
  | _ => None
  end.
(** verify.cc:401-415, 448-463. *)
Fixpoint split_n_power (before l : list expr) : option (option nat * expr) :=
  match l with
  | [] => None
  | f :: l => match n_power f with Some k => Some (k, mul_all G (before ++ l)) | None => split_n_power (before ++ [f]) l end
  end.
(** verify.cc:396-439 ([in_sum]) and 443-487. *)
Definition place (in_sum : bool) (t : expr) : option nat * expr :=
  match t with
  | Mul l => match split_n_power [] l with Some kc => kc | None => (Some 0%nat, t) end
  | Pow a b => if is_n a then (to_nat b, Num 1) else (Some 0%nat, t)
  | Num _ => (Some 0%nat, t)
  | Sym _ => if in_sum then (Some 0%nat, t) else (Some 1%nat, Num 1)
  | _ => (None, t)
  end.
(** coefficients_of_exponentials[k] += c; [None] out of bounds. *)
Fixpoint add_at (k : nat) (c : expr) (v : list expr) : option (list expr) :=
  match v, k with
  | [], _ => None
  | a :: v, O => Some (gadd G a c :: v)
  | a :: v, S k => match add_at k c v with Some v => Some (a :: v) | None => None end
  end.
Definition add_summand (in_sum : bool) (v : option (list expr)) (t : expr) : option (list expr) :=
  match v, place in_sum t with
  | Some v, (Some k, c) => add_at k c v
  | _, _ => None
  end.
(** verify.cc:370-487. *)
Definition buckets (max_degree : nat) (diff : expr) : option (list expr) :=
  let v := Some (repeat (Num 0) (S max_degree)) in
  match diff with
  | Add l => fold_left (add_summand true) l v
  | t => add_summand false v t
  end.
(** verify.cc:491-508. *)
Definition vanishes_at (c : expr) (r : nat) : bool := is_num 0 (simplify_all (substitute G (Sym "n") (Num (nq r)) c)).
Definition passes_tests (num_tests : nat) (c : expr) : bool := is_num 0 c || forallb (vanishes_at c) (seq 0 num_tests).
(** verify.cc:273-308: number of exponentials and maximal degree; [None]: not polynomial. *)
Definition exponentials (inhom : expr) : option (nat * nat) :=
  let l := exp_poly_decomposition G decomp_simplify (expand inhom) "n" in
  if forallb (fun t => is_num 0 (snd t)) l
  then Some (List.length l, fold_left (fun m t => Nat.max m (degree (snd (fst t)))) l 0%nat) else None.
(** verify.cc:268-510 verify_new_method_const_coeff; [None]: out of bounds. *)
Definition max_multiplicity (mults : list nat) : nat := fold_left (fun m k => if Nat.ltb m k then k else m) mults 1%nat.
Definition new_method (order : nat) (rhs inhom e : expr) (mults : list nat) (inhomogeneous_part : bool) : option bool :=
  match (if inhomogeneous_part then exponentials inhom else Some (0, 0)%nat) with
  | None => Some false
  | Some (num_exp, deg) =>
    let max_degree := (deg + (max_multiplicity mults - 1))%nat in
    let diff := new_residual order e (if inhomogeneous_part then rhs else gsub G rhs inhom) in
    if is_num 0 diff then Some true
    else match buckets max_degree diff with
    | None => None
    | Some cs => Some (forallb (passes_tests (num_exp + order)) cs)
    end
  end.

(** * Initial conditions *)
(** verify.cc:524-543 split_solution. *)
Definition split_solution (symbolic : bool) (sol : expr) : expr * expr :=
  if symbolic then
    match sol with
    | Add l => fold_right (fun a st => if has_at_least_a_symbolic_initial_condition a then (gadd G (fst st) a, snd st) else (fst st, gadd G (snd st) a))
                 (Num 0, Num 0) l
    | _ => if has_only_symbolic_initial_conditions sol then (sol, Num 0) else (Num 0, sol)
    end
  else (Num 0, sol).
(** verify.cc:553-566: argument of x and product of the other factors; [None]: two x's. *)
Fixpoint x_and_rest (l : list expr) : option (expr * expr) :=
  match l with
  | [] => Some (Num 0, Num 1)
  | f :: l => match x_and_rest l with
              | None => None
              | Some (a, c) => match f with
                               | Fun FX (b :: _) => if is_num 0 a then Some (b, c) else None
                               | _ => Some (a, gmul G c f)
                               end
              end
  end.
(** verify.cc:567-586, 590-608: the position of x(a). *)
Definition position (gcd fvi : nat) (a : expr) : option nat :=
  match a with
  | Num _ => match to_nat a with Some k => if Nat.leb fvi k then Some (k - fvi)%nat else None | None => None end
  | Fun FMod _ => Some 0%nat
  | Add [b; c] =>
    match (match b with Num _ => to_nat b | _ => to_nat c end) with
    | Some k => if Nat.leb fvi (k / gcd) then Some (k / gcd - fvi)%nat else None
    | None => None
    end
  | _ => None
  end.
Definition fill_addend (gcd fvi : nat) (a : expr) (v : option (list expr)) : option (list expr) :=
  match v with
  | None => None
  | Some v =>
    match a with
    | Mul l => match x_and_rest l with
               | Some (b, c) => match position gcd fvi b with Some k => add_at k c v | None => None end
               | None => None
               end
    | Fun FX (b :: _) => match position gcd fvi b with Some k => add_at k (Num 1) v | None => None end
    | _ => None
    end
  end.
(** verify.cc:545-626 fill_vector_coefficients_i_c. *)
Definition is_x_function (e : expr) : bool := match e with Fun FX _ => true | _ => false end.
Definition set_first (c : expr) (v : list expr) : option (list expr) := match v with [] => None | _ :: v => Some (c :: v) end.
Definition fill_coefficients (gcd fvi order : nat) (e : expr) : option (list expr) :=
  let v := repeat (Num 0) order in
  match e with
  | Add l => fold_right (fill_addend gcd fvi) (Some v) l
  | Mul l => set_first (mul_all G (filter (fun f => negb (is_x_function f)) l)) v
  | Fun FX _ => set_first (Num 1) v
  | _ => None
  end.

(** The recurrence and its candidate solution: right-hand side, inhomogeneous term, order, gcd of
    the decrements, first valid index, constant coefficients or not, multiplicities of the roots of
    the characteristic equation if they are found, initial conditions, solution, whether the order
    reduction was applied, and the answer of the verification of the reduced recurrence. *)
Record problem := MkProblem {
  p_rhs : expr; p_inhom : expr; p_order : nat; p_gcd : nat; p_fvi : nat; p_const : bool;
  p_roots : option (list nat); p_ics : list (nat * expr); p_solution : expr;
  p_reduced : option (bool -> verdict) }.
Definition symbolic (p : problem) : bool := match p_ics p with [] => true | _ => false end.
(** Recurrence.inlines.hh:172-179 get_initial_condition. *)
Fixpoint get_ic (k : nat) (l : list (nat * expr)) : expr :=
  match l with [] => Fun FX [Num (nq k)] | (i, e) :: l => if Nat.eqb i k then e else get_ic k l end.
(** Recurrence.inlines.hh:181-192 get_max_index_initial_condition. *)
Definition max_ic (l : list (nat * expr)) : nat := fold_right (fun ie m => Nat.max (fst ie) m) 0%nat l.
(** verify.cc:101-103. *)
Definition first_index (p : problem) : nat :=
  if Nat.ltb (p_fvi p + p_order p - 1) (max_ic (p_ics p)) then (max_ic (p_ics p) - p_order p + 1)%nat else p_fvi p.
(** verify.cc:105-107, 144-149. *)
Definition value_at_index (e : expr) (k : nat) : expr :=
  simplify_all (rewrite (simplify_all (substitute G (Sym "n") (Num (nq k)) e))).
(** verify.cc:94-166 validate_initial_conditions. *)
Definition validate_numeric (p : problem) (part : expr) : bool :=
  forallb (fun i => expr_eqb (value_at_index part (first_index p + i)) (get_ic (first_index p + i) (p_ics p))) (seq 0 (p_order p)).
Definition validate_symbolic (p : problem) (coeffs : list expr) (part : expr) : bool :=
  forallb (fun i =>
    forallb (fun j => is_num (if Nat.eqb i j then 1 else 0)%Qc (value_at_index (nth j coeffs (Num 0)) (p_fvi p + i))) (seq 0 (List.length coeffs))
    && is_num 0 (value_at_index part (p_fvi p + i))) (seq 0 (p_order p)).

(** * verify_finite_order *)
Definition all_traditional (p : problem) (cs : list expr) : bool :=
  forallb (traditional_step_3 (p_order p) (p_rhs p) (p_inhom p)) cs.
Fixpoint all_new (p : problem) (mults : list nat) (cs : list expr) : option bool :=
  match cs with
  | [] => Some true
  | c :: cs => match new_method (p_order p) (p_rhs p) (p_inhom p) c mults false with
               | Some true => all_new p mults cs
               | r => r
               end
  end.
(** verify.cc:826-890; [cs] are the coefficients with index less than order/gcd. *)
Definition step_3 (p : problem) (cs : list expr) : option bool :=
  if p_const p then
    match p_roots p with
    | None => Some (all_traditional p cs)
    | Some mults => match all_new p mults cs with
                    | Some false => Some (all_traditional p cs)
                    | r => r
                    end
    end
  else Some (all_traditional p cs).
(** verify.cc:892-1015. *)
Definition step_4 (partial : bool) (p : problem) (part : expr) : verdict :=
  let good := if partial then Partially_correct else Provably_correct in
  if symbolic p && is_num 0 (p_inhom p) then
    if is_num 0 part then good else Inconclusive
  else
    let traditional :=
      let diff := traditional_residual (p_order p) part (p_rhs p) in
      if is_num 0 (simplify_all (rewrite diff)) then good
      else match p_reduced p with
           | Some r => r false
           | None => if is_num 0 (simplify_all (simplify_all (rewrite diff))) then good else Inconclusive
           end in
    if p_const p then
      match new_method (p_order p) (p_rhs p) (p_inhom p) part (match p_roots p with Some m => m | None => [] end) true with
      | None => Broken
      | Some true => good
      | Some false => traditional
      end
    else traditional.
(** verify.cc:715-1016 verify_finite_order. *)
Definition verify_finite_order (partial : bool) (p : problem) : verdict :=
  if Nat.eqb (p_order p) 0 then Provably_correct
  else match (if symbolic p && p_const p then p_reduced p else None) with
  | Some r => r true
  | None =>
    let '(with_ic, part) := split_solution (symbolic p) (p_solution p) in
    match (if symbolic p then fill_coefficients (p_gcd p) (p_fvi p) (p_order p) with_ic else Some (repeat (Num 0) (p_order p))) with
    | None => Broken
    | Some coeffs =>
      if (if symbolic p then validate_symbolic p coeffs part else validate_numeric p part) then
        match step_3 p (firstn (p_order p / p_gcd p) coeffs) with
        | None => Broken
        | Some false => Inconclusive
        | Some true => step_4 partial p part
        end
      else Inconclusive
    end
  end.
End Verify.
