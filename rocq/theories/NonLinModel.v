(** Model of the treatment of non-linear recurrences: substitute_x_function (src/util.cc),
    rewrite_non_linear_recurrence (src/rr_classifier.cc), compute_non_linear_recurrence
    (src/Recurrence.cc). *)
From Coq Require Import ZArith QArith Qcanon List String Bool.
From Verif Require Import Ast ExprModel.
Import ListNotations.
Local Open Scope list_scope.

Inductive mode_subs := EXPONENT | ARGUMENT_LOG.

Section Model.
Context (G : ginac).

Definition glog (e : expr) : expr := gfun G FLog [e].
Definition gdiv (a b : expr) : expr := gmul G a (gpow G b (Num (-(1))%Qc)).

(** util.cc:609-651 substitute_x_function. *)
Fixpoint substitute_x_function (k : expr) (m : mode_subs) (e : expr) : expr :=
  match e with
  | Add l => add_all G (map (substitute_x_function k m) l)
  | Mul l => mul_all G (map (substitute_x_function k m) l)
  | Pow a b => gpow G (substitute_x_function k m a) (substitute_x_function k m b)
  | Fun FX l =>
    match m with
    | EXPONENT => gpow G k (Fun FX l)
    | ARGUMENT_LOG => gdiv (glog (Fun FX l)) (glog k)
    end
  | Fun f l => gfun G f (map (substitute_x_function k m) l)
  | SumE i lo up e => gsum G i (substitute_x_function k m lo) (substitute_x_function k m up) (substitute_x_function k m e)
  | ProdE i lo up e => gprod G i (substitute_x_function k m lo) (substitute_x_function k m up) (substitute_x_function k m e)
  | e => e
  end.

(** GiNaC's lcm on numbers, simplify_ex_for_input(., true), simplify_logarithm, and
    find_domain_in_N (true if the factor is accepted). *)
Context (qlcm : Qc -> Qc -> Qc) (simp_in simp_log : expr -> expr) (domain_ok : expr -> bool).

Definition x_of (arg : expr) : expr := Fun FX [arg].
Definition n_minus (d : Qc) : expr := Add [Sym "n"; Num (- d)%Qc].
Definition napier : expr := Fun FExp [Num 1%Qc].

Inductive non_linear :=
  | NL_simple (c a : Qc)                 (** coeff_and_base = (c, a), c <> 0 *)
  | NL_log (base new_rhs : expr)         (** coeff_and_base = (0, base) *)
  | NL_domain_error
  | NL_too_complex.

(** rr_classifier.cc:641-663: the loop over the factors; [None] when find_domain_in_N
    refuses, otherwise simple_cases and common_exponent. *)
Fixpoint scan (l : list expr) (simple : bool) (ce : Qc) : option (bool * Qc) :=
  match l with
  | [] => Some (simple, ce)
  | Pow (Fun FX _) (Num q) :: l => scan l true (qlcm q ce)
  | Fun FX _ :: l => scan l true ce
  | f :: l => if has_x_function f then Some (false, ce) else if domain_ok f then scan l simple ce else None
  end.
(** rr_classifier.cc:673-722: c * x(n-1)^a, in either order. *)
Definition simple_pair (l : list expr) : option (Qc * Qc) :=
  match l with
  | [Num c; Pow (Fun FX [arg]) (Num a)] | [Pow (Fun FX [arg]) (Num a); Num c] =>
    if expr_eqb arg (n_minus 1%Qc) then Some (c, a) else None
  | _ => None
  end.
(** rr_classifier.cc:728-746 and 749-764: the sum of the logarithms; factors that are negative
    numbers, replaced there by auxiliary symbols, are not modelled (see the positivity
    hypotheses of the theorems). *)
Definition sum_of_logs (divisor : option Qc) (l : list expr) : expr :=
  fold_right (fun f acc => gadd G acc (match divisor with Some q => gdiv (glog f) (glog (Num q)) | None => glog f end)) (Num 0%Qc) l.
Definition qabs (q : Qc) : Qc := if q_lt q 0 then (- q)%Qc else q.
(** get_constant_decrement (rr_classifier.cc:52-77) for n - d. *)
Definition constant_decrement (arg : expr) : option Qc :=
  match arg with
  | Add [Sym s; Num q] | Add [Num q; Sym s] => if String.eqb s "n" then Some (- q)%Qc else None
  | _ => None
  end.

(** rr_classifier.cc:633-791 rewrite_non_linear_recurrence.  Not modelled: first_valid_index,
    x(n/d)^a (793-794), has_x_function is used for has_x_function(n). *)
Definition rewrite_non_linear (rhs : expr) : non_linear :=
  match rhs with
  | Mul l =>
    match scan (rev l) false 1%Qc with
    | None => NL_too_complex
    | Some (false, _) => NL_too_complex
    | Some (true, ce) =>
      match simple_pair l with
      | Some (c, a) => if q_lt c 0 && negb (q_is_int a) then NL_domain_error else NL_simple c a
      | None =>
        if Qc_eqb ce 1 then
          NL_log napier (simp_log (sum_of_logs None (ops (simp_in (substitute_x_function napier EXPONENT rhs)))))
        else
          NL_log (Num ce) (simp_log (sum_of_logs (Some (qabs ce)) (ops (simp_in (substitute_x_function (Num (qabs ce)) EXPONENT rhs)))))
      end
    end
  | Pow (Fun FX [arg]) (Num a) =>
    match constant_decrement arg with
    | Some d => if Qc_eqb d 1 then NL_simple 1%Qc a else NL_log (Num a) (gmul G (Num a) (x_of (n_minus d)))
    | None => NL_too_complex
    end
  | _ => NL_too_complex
  end.

(** Recurrence.cc:522-533: the solution for x(n) = c x(n-1)^a. *)
Definition simple_solution (c a : Qc) : expr :=
  let an := gpow G (Num a) (Sym "n") in
  gmul G (gpow G (Num c) (gmul G (gsub G an (Num 1%Qc)) (Num (/ (a - 1))%Qc))) (gpow G (x_of (Num 0%Qc)) an).
(** Recurrence.cc:545-571: from the solution [s] of the linear recurrence. *)
Definition log_solution (base s : expr) : expr :=
  if is_num 0%Qc s then Num 0%Qc
  else simp_log (simp_in (substitute_x_function base ARGUMENT_LOG (gpow G base s))).
End Model.
