(** Model of the classification of the right-hand side, term by term (src/rr_classifier.cc).
    Simplifications: numbers are rational, so has_non_rational_numbers() is false; the
    simplifications applied to the right-hand side before the loop, the domain checks after it and
    the objects built for non-linear and weighted-average recurrences (see NonLinModel, WAvgModel)
    are left out: those recurrences are outcomes of their own. *)
From Coq Require Import ZArith QArith Qcanon List String Bool.
From Verif Require Import Ast ExprModel ElimModel.
Import ListNotations.
Local Open Scope list_scope.

(** Expr.cc:1111-1135 has_x_function(y): x(.) with an argument containing [y]. *)
Fixpoint has_x_of (y : string) (e : expr) : bool :=
  match e with
  | Add l | Mul l => existsb (has_x_of y) l
  | Pow a b => has_x_of y a || has_x_of y b
  | Fun FX l => match l with a :: _ => has y a | [] => false end
  | Fun _ l => existsb (has_x_of y) l
  | SumE _ lo up e | ProdE _ lo up e => has_x_of y lo || has_x_of y up || has_x_of y e
  | _ => false
  end.

Inductive kind_of_term := NESTED | LEGAL_NON_LINEAR_TERM | INDETERMINATE | UNSOLVABLE | LINEAR_TERM.

(** rr_classifier.cc:520-553 x_function_in_powers_or_functions. *)
Definition x_in_powers_or_functions (e : expr) : kind_of_term :=
  match e with
  | Fun FX l => if existsb (has_x_of "n") l then NESTED else LINEAR_TERM
  | Fun _ l => if existsb (has_x_of "n") l then LEGAL_NON_LINEAR_TERM else LINEAR_TERM
  | SumE _ _ _ _ | ProdE _ _ _ _ => if existsb (has_x_of "n") (ops e) then LEGAL_NON_LINEAR_TERM else LINEAR_TERM
  | Pow a b =>
    if has_x_of "n" a then (if expr_eqb a x_n then INDETERMINATE else LEGAL_NON_LINEAR_TERM)
    else if has_x_of "n" b then (if expr_eqb b x_n then UNSOLVABLE else LEGAL_NON_LINEAR_TERM)
    else LINEAR_TERM
  | _ => LINEAR_TERM
  end.
(** rr_classifier.cc:571-588: the loop over the factors; INDETERMINATE and UNSOLVABLE factors are
    passed over there. *)
Fixpoint non_linear_loop (l : list expr) (found : bool) (term : kind_of_term) : kind_of_term :=
  match l with
  | [] => term
  | f :: l =>
    match x_in_powers_or_functions f with
    | NESTED => NESTED
    | tmp =>
      let term := match tmp with LEGAL_NON_LINEAR_TERM => LEGAL_NON_LINEAR_TERM | _ => term end in
      match f with
      | Fun FX (a :: _) => if has "n" a then (if found then non_linear_loop l found LEGAL_NON_LINEAR_TERM else non_linear_loop l true term)
                           else non_linear_loop l found term
      | _ => non_linear_loop l found term
      end
    end
  end.
(** rr_classifier.cc:555-591 find_non_linear_term. *)
Definition find_non_linear_term (e : expr) : kind_of_term :=
  match e with
  | Mul l => non_linear_loop (rev l) false LINEAR_TERM
  | e => x_in_powers_or_functions e
  end.

(** rr_classifier.cc:104-127 get_constant_divisor: [Some d] for n / d, d not the inverse of an
    integer's inverse, i.e. the factor 1/d is positive and not an integer. *)
Definition constant_divisor (e : expr) : option Qc :=
  let ok q := negb (q_is_int q) && q_lt 0 q in
  match e with
  | Mul [Sym s; Num q] => if String.eqb s "n" && ok q then Some (/ q)%Qc else None
  | Mul [Num q; Sym s] => if String.eqb s "n" && ok q then Some (/ q)%Qc else None
  | _ => None
  end.
(** util.cc:584-607 has_parameters. *)
Fixpoint has_parameters (e : expr) : bool :=
  match e with
  | Add l | Mul l => existsb has_parameters l
  | Pow a b => has_parameters a || has_parameters b
  | Fun FX _ => true
  | Fun _ l => existsb has_parameters l
  | SumE k lo up e | ProdE k lo up e => negb (String.eqb k "n") || has_parameters lo || has_parameters up || has_parameters e
  | Sym s => negb (String.eqb s "n")
  | _ => false
  end.

Inductive rtype := ORDER_ZERO | CONST_COEFF | VAR_COEFF | FUNCTIONAL.
Inductive status := HAS_NEGATIVE | HAS_NULL | HAS_HUGE | HAS_NON_INTEGER | MALFORMED | CL_INDETERMINATE | CL_UNSOLVABLE
  | CL_TOO_COMPLEX | NON_LINEAR | WEIGHTED_AVERAGE | UNINITIALISED.
(** The local variables of classify(), and type_ ([None] as long as NOT_CLASSIFIED_YET). *)
Record cls := MkC { c_order : nat; c_coeffs : list expr; c_gcd : Z; c_hom : list (Qc * expr); c_inhom : expr; c_type : option rtype }.
Definition set_type (t : rtype) (s : cls) : cls := MkC (c_order s) (c_coeffs s) (c_gcd s) (c_hom s) (c_inhom s) (Some t).
Definition is_functional (s : cls) : bool := match c_type s with Some FUNCTIONAL => true | _ => false end.
Definition is_fresh (s : cls) : bool := match c_type s with None | Some ORDER_ZERO => true | _ => false end.

Section Model.
Context (G : ginac) (long_max max_size : Z).

(** rr_classifier.cc:465-479 insert_coefficients. *)
Fixpoint add_nth (i : nat) (c : expr) (l : list expr) : list expr :=
  match l, i with
  | a :: l, O => gadd G a c :: l
  | a :: l, S i => a :: add_nth i c l
  | [], _ => []
  end.
Definition insert_coefficients (c : expr) (index : nat) (l : list expr) : list expr :=
  let l := if (List.length l <? index)%nat then l ++ repeat (Num 0%Qc) (index - List.length l) else l in
  if (index =? List.length l)%nat then l ++ [c] else add_nth index c l.
(** std::map::insert: an existing key is left alone. *)
Definition map_insert (d : Qc) (c : expr) (m : list (Qc * expr)) : list (Qc * expr) :=
  if existsb (fun p => Qc_eqb (fst p) d) m then m else m ++ [(d, c)].
(** rr_classifier.cc:1017-1036 compute_order. *)
Definition compute_order (decrement : Z) (s : cls) : status + (cls * nat) :=
  if (decrement <? 0)%Z then inl HAS_NEGATIVE
  else if (long_max <=? decrement)%Z || (max_size <=? decrement)%Z then inl HAS_HUGE
  else let index := Z.to_nat decrement in
    let order := if (c_order s =? 0)%nat || (c_order s <? index)%nat then index else c_order s in
    inr (MkC order (c_coeffs s) (c_gcd s) (c_hom s) (c_inhom s) (c_type s), index).
Definition set_gcd (num_term : nat) (index : nat) (s : cls) : cls :=
  MkC (c_order s) (c_coeffs s) (if (num_term =? 0)%nat then Z.of_nat index else Z.gcd (c_gcd s) (Z.of_nat index)) (c_hom s) (c_inhom s) (c_type s).
Definition put_coeff (c : expr) (index : nat) (s : cls) : cls :=
  MkC (c_order s) (insert_coefficients c index (c_coeffs s)) (c_gcd s) (c_hom s) (c_inhom s) (c_type s).
Definition put_hom (d : Qc) (c : expr) (s : cls) : cls :=
  MkC (c_order s) (c_coeffs s) (c_gcd s) (map_insert d c (c_hom s)) (c_inhom s) (c_type s).
Definition put_inhom (e : expr) (s : cls) : cls :=
  let s := MkC (c_order s) (c_coeffs s) (c_gcd s) (c_hom s) (gadd G (c_inhom s) e) (c_type s) in
  match c_type s with None => set_type ORDER_ZERO s | _ => s end.
Definition is_weighted_sum (e : expr) : bool :=
  match e with SumE k _ up body => has "n" up && has_x_of k body | _ => false end.
Definition two_ops (e : expr) : bool := Nat.eqb (List.length (ops e)) 2.

(** rr_classifier.cc:1106-1156: the addend is x(argument). *)
Definition summand_x (argument : expr) (num_term : nat) (s : cls) : status + cls :=
  if expr_eqb argument (Sym "n") then inl HAS_NULL
  else if negb (has "n" argument) then inl MALFORMED
  else if has_parameters argument then inl CL_TOO_COMPLEX
  else match argument with
  | Add [_; _] =>
    match shift_of argument with
    | Some z =>
      match compute_order (- z) s with
      | inl e => inl e
      | inr (s, index) =>
        if negb (is_fresh s) && is_functional s then inl CL_TOO_COMPLEX
        else let s := if is_fresh s then set_type CONST_COEFF s else s in
          inr (put_coeff (Num 1%Qc) index (set_gcd num_term index s))
      end
    | None => inl HAS_NON_INTEGER
    end
  | Mul [_; _] =>
    match constant_divisor argument with
    | Some d =>
      if is_fresh s then inr (put_hom d (Num 1%Qc) (set_type FUNCTIONAL s))
      else if is_functional s then inr (put_hom d (Num 1%Qc) s) else inl CL_TOO_COMPLEX
    | None => inl CL_TOO_COMPLEX
    end
  | _ => inl CL_TOO_COMPLEX
  end.

Inductive x_found := No_x | Decrement (index : nat) | Divisor (d : Qc).
(** rr_classifier.cc:1219-1333: the loop over the factors of a product. *)
Fixpoint factors_loop (l : list expr) (num_term : nat) (no_x : expr) (found : x_found) (has_n : bool) (s : cls)
  : status + (expr * x_found * bool * cls) :=
  match l with
  | [] => inr (no_x, found, has_n, s)
  | Fun FX (argument :: _) :: l =>
    if expr_eqb argument (Sym "n") then inl HAS_NULL
    else if negb (has "n" argument) then inl MALFORMED
    else if has_parameters argument then inl CL_TOO_COMPLEX
    else match argument with
    | Add [_; _] =>
      match shift_of argument with
      | Some z =>
        match compute_order (- z) s with
        | inl e => inl e
        | inr (s, index) =>
          if is_functional s then inl CL_TOO_COMPLEX
          else factors_loop l num_term no_x (Decrement index) has_n (set_gcd num_term index s)
        end
      | None => inl HAS_NON_INTEGER
      end
    | Mul [_; _] =>
      match constant_divisor argument with
      | Some d =>
        if is_fresh s then factors_loop l num_term no_x (Divisor d) has_n (set_type FUNCTIONAL s)
        else if is_functional s then factors_loop l num_term no_x (Divisor d) has_n s else inl CL_TOO_COMPLEX
      | None => inl CL_TOO_COMPLEX
      end
    | _ => inl CL_TOO_COMPLEX
    end
  | f :: l =>
    if is_weighted_sum f then (if is_fresh s then inl WEIGHTED_AVERAGE else inl CL_TOO_COMPLEX)
    else factors_loop l num_term (gmul G no_x f) found (has_n || has "n" f) s
  end.
(** rr_classifier.cc:1334-1356. *)
Definition summand_mul (l : list expr) (num_term : nat) (s : cls) : status + cls :=
  match factors_loop (rev l) num_term (Num 1%Qc) No_x false s with
  | inl e => inl e
  | inr (no_x, No_x, _, s) => inr (put_inhom no_x s)
  | inr (no_x, Divisor d, _, s) => if is_functional s then inr (put_hom d no_x s) else inl UNINITIALISED
  | inr (no_x, Decrement index, has_n, s) =>
    if is_functional s then inl UNINITIALISED
    else let s := put_coeff no_x index s in
      inr (match c_type s with Some VAR_COEFF => s | _ => set_type (if has_n then VAR_COEFF else CONST_COEFF) s end)
  end.
(** rr_classifier.cc:1045-1359 classification_summand. *)
Definition classification_summand (addend : expr) (num_term : nat) (s : cls) : status + cls :=
  match find_non_linear_term addend with
  | LEGAL_NON_LINEAR_TERM => inl NON_LINEAR
  | NESTED => inl MALFORMED
  | INDETERMINATE => inl CL_INDETERMINATE
  | UNSOLVABLE => inl CL_UNSOLVABLE
  | LINEAR_TERM =>
    match addend with
    | Mul l => summand_mul l num_term s
    | Fun FX (argument :: _) => summand_x argument num_term s
    | _ => if is_weighted_sum addend then (if is_fresh s then inl WEIGHTED_AVERAGE else inl CL_TOO_COMPLEX)
           else inr (put_inhom addend s)
    end
  end.
(** rr_classifier.cc:1445-1521 classify: the loop over the summands, in order. *)
Fixpoint classify_terms (l : list expr) (num_term : nat) (s : cls) : status + cls :=
  match l with
  | [] => inr s
  | t :: l => match classification_summand t num_term s with inl e => inl e | inr s => classify_terms l (S num_term) s end
  end.
Definition start : cls := MkC 0 [] 0%Z [] (Num 0%Qc) None.
Definition classify (rhs : expr) : status + cls :=
  match rhs with
  | Add l => classify_terms l 0 start
  | e => classify_terms [e] 0 start
  end.
End Model.
