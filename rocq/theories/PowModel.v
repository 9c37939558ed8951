(** Model of the rules for powers in src/simplify.cc: nested powers and powers of products. The numeric
    part of an exponent is a number: GiNaC multiplies numbers. *)
From Coq Require Import ZArith QArith Qcanon List String Bool.
From Verif Require Import Ast ExprModel.
Import ListNotations.
Local Open Scope bool_scope.
Local Open Scope list_scope.

Section Model.
Context (G : ginac).

(** simplify.cc:72-94 erase_factor: [e] without the factor n, if there is one (the first one). *)
Fixpoint erase_first (before l : list expr) : option expr :=
  match l with
  | [] => None
  | f :: l => if expr_eqb f (Sym "n") then Some (fold_left (gmul G) (before ++ l) (Num 1)) else erase_first (before ++ [f]) l
  end.
Definition erase_factor (e : expr) : option expr :=
  match e with
  | Mul l => erase_first [] l
  | _ => if expr_eqb e (Sym "n") then Some (Num 1) else None
  end.
(** simplify.cc:104-112 perfect_root. All numbers are rational. *)
Definition is_numeric (e : expr) : bool := match e with Num _ => true | _ => false end.
Definition perfect_root (base : expr) (exponent : Qc) : bool := is_numeric (gpow G base (Num exponent)).
(** simplify.cc:126-146 return_power. *)
Definition return_power (is_numeric_base : bool) (base : expr) (num : Qc) (rest : expr) (input : bool) : expr :=
  match (if input then erase_factor rest else None) with
  | None => if is_numeric_base then gpow G (gpow G base (Num num)) rest else gpow G base (gmul G (Num num) rest)
  | Some r =>
    if is_numeric_base then gpow G (gpow G (gpow G base (Num num)) r) (Sym "n")
    else gpow G (gpow G base (gmul G (Num num) r)) (Sym "n")
  end.
(** simplify.cc:152-158 split_exponent. *)
Definition split_exponent (e : expr) (st : Qc * expr) : Qc * expr :=
  match e with Num q => ((fst st * q)%Qc, snd st) | _ => (fst st, gmul G (snd st) e) end.
Definition add_exponent (e : expr) (st : Qc * expr) : Qc * expr :=
  match e with Mul l => fold_right split_exponent st l | _ => split_exponent e st end.
(** simplify.cc:166-185 find_real_base_and_build_exponent. *)
Fixpoint real_base (e : expr) (st : Qc * expr) : expr * (Qc * expr) :=
  match e with Pow a b => real_base a (add_exponent b st) | _ => (e, st) end.
(** simplify.cc:203-235 simplify_powers_with_bases_mul; the three vectors are filled and read factor by factor. *)
Definition factor_power (num : Qc) (rest : expr) (input : bool) (f : expr) : expr :=
  let '(b, (num, rest)) := real_base f (num, rest) in return_power (is_numeric b) b num rest input.
Definition powers_of_factors (l : list expr) (num : Qc) (rest : expr) (input : bool) : expr :=
  fold_right (fun f acc => gmul G acc (factor_power num rest input f)) (Num 1) l.
(** simplify.cc:271-276: -a is no product. *)
Definition minus_something (l : list expr) : bool :=
  match l with [a; b] => is_num (-(1))%Qc a || is_num (-(1))%Qc b | _ => false end.
(** simplify.cc:254-291 simplify_powers, for a power [e]. *)
Definition simplify_powers (e : expr) (input : bool) : expr :=
  let '(base, (num, rest)) := real_base e (1%Qc, Num 1) in
  let other := return_power false base num rest input in
  match base with
  | Mul l => if minus_something l then other else powers_of_factors l num rest input
  | Num _ => if q_is_int num || perfect_root base num then return_power true base num rest input else other
  | _ => other
  end.
End Model.
