(** Model of src/compute_prod.cc: closed forms of products prod(index, lower, n, e), on
    expressions.  GiNaC's is_polynomial, sign of the leading coefficient, content and primitive
    part, PURRS' numerator_denominator, expand, factorize, simplify and
    sum_poly_times_exponentials are parameters; [h] is the fresh symbol (Symbol h, Symbol k). *)
From Coq Require Import ZArith QArith Qcanon List String Bool.
From Verif Require Import Ast ExprModel NonLinModel DecompModel.
Import ListNotations.
Local Open Scope bool_scope.
Local Open Scope list_scope.

(** [Stuck]: the nesting exceeds the fuel. *)
Inductive outcome := Value (e : expr) | Throws | Stuck.
Definition bind (o : outcome) (f : expr -> outcome) : outcome := match o with Value e => f e | Throws => Throws | Stuck => Stuck end.

Section Model.
Context (G : ginac) (is_poly lc_negative : expr -> bool) (content primpart : expr -> expr).
Context (num_den : expr -> expr * expr) (expand simplify : expr -> expr) (factorize : expr -> expr * expr).
Context (sum_pe : expr -> string -> expr -> expr) (h : string).
Context (k : string) (lower : Z).

(** GiNaC's factorial: of a number, an exception unless it is a non-negative integer. *)
Definition fact_of (e : expr) : outcome :=
  match e with
  | Num q => if q_is_int q && (0 <=? q_int q)%Z then Value (gfun G FFact [e]) else Throws
  | _ => Value (gfun G FFact [e])
  end.
Definition int (z : Z) : expr := Num (zq z).
(** compute_prod.cc:52-60. [j] runs from 1 to lower - 1. *)
Fixpoint extra_factor (e : expr) (cnt : nat) : expr :=
  match cnt with O => Num 1 | S c => gmul G (extra_factor e c) (substitute G (Sym k) (int (Z.of_nat (S c))) e) end.
Definition remove_extra_terms (e complete : expr) : expr := gdiv G complete (extra_factor e (Z.to_nat (lower - 1))).
(** 2^(-n) *)
Definition minus_n_power (b : Z) : expr := gpow G (int b) (gmul G (int (-1)) (Sym "n")).
(** compute_prod.cc:63-104. *)
Definition special_form (e : expr) : option expr :=
  let over_fact a b := gdiv G (gmul G (gfun G FFact [a]) (minus_n_power b)) (gfun G FFact [Sym "n"]) in
  if expr_eqb e (gadd G (gmul G (int 2) (Sym k)) (int 1)) then Some (over_fact (gadd G (gmul G (int 2) (Sym "n")) (int 1)) 2%Z)
  else if expr_eqb e (gadd G (gmul G (int 2) (Sym k)) (int (-1))) then Some (over_fact (gmul G (int 2) (Sym "n")) 2%Z)
  else if expr_eqb e (gadd G (gadd G (int 2) (gmul G (int (-9)) (Sym k))) (gmul G (int 9) (gmul G (Sym k) (Sym k))))
       then Some (over_fact (gmul G (int 3) (Sym "n")) 3%Z)
  else None.
Definition try_special_cases (e : expr) : option expr :=
  let negate := lc_negative e in
  let e' := if negate then gmul G e (int (-1)) else e in
  match special_form e' with
  | None => None
  | Some p =>
    let p := if (1 <? lower)%Z then let q := remove_extra_terms e' p in if negate && Z.even lower then gmul G q (int (-1)) else q else p in
    Some (if negate then gmul G p (gpow G (int (-1)) (Sym "n")) else p)
  end.
(** The symbolic product with a fresh index (compute_prod.cc:161-164, 218-221, 248-251). *)
Definition symbolic (e : expr) : outcome := Value (gprod G h (int lower) (Sym "n") (substitute G (Sym k) (Sym h) e)).
(** compute_prod.cc:122-125: e is k + num; with the operands in the order k, num also for a
    num that is no integer. *)
Definition shift_of (e : expr) : option (option Qc) :=
  match e with
  | Add [a; b] =>
    match b with
    | Num q => if expr_eqb a (Sym k) then Some (Some q) else Some None
    | _ => match a with Num q => if expr_eqb b (Sym k) && q_is_int q then Some (Some q) else Some None | _ => Some None end
    end
  | _ => None
  end.
Definition is_pos_int (q : Qc) : bool := q_is_int q && (0 <? q_int q)%Z.
(** compute_prod.cc:127-128, 133-134 *)
Definition ratio_of_factorials (e : expr) (num : Qc) : outcome :=
  bind (fact_of (substitute G (Sym k) (Sym "n") e)) (fun a =>
  bind (fact_of (Num (zq lower + num - 1)%Qc)) (fun b => Value (gdiv G a b))).
(** compute_prod.cc:126-146 *)
Definition product_of_shift (e : expr) (num : Qc) (den : bool) : outcome :=
  if is_pos_int num then ratio_of_factorials e num
  else if q_lt (- num)%Qc (zq lower) then ratio_of_factorials e num
  else if den then Throws else Value (int 0).
(** compute_prod.cc:186-209: the exponent for a constant base; [None] if it has no polynomial part. *)
Definition new_exponent (b : expr) : option expr :=
  let l := exp_poly_decomposition G simplify (expand b) k in
  if existsb (fun t => let '(_, p, _) := t in negb (is_num 0 p)) l then
    Some (fold_right (fun t acc => let '(a, p, _) := t in
            let c := substitute G (Sym k) (Sym h) p in
            gsub G (gadd G acc (sum_pe c h a)) (substitute G (Sym h) (int 0) c)) (int 0) l)
  else None.

(** compute_prod.cc:109-166, 171-223, 225-253. *)
Fixpoint comp_prod (fuel : nat) (den : bool) (e : expr) : outcome :=
  match fuel with
  | O => Stuck
  | S fuel =>
    if negb (has k e) then Value (gpow G e (gadd G (gsub G (Sym "n") (int lower)) (int 1)))
    else if expr_eqb e (Sym k) then
      if (0 <? lower)%Z then bind (fact_of (int (lower - 1))) (fun b => Value (gdiv G (gfun G FFact [Sym "n"]) b))
      else if den then Throws else Value (int 0)
    else match e with
    | Add _ =>
      match (if is_poly e then try_special_cases e else None) with
      | Some p => Value p
      | None =>
        match shift_of e with
        | Some (Some num) => product_of_shift e num den
        | Some None => symbolic e
        | None =>
          let '(n, d) := num_den e in
          let by_content := if is_num 1 (content e) then None
                            else Some (bind (comp_prod fuel false (primpart e)) (fun p => bind (comp_prod fuel false (content e)) (fun c => Value (gmul G p c)))) in
          let quotient := bind (comp_prod fuel false n) (fun a => bind (comp_prod fuel false d) (fun b => Value (gmul G a (gpow G b (int (-1)))))) in
          match by_content with
          | None => if is_num 1 d then symbolic e else quotient
          | Some c => bind c (fun c => if is_num 1 d then Value c else quotient)
          end
        end
      end
    | Pow a b =>
      if has k a then
        match b with
        | Num q => bind (comp_prod fuel (negb (is_pos_int q)) a) (fun p => Value (gpow G p b))
        | _ => symbolic e
        end
      else match new_exponent b with Some s => Value (gpow G a s) | None => symbolic e end
    | Mul l => fold_right (fun f acc => bind acc (fun acc => bind (comp_prod fuel false f) (fun p => Value (gmul G acc p)))) (Value (Num 1)) l
    | _ => symbolic e
    end
  end.
(** compute_prod.cc:307-318. *)
Definition compute_product (fuel : nat) (e : expr) : outcome :=
  let '(common, rem) := factorize (expand e) in
  bind (comp_prod fuel false common) (fun a => bind (comp_prod fuel false rem) (fun b => Value (gmul G a b))).
End Model.
