(** Model of the classification of weighted-average recurrences (src/rr_classifier.cc,
    src/Expr.cc), on expressions.  simplify_ex_for_input, simplify_all, expand and the domain
    search (numerator, denominator and find_domain_in_N) are parameters; is_polynomial and degree
    are given by [degree_in]; machine integers are unbounded. *)
From Coq Require Import ZArith QArith Qcanon List String Bool.
From Verif Require Import Ast ExprModel ElimModel NonLinModel ClassModel.
Import ListNotations.
Local Open Scope bool_scope.
Local Open Scope list_scope.

(** is_polynomial(s) and degree(s) of an expanded expression; [None]: no polynomial. *)
Fixpoint degree_in (s : string) (e : expr) : option nat :=
  match e with
  | Sym t => Some (if String.eqb s t then 1 else 0)%nat
  | Add l => fold_right (fun a acc => match degree_in s a, acc with Some d, Some m => Some (Nat.max d m) | _, _ => None end) (Some 0%nat) l
  | Mul l => fold_right (fun a acc => match degree_in s a, acc with Some d, Some m => Some (d + m)%nat | _, _ => None end) (Some 0%nat) l
  | Pow a (Num q) => match degree_in s a with
                     | Some 0%nat => Some 0%nat
                     | Some d => if q_is_int q && (0 <=? q_int q)%Z then Some (d * Z.to_nat (q_int q))%nat else None
                     | None => None
                     end
  | _ => if has s e then None else Some 0%nat
  end.

Section Model.
Context (G : ginac) (simplify_input simplify_all expand : expr -> expr).
Context (domain : expr -> expr -> option nat).

(** Expr.cc:1196-1211: the factors other than x, and whether x is among them. *)
Fixpoint mul_for (x : expr) (l : list expr) : bool * expr :=
  match l with
  | [] => (false, Num 1)
  | f :: l =>
    let '(found, m) := mul_for x l in
    if expr_eqb f x then (true, m)
    else match f with
         | Pow a b => if expr_eqb a x then (true, gmul G m (gpow G x (gsub G b (Num 1)))) else (found, gmul G m f)
         | _ => (found, gmul G m f)
         end
  end.
(** Expr.cc:1192-1223: one addend; (coeffs_of_x, e_rewritten). *)
Definition collect_addend (x a : expr) (st : expr * expr) : expr * expr :=
  let '(cx, r) := st in
  match a with
  | Mul l => let '(found, m) := mul_for x l in if found then (gadd G cx m, r) else (cx, gadd G r a)
  | _ =>
    if expr_eqb a x then (gadd G cx (Num 1), r)
    else match a with
         | Pow b c => if expr_eqb b x then (gadd G cx (gpow G x (gsub G c (Num 1))), r) else (cx, gadd G r a)
         | _ => (cx, gadd G r a)
         end
  end.
(** Expr.cc:1183-1233 collect_term: the expression and the coefficient. *)
Definition collect_term (x e : expr) : expr * expr :=
  match simplify_input e with
  | Add l => let '(cx, r) := fold_right (collect_addend x) (Num 0, Num 0) l in (gadd G r (gmul G x cx), cx)
  | e => (e, Num 1)
  end.
(** rr_classifier.cc:1284-1290: other factors of the addend, if there is a single term. *)
Definition weight_of (addend factor weight : expr) : expr :=
  match addend with
  | Mul l => if is_num 1 weight then fold_right (fun f acc => if expr_eqb f factor then acc else gmul G acc f) weight l else weight
  | _ => weight
  end.

Inductive outcome :=
  | Too_complex | Domain_error | Throws
  | Weighted (weight inhom orig_weight orig_inhom rhs_first_order : expr) (rewritten : bool).

(** n + z. *)
Definition shifted (z : Z) (e : expr) : expr := substitute G (Sym "n") (n_plus z) e.
(** rr_classifier.cc:943-945: the summand is linear in x(k). *)
Definition linear_summand (k : string) (body : expr) : bool :=
  match degree_in "x_k" (expand (substitute G (Fun FX [Sym k]) (Sym "x_k") body)) with
  | Some d => Nat.leb d 1
  | None => false
  end.
(** rr_classifier.cc:947-962: weight, inhomogeneous term and lower limit for the upper limit n-1. *)
Definition normal_form (upper_is_n : bool) (weight inhom : expr) (lower : Z) : expr * expr * Z :=
  if upper_is_n then
    if is_num 1 weight then (gmul G weight (Num (-(1))%Qc), gmul G (Num (-(1))%Qc) (shifted 1 inhom), (lower + 1)%Z)
    else let tmp := gsub G (Num 1) weight in (gdiv G weight tmp, gdiv G inhom tmp, lower)
  else (weight, inhom, lower).
(** rr_classifier.cc:990-1009: the first order recurrence. *)
Definition first_order_coeff (w : expr) : expr :=
  let ws := shifted (-1) w in shifted 1 (simplify_all (gmul G (gdiv G w ws) (gadd G (Num 1) ws))).
Definition first_order_inhom (w h : expr) : expr :=
  let ws := shifted (-1) w in let hs := shifted (-1) h in
  shifted 1 (simplify_all (gmul G w (gsub G (gdiv G h w) (gdiv G hs ws)))).
(** rr_classifier.cc:912-1012 rewrite_weighted_average_recurrence, for the sum
    sum(k, lo, up, body); then rr_classifier.cc:1184-1185, 1304-1305. *)
Definition rewrite_weighted_average (rhs : expr) (k : string) (lo up body : expr) (weight : expr) : outcome :=
  match lo with
  | Num q =>
    if negb (q_is_int q) then Throws else
    let inhom := gsub G rhs (gmul G weight (SumE k lo up body)) in
    let up_n := expr_eqb up (Sym "n") in
    if has_x_of "n" weight || has_x_of "n" inhom || has_parameters weight || negb (up_n || expr_eqb up (n_plus (-1))) then Too_complex
    else if negb (linear_summand k body) then Too_complex
    else
      let '(w, h, l) := normal_form up_n weight inhom (q_int q) in
      match domain w h with
      | None => Too_complex
      | Some z =>
        let pos := (0 <? l)%Z in
        let w' := if pos then shifted l w else w in
        let h' := if pos then shifted l h else h in
        if (l <? Z.of_nat z)%Z then Domain_error
        else Weighted w' h' w h (gadd G (gmul G (first_order_coeff w') (Fun FX [n_plus (-1)])) (first_order_inhom w' h')) (up_n || pos)
      end
  | _ => Throws
  end.
(** rr_classifier.cc:1160-1206, 1275-1330: [addend] is the sum, or a product with the factor
    sum(k, lo, up, body). *)
Definition classify_weighted (rhs addend : expr) (k : string) (lo up body : expr) : outcome :=
  let s := SumE k lo up body in
  if has "n" up && has_x_of k body then
    let '(r, w) := collect_term s rhs in rewrite_weighted_average r k lo up body (weight_of addend s w)
  else Too_complex.
End Model.
