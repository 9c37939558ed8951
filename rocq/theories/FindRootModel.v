(** Model of find_roots (src/alg_eq_solver.cc): rational roots, nested polynomials, pure power
    equations, factors.  A polynomial with rational coefficients is the list of its coefficients,
    lowest degree first, without leading zeros; roots are complex numbers. *)
From Coq Require Import ZArith QArith Qcanon List Bool Reals Arith.
From Coquelicot Require Import Complex.
From Verif Require Import IntUtilModel Ast ExprModel Fld FPoly CplxF RootModel.
Import ListNotations.
Local Open Scope list_scope.
Local Open Scope nat_scope.

Definition poly := list QcF.
(** The value of a rational number as a complex one. *)
Definition qC (q : Qc) : C := RtoC (rv q).

(** alg_eq_solver.hh:46-92 Polynomial_Root: a number of type RATIONAL or an expression of type
    NON_RATIONAL, and the multiplicity. *)
Inductive pvalue := Rational (q : Qc) | Irrational (z : C).
Record root := MkRoot { value : pvalue; multiplicity : nat }.
Definition rvalue (r : root) : C := match value r with Rational q => qC q | Irrational z => z end.

(** alg_eq_solver.cc:230-261 solve_monomial_irrational. [None]: more than two roots (assertion) or
    a root that is not a number (ex_to_number). *)
Definition positive_root (r : root) : option bool := match value r with Rational q => Some (q_lt 0 q) | Irrational _ => None end.
Fixpoint signs (l : list root) (pos neg : bool) : option (bool * bool) :=
  match l with
  | [] => Some (pos, neg)
  | r :: l => match positive_root r with
              | None => None
              | Some true => signs l true neg
              | Some false => signs l pos true
              end
  end.
Definition solve_monomial_irrational (a : Qc) (n : nat) (k : Qc) (roots : list root) : option (list root) :=
  if 2 <? length roots then None
  else match signs roots false false with
  | None => None
  | Some (pos, neg) =>
    let kept := filter (fun j => negb ((pos && (j =? 0)) || (neg && (j * 2 =? n + n mod 2)))) (seq 0 n) in
    Some (roots ++ map (fun j => MkRoot (Irrational (proot n (qC (- k / a)) * unity n j)%C) 1) kept)
  end.

Definition coeff (p : poly) (i : nat) : Qc := nth i p 0%Qc.
Definition degree (p : poly) : nat := pdegree p.
Definition lcoeff (p : poly) : Qc := coeff p (degree p).
Definition qzero (q : Qc) : bool := Qc_eqb q 0.

(** alg_eq_solver.cc:269-318 is_nested_polynomial: the returned number and q.  Nat.gcd stands for
    gcd(int, int), see C02. *)
Fixpoint first_nonzero (fuel : nat) (p : poly) (i : nat) : nat :=
  match fuel with
  | O => i
  | S fuel => if qzero (coeff p i) then first_nonzero fuel p (S i) else i
  end.
Fixpoint gcd_loop (cnt j : nat) (p : poly) (n : nat) : nat :=
  match cnt with
  | O => n
  | S cnt => if 1 <? n then gcd_loop cnt (S j) p (if qzero (coeff p j) then n else Nat.gcd n j) else n
  end.
Definition is_nested_polynomial (p : poly) : nat * poly :=
  let d := degree p in
  if d =? 0 then (0, p)
  else if negb (qzero (coeff p 1)) then (1, p)
  else
    let i := first_nonzero d p 2 in
    let n := gcd_loop (d - i) (i + 1) p i in
    if 1 <? n then (n, coeff p 0 :: map (fun j => coeff p (n * j)) (seq 1 (d / n))) else (n, p).

(** alg_eq_solver.cc:366-381: one candidate. *)
Definition try_root (m : nat) (r : Qc) (s : poly * list root) : poly * list root :=
  if qzero (peval (K:=QcF) (fst s) r) then (quot (K:=QcF) (fst s) r, snd s ++ [MkRoot (Rational r) m]) else s.
(** alg_eq_solver.cc:363-382: all of them. *)
Definition try_pair (m : nat) (s : poly * list root) (l t : Z) : poly * list root :=
  let r := (zq t / zq l)%Qc in try_root m (- r)%Qc (try_root m r s).
Definition search (m : nat) (ls ts : list Z) (s : poly * list root) : poly * list root :=
  fold_left (fun s l => fold_left (fun s t => try_pair m s l t) ts s) ls s.

(** FIND_DIVISORS_THRESHOLD as a number. *)
Definition qabs (q : Qc) : Qc := if q_lt q 0 then (- q)%Qc else q.
Definition small (q : Qc) : bool := q_lt (qabs q) (zq FIND_DIVISORS_THRESHOLD).
Definition divisors (q : Qc) : option (list Z) :=
  if q_is_int q then
    match find_divisors (q_int (qabs q)) [] with IntUtilModel.Ret (_, l) => Some l | _ => None end
  else None.
(** alg_eq_solver.cc:347-353. *)
Definition is_monomial (q : poly) : bool := forallb (fun i => qzero (coeff q i)) (seq 1 (degree q - 1)).

(** alg_eq_solver.cc:400-464: the direct solution; the roots inserted at line 404 have
    multiplicity 1; [None] when the assertion of solve_equation_4 fails. *)
Definition irr (z : C) : root := MkRoot (Irrational z) 1.
Definition direct (q : poly) (m : nat) : option (list root) :=
  let lc := lcoeff q in
  let c i := (coeff q i / lc)%Qc in
  match degree q with
  | 1 => Some [MkRoot (Rational 0%Qc) 1; MkRoot (Rational (- coeff q 0 / lc)%Qc) m]
  | 2 => let '(x1, x2) := solve_equation_2 (qC (c 1)) (qC (c 0)) in Some [irr x1; irr x2]
  | 3 => let '(x1, x2, x3, _) := solve_equation_3 (rv (c 2)) (rv (c 1)) (rv (c 0)) in Some [irr x1; irr x2; irr x3]
  | 4 => match solve_equation_4 (rv (c 3)) (rv (c 2)) (rv (c 1)) (rv (c 0)) with
         | Some (x1, x2, x3, x4) => Some [irr x1; irr x2; irr x3; irr x4]
         | None => None
         end
  | _ => Some []
  end.

Section Find.
(** poly_factor (src/poly_factor.cc): the vector of factors, empty when it returns 0 or 1. *)
Context (poly_factor : poly -> list poly).

Fixpoint all_factors (find : poly -> list root -> option (bool * list root)) (fs : list poly) (roots : list root) : option (bool * list root) :=
  match fs with
  | [] => Some (true, roots)
  | f :: fs => match find f roots with
               | Some (true, roots) => all_factors find fs roots
               | r => r
               end
  end.
Definition is_int_poly (p : poly) : bool := forallb q_is_int p.

(** alg_eq_solver.cc:466-510: what is left has degree 5 or more, or is a constant. *)
Definition last_resort (find : poly -> list root -> nat -> option (bool * list root)) (q : poly) (roots : list root) (m : nat) : option (bool * list root) :=
  let factorize := 
    if is_int_poly q then
      let fs := poly_factor q in
      if 1 <? length fs then all_factors (fun f rs => find f rs 1) (rev fs) roots else Some (false, roots)
    else None in
  let '(n, r) := is_nested_polynomial q in
  if 1 <? n then
    match find r [] 1 with
    | None => None
    | Some (true, rs) =>
      Some (true, roots ++ flat_map (fun j => map (fun y => MkRoot (Irrational (proot n (rvalue y) * unity n j)%C) m) rs) (seq 0 n))
    | Some (false, _) => factorize
    end
  else factorize.

(** alg_eq_solver.cc:384-464 and the rest, once the rational roots have been looked for. *)
Definition rest (find : poly -> list root -> nat -> option (bool * list root)) (q : poly) (roots : list root) (m : nat) : option (bool * list root) :=
  if (1 <=? degree q) && (degree q <=? 4) then
    match direct q m with Some new => Some (true, roots ++ new) | None => None end
  else last_resort find q roots m.

(** alg_eq_solver.cc:320-510 find_roots. [None]: an assertion fails, or the fuel is exhausted. *)
Definition find_roots_step (find : poly -> list root -> nat -> option (bool * list root)) (p : poly) (roots : list root) (m : nat) : option (bool * list root) :=
  let start :=
    if negb (qzero (coeff p 0)) then Some (p, roots, false)
    else if qzero (coeff p 1) then None
    else Some (tl p, roots ++ [MkRoot (Rational 0%Qc) m], degree (tl p) =? 0) in
  match start with
  | None => None
  | Some (q, roots, true) => Some (true, roots)
  | Some (q, roots, false) =>
    let lc := lcoeff q in
    let tc := coeff q 0 in
    if degree q =? 1 then Some (true, roots ++ [MkRoot (Rational (- tc / lc)%Qc) m])
    else if small lc && small tc then
      match divisors lc, divisors tc with
      | Some ls, Some ts =>
        let '(q', roots) := search m ls ts (q, roots) in
        if degree q' =? 0 then Some (true, roots)
        else if is_monomial q then
          match solve_monomial_irrational tc (degree q' + length roots) lc roots with
          | Some roots => Some (true, roots)
          | None => None
          end
        else rest find q' roots m
      | _, _ => None
      end
    else rest find q roots m
  end.
Fixpoint find_roots (fuel : nat) (p : poly) (roots : list root) (m : nat) : option (bool * list root) :=
  match fuel with
  | O => None
  | S fuel => find_roots_step (find_roots fuel) p roots m
  end.

(** The result of sqrfree: a sum, a product of factors with their exponents, a power, or the symbol. *)
Inductive sqrfree_form := SAdd (p : poly) | SMul (l : list (poly * nat)) | SPow (p : poly) (e : nat) | SSym.
(** alg_eq_solver.cc:550-599 PURRS::find_roots on the result of sqrfree: the returned flag, the
    roots and all_distinct. A factor with exponent 1 is not a power. *)
Fixpoint product_roots (fuel : nat) (l : list (poly * nat)) (roots : list root) : option (bool * list root) :=
  match l with
  | [] => Some (true, roots)
  | (f, e) :: l => match find_roots fuel f roots e with
                   | Some (true, roots) => product_roots fuel l roots
                   | r => r
                   end
  end.
Definition find_roots_top (fuel : nat) (q : sqrfree_form) : option (bool * list root * bool) :=
  let add (d : bool) r := match r with Some (b, l) => Some (b, l, d) | None => None end in
  match q with
  | SAdd p => add true (find_roots fuel p [] 1)
  | SMul l => add false (product_roots fuel l [])
  | SPow p e => add false (find_roots fuel p [] e)
  | SSym => Some (true, [MkRoot (Rational 0%Qc) 1], true)
  end.
End Find.
