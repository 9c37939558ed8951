(** Model of isolate_polynomial_part (src/util.cc), src/ep_decomp.cc and src/fact_decomp.cc. *)
From Coq Require Import ZArith QArith Qcanon List String Bool.
From Verif Require Import Ast ExprModel.
Import ListNotations.
Local Open Scope bool_scope.
Local Open Scope list_scope.

Section Decomp.
Variable G : ginac.

(** util.cc:247-270. The loop runs from the last operand. *)
Definition isolate_polynomial_part (e : expr) (x : string) : expr * expr :=
  match e with
  | Add l => fold_right (fun a pr => if is_polynomial x a then (gadd G (fst pr) a, snd pr) else (fst pr, gadd G (snd pr) a)) (Num 0, Num 0) l
  | _ => if is_polynomial x e then (e, Num 0) else (Num 0, e)
  end.

(** The vectors alpha, p, q, together. *)
Definition term := (expr * expr * expr)%type.
(** ep_decomp.cc:43-70 exp_poly_decomposition_factor. *)
Fixpoint exp_factor (base : expr) (pq : expr * expr) (l : list term) : list term :=
  match l with
  | [] => [(base, gadd G (Num 0) (fst pq), gadd G (Num 0) (snd pq))]
  | (a, p, q) :: l => if expr_eqb base a then (a, gadd G p (fst pq), gadd G q (snd pq)) :: l else (a, p, q) :: exp_factor base pq l
  end.
Definition exp_poly_decomposition_factor (base e : expr) (x : string) (l : list term) : list term :=
  exp_factor base (isolate_polynomial_part e x) l.
(** The base of [power(base, x)] when it is good for the decomposition. *)
Definition good_power (x : string) (e : expr) : option expr :=
  match e with Pow a b => if expr_eqb b (Sym x) && is_scalar_representation x a then Some a else None | _ => None end.
(** ep_decomp.cc:85-109, from the last factor: the base found and the product of the others. *)
Fixpoint last_power (x : string) (l : list expr) : option (expr * list expr) :=
  match l with
  | [] => None
  | f :: l => match last_power x l with
              | Some (b, r) => Some (b, f :: r)
              | None => match good_power x f with Some b => Some (b, l) | None => None end
              end
  end.
(** ep_decomp.cc:72-113 exp_poly_decomposition_summand. *)
Definition exp_poly_decomposition_summand (x : string) (e : expr) (l : list term) : list term :=
  match e with
  | Mul fs => match last_power x fs with
              | Some (b, r) => exp_poly_decomposition_factor b (mul_all G r) x l
              | None => exp_poly_decomposition_factor (Num 1) e x l
              end
  | _ => match good_power x e with
         | Some b => exp_poly_decomposition_factor b (Num 1) x l
         | None => exp_poly_decomposition_factor (Num 1) e x l
         end
  end.
(** ep_decomp.cc:134-159. [simplify] stands for simplify_ex_for_input and simplify_logarithm. *)
Definition exp_poly_decomposition (simplify : expr -> expr) (e : expr) (x : string) : list term :=
  match simplify e with
  | Add l => fold_right (exp_poly_decomposition_summand x) [] l
  | s => exp_poly_decomposition_summand x s []
  end.

(** * Factorials *)
(** The vectors arg and coeff. *)
Definition fterm := (Qc * expr)%type.
(** Adds [c] at the entry [a], which is appended if there is none. *)
Fixpoint add_coeff (a : Qc) (c : expr) (l : list fterm) : list fterm :=
  match l with
  | [] => [(a, gadd G (Num 0) c)]
  | (b, d) :: l => if Qc_eqb b a then (b, gadd G d c) :: l else (b, d) :: add_coeff a c l
  end.
Definition has_arg (a : Qc) (l : list fterm) : bool := existsb (fun t => Qc_eqb (fst t) a) l.
Definition factorial (e : expr) : expr := gfun G FFact [e].
Definition is_x (x : string) (e : expr) : bool := match e with Sym s => String.eqb s x | _ => false end.
(** fact_decomp.cc:42-113 factorial_decomposition_argument; [None]: the assertion fails.
    Not a product: an argument other than x gets an entry with arg 0 (or is added to the entry
    with that very number) and the factorial of the coefficient is added. A product: nothing is
    added if the entry already exists. *)
Definition factorial_decomposition_argument (x : string) (e c : expr) (l : list fterm) : option (list fterm) :=
  match e with
  | Add _ => None
  | Mul fs =>
    let rest := mul_all G (filter (fun f => negb (is_x x f)) fs) in
    let key := if existsb (is_x x) fs then match rest with Num q => Some q | _ => None end else None in
    match key with
    | Some q => Some (if has_arg q l then l else l ++ [(q, gadd G (Num 0) c)])
    | None => Some (if has_arg 0 l then l else l ++ [(0%Qc, gadd G (Num 0) (gmul G c (factorial rest)))])
    end
  | _ =>
    if is_x x e then Some (add_coeff 1 c l)
    else
      let found := match e with Num q => has_arg q l | _ => false end in
      match e with
      | Num q => Some (if found then add_coeff q (factorial c) l else l ++ [(0%Qc, gadd G (Num 0) (factorial c))])
      | _ => Some (l ++ [(0%Qc, gadd G (Num 0) (factorial c))])
      end
  end.
(** fact_decomp.cc:137-151: argument of the factorial among the factors and the product of
    the others; [None]: two factorials, which throws. A factorial of 0 counts as none. *)
Definition is_fact (e : expr) : option expr := match e with Fun FFact [a] => Some a | _ => None end.
Fixpoint split_factorial (l : list expr) : option (expr * expr) :=
  match l with
  | [] => Some (Num 0, Num 1)
  | f :: l =>
    match split_factorial l with
    | None => None
    | Some (a, c) => match is_fact f with
                     | Some b => if is_num 0 a then Some (b, c) else None
                     | None => Some (a, gmul G c f)
                     end
    end
  end.
(** fact_decomp.cc:115-172 factorial_decomposition_summand. *)
Definition factorial_decomposition_summand (x : string) (e : expr) (l : list fterm) : option (list fterm) :=
  match e with
  | Mul fs =>
    match split_factorial fs with
    | None => None
    | Some (a, c) => if is_num 0 a then Some (add_coeff 0 c l) else factorial_decomposition_argument x a c l
    end
  | _ => match is_fact e with
         | Some (Add _) | None => Some (add_coeff 0 e l)
         | Some a => factorial_decomposition_argument x a (Num 1) l
         end
  end.
(** fact_decomp.cc:212-238. *)
Definition factorial_decomposition (simplify : expr -> expr) (e : expr) (x : string) : option (list fterm) :=
  match simplify e with
  | Add l => fold_right (fun a acc => match acc with Some acc => factorial_decomposition_summand x a acc | None => None end) (Some []) l
  | s => factorial_decomposition_summand x s []
  end.
End Decomp.
