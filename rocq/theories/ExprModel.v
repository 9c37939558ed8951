(** Model of src/Expr.cc: automatic evaluation of functions, predicates, substitution. *)
From Coq Require Import ZArith QArith Qcanon List String Bool.
From Verif Require Import Ast.
Import ListNotations.
Local Open Scope bool_scope.

(** A call returns or throws. *)
Inductive result (A : Type) := Ret (a : A) | Throw.
Arguments Ret {A} _.
Arguments Throw {A}.

(** numeric::is_integer, is_pos_integer; numbers are rational here. *)
Definition q_is_int (q : Qc) : bool := Pos.eqb (Qden (this q)) 1.
Definition q_int (q : Qc) : Z := Qnum (this q).
Definition q_lt (p q : Qc) : bool := if Qclt_le_dec p q then true else false.
Definition q_le (p q : Qc) : bool := negb (q_lt q p).
Definition is_a_number (e : expr) : option Qc := match e with Num q => Some q | _ => None end.

(** Expr.cc:98-112. CLN's floor1 on a rational is the floor of the quotient. *)
Definition floor_eval (e : expr) : expr :=
  match e with
  | Num q => if q_is_int q then Num q else Num (zq (Qnum (this q) / Z.pos (Qden (this q))))
  | _ => Fun FFloor [e]
  end.

(** GiNaC's numeric mod: sign of the divisor, zero if an argument is not an integer,
    exception for divisor zero. *)
Definition num_mod (a b : Qc) : result Qc :=
  if q_is_int a && q_is_int b then
    if Z.eqb (q_int b) 0 then Throw else Ret (zq (Z.modulo (q_int a) (q_int b)))
  else Ret 0%Qc.
(** Expr.cc:171-193. *)
Definition mod_eval (x y : expr) : result expr :=
  match x, y with
  | Num a, Num b => match num_mod a b with Ret m => Ret (Num m) | Throw => Throw end
  | Add [Sym s; Num h], Num k | Add [Num h; Sym s], Num k =>
    if q_is_int k then
      match num_mod h k with
      | Throw => Throw
      | Ret m => if Qc_eqb m 0 then Ret (Fun FMod [Sym s; y]) else Ret (Fun FMod [x; y])
      end
    else Ret (Fun FMod [x; y])
  | _, _ => Ret (Fun FMod [x; y])
  end.

(** Expr.cc:757-794 Expr::substitute (and GiNaC's subs for a symbol): every occurrence,
    indices of sums and products included, with no renaming of bound symbols. *)
Section Subst.
Variable G : ginac.
(** gadd over the operands, starting from 0 (the loops run from the last operand). *)
Definition add_all (l : list expr) : expr := fold_right (fun a acc => gadd G acc a) (Num 0) l.
Definition mul_all (l : list expr) : expr := fold_right (fun a acc => gmul G acc a) (Num 1) l.
(** PURRS::apply on the function sum/prod once its index has become [i]. *)
Definition apply_sum (i lo up e : expr) : expr :=
  match i with Sym k => gsum G k lo up e | _ => gfun G (FOther "sum") [i; lo; up; e] end.
Definition apply_prod (i lo up e : expr) : expr :=
  match i with Sym k => gprod G k lo up e | _ => gfun G (FOther "prod") [i; lo; up; e] end.
Fixpoint substitute (s r e : expr) : expr :=
  if expr_eqb e s then r else
  match e with
  | Add l => add_all (map (substitute s r) l)
  | Mul l => mul_all (map (substitute s r) l)
  | Pow a b => gpow G (substitute s r a) (substitute s r b)
  | Fun f l => gfun G f (map (substitute s r) l)
  | SumE k lo up e => apply_sum (if expr_eqb (Sym k) s then r else Sym k)
                        (substitute s r lo) (substitute s r up) (substitute s r e)
  | ProdE k lo up e => apply_prod (if expr_eqb (Sym k) s then r else Sym k)
                        (substitute s r lo) (substitute s r up) (substitute s r e)
  | _ => e
  end.

(** Expr.cc:261-278. The loop runs from the last factor. *)
Definition get_out_factors_from_argument (e : expr) (x : string) : expr * expr :=
  match e with
  | Mul l => fold_right (fun f io => if has x f then (gmul G (fst io) f, snd io) else (fst io, gmul G (snd io) f))
               (Num 1, Num 1) l
  | _ => if has x e then (gmul G (Num 1) e, Num 1) else (Num 1, gmul G (Num 1) e)
  end.
Definition gsub (a b : expr) : expr := gadd G a (gmul G (Num (-(1))%Qc) b).

(** The loop  for (j = lower; j <= upper; ++j), [n] steps at most. *)
Fixpoint num_loop (op : expr -> expr -> expr) (k : string) (e : expr) (n : nat) (j up : Qc) (acc : expr) : expr :=
  match n with
  | O => acc
  | S n => if q_le j up then num_loop op k e n (j + 1)%Qc up (op acc (substitute (Sym k) (Num j) e)) else acc
  end.
(** Enough steps: floor(upper - lower) + 1. *)
Definition loop_steps (lo up : Qc) : nat :=
  Z.to_nat (Qnum (this (up - lo)%Qc) / Z.pos (Qden (this (up - lo)%Qc)) + 1).

(** Expr.cc:333-370. *)
Definition sum_eval (k : string) (lo up e : expr) : result expr :=
  match lo with
  | Num l =>
    if negb (q_is_int l) then Throw else
    match up with
    | Num u =>
      if negb (q_is_int u) then Throw
      else if q_lt u l then Ret (Num 0)
      else if Qc_eqb l u then Ret (substitute (Sym k) lo e)
      else Ret (num_loop (gadd G) k e (loop_steps l u) l u (Num 0))
    | _ =>
      if is_num 1%Qc e then Ret (gadd G (gsub up lo) (Num 1))
      else
        let (fin, fout) := get_out_factors_from_argument e k in
        if is_num 1%Qc fin then Ret (gmul G fout (gadd G (gsub up lo) (Num 1)))
        else Ret (gmul G fout (SumE k lo up fin))
    end
  | _ => Throw
  end.

(** Expr.cc:456-522, the part used in several branches. *)
Definition prod_out (k : string) (lo up up' e : expr) : expr :=
  let (fin, fout) := get_out_factors_from_argument e k in
  let p := gpow G fout (gadd G (gsub up lo) (Num 1)) in
  if is_num 1%Qc fin then p else gmul G p (ProdE k lo up' fin).
(** Expr.cc:499-503: factors for upper = s + j. [i] counts 1, ..., j or 0, -1, .... *)
Fixpoint prod_pos (k s : string) (e : expr) (n : nat) (j : Z) (acc : expr) : expr :=
  match n with
  | O => acc
  | S n => prod_pos k s e n (j + 1)%Z (gmul G acc (substitute (Sym k) (gadd G (Sym s) (Num (zq j))) e))
  end.
Fixpoint prod_neg (k s : string) (e : expr) (n : nat) (j : Z) (acc : expr) : expr :=
  match n with
  | O => acc
  | S n => prod_neg k s e n (j + 1)%Z
      (gmul G acc (gpow G (substitute (Sym k) (gadd G (Sym s) (Num (zq j))) e) (Num (-(1))%Qc)))
  end.
Definition prod_shift (k : string) (lo up : expr) (s : string) (h : Qc) (e : expr) : expr :=
  if q_is_int h then
    let p := gmul G (Num 1) (prod_out k lo up (Sym s) e) in
    if Z.ltb 0 (q_int h) then prod_pos k s e (Z.to_nat (q_int h)) 1 p
    else prod_neg k s e (Z.to_nat (- q_int h)) (q_int h + 1) p
  else prod_out k lo up up e.
(** Expr.cc:435-528. *)
Definition prod_eval (k : string) (lo up e : expr) : result expr :=
  match lo with
  | Num l =>
    match up with
    | Num u =>
      if q_lt u l then Ret (Num 1)
      else if Qc_eqb l u then Ret (substitute (Sym k) lo e)
      else Ret (num_loop (gmul G) k e (loop_steps l u) l u (Num 1))
    | _ =>
      if is_num 1%Qc e then Ret (Num 1) else
      match up with
      | Add [Num h; Sym s] | Add [Sym s; Num h] => Ret (prod_shift k lo up s h e)
      | _ => Ret (prod_out k lo up up e)
      end
    end
  | _ => Throw
  end.

(** Expr.cc:205-221. The product has numeric limits; [factorial] is GiNaC's on a
    non-negative integer. *)
Fixpoint qfact (n : nat) : Qc := match n with O => 1%Qc | S m => (zq (Z.of_nat n) * qfact m)%Qc end.
Definition binom_eval (m k : expr) : result expr :=
  match m, k with
  | Num a, Num b =>
    if q_lt b 0 || negb (q_is_int b) then Throw
    else
      match prod_eval "h" (Num (a - b + 1)%Qc) (Num a) (Sym "h") with
      | Ret p => Ret (gmul G p (Num (/ qfact (Z.to_nat (q_int b)))%Qc))
      | Throw => Throw
      end
  | _, _ => Ret (Fun FBinom [m; k])
  end.

(** Expr.cc:1160-1182. *)
Fixpoint preserves_nonnegativity (e : expr) : bool :=
  match e with
  | Sym _ => true
  | Num q => q_lt 0 q
  | Add l | Mul l => forallb preserves_nonnegativity l
  | Pow a _ => preserves_nonnegativity a
  | _ => false
  end.
(** Expr.cc:719-737 on numbers. 2 is "don't know". *)
Definition threshold : Qc := Q2Qc (1 # 1000000).
Definition compare_num (d : Qc) : Z :=
  if Qc_eqb d 0 then 0
  else if q_lt 0 d && q_lt threshold d then 1
  else if q_lt d 0 && q_lt d (- threshold)%Qc then -1
  else 2.
(** Expr.cc:566-580 and 612-627. *)
Definition max_eval (a b : expr) : expr :=
  let diff := gsub a b in
  match diff with
  | Num d => if Z.eqb (compare_num d) 1 then a else b
  | _ => if preserves_nonnegativity diff then a
         else if preserves_nonnegativity (gmul G (Num (-(1))%Qc) diff) then b
         else Fun FMax [a; b]
  end.
Definition min_eval (a b : expr) : expr :=
  let diff := gsub a b in
  match diff with
  | Num d => if Z.eqb (compare_num d) 1 then b else a
  | _ => if preserves_nonnegativity diff then b
         else if preserves_nonnegativity (gmul G (Num (-(1))%Qc) diff) then a
         else Fun FMin [a; b]
  end.

(** Expr.cc:800-822. *)
Definition dist_step (factor d : expr) : expr :=
  match factor with
  | Add fl =>
    fold_right (fun fj tmp =>
      match d with
      | Add dl => fold_right (fun dh tmp => gadd G tmp (gmul G fj dh)) tmp dl
      | _ => gadd G tmp (gmul G fj d)
      end) (Num 0) fl
  | _ =>
    match d with
    | Add dl => fold_right (fun dh tmp => gadd G tmp (gmul G factor dh)) (Num 0) dl
    | _ => gadd G (Num 0) (gmul G factor d)
    end
  end.
Definition distribute_mul_over_add_factor (l : list expr) : expr :=
  match l with
  | [] => Num 1   (* a GiNaC product has at least two operands *)
  | e0 :: l => fold_right dist_step e0 l
  end.
(** Expr.cc:826-840. *)
Fixpoint distribute_mul_over_add (e : expr) : expr :=
  match e with
  | Add l => add_all (map distribute_mul_over_add l)
  | Mul l => distribute_mul_over_add_factor l
  | _ => e
  end.
End Subst.

(** * Predicates *)
(** Expr.cc:843-868. *)
Fixpoint is_scalar_representation (x : string) (e : expr) : bool :=
  match e with
  | Num _ | Cst _ => true
  | Sym s => negb (String.eqb s x)
  | Pow a b => is_scalar_representation x a && is_scalar_representation x b
  | Fun _ l | Add l | Mul l => forallb (is_scalar_representation x) l
  | SumE k lo up e | ProdE k lo up e =>
    negb (String.eqb k x) && is_scalar_representation x lo && is_scalar_representation x up && is_scalar_representation x e
  end.
Definition is_pos_int_num (e : expr) : bool :=
  match e with Num q => q_is_int q && q_lt 0 q | _ => false end.
(** Expr.cc:871-892. *)
Fixpoint is_polynomial (x : string) (e : expr) : bool :=
  is_scalar_representation x e ||
  match e with
  | Sym s => String.eqb s x
  | Pow a b => is_polynomial x a && is_pos_int_num b
  | Add l | Mul l => forallb (is_polynomial x) l
  | _ => false
  end.
Definition is_sym (e : expr) : bool := match e with Sym _ => true | _ => false end.
(** Expr.cc:894-924. In the power case [e.is_a_symbol()] is false; in the function case
    [e != x] is true. *)
Fixpoint is_integer_scalar_representation (x : string) (e : expr) : bool :=
  match e with
  | Num q => q_is_int q
  | Sym s => negb (String.eqb s x)
  | Pow a b => is_integer_scalar_representation x a && is_pos_int_num b
  | Fun _ l => forallb is_sym l
  | SumE k lo up e | ProdE k lo up e => forallb is_sym [Sym k; lo; up; e]
  | Add l | Mul l => forallb (is_integer_scalar_representation x) l
  | Cst _ => false
  end.
(** Expr.cc:926-946. *)
Fixpoint is_integer_polynomial (x : string) (e : expr) : bool :=
  is_integer_scalar_representation x e ||
  match e with
  | Sym s => String.eqb s x
  | Pow a b => is_integer_polynomial x a && is_pos_int_num b
  | Add l | Mul l => forallb (is_integer_polynomial x) l
  | _ => false
  end.
(** Expr.cc:948-980. The chain of else binds to the inner if: the cases for functions,
    sums and products are attached to "power whose base is not rational" and never apply. *)
Fixpoint is_rational_scalar_representation (x : string) (e : expr) : bool :=
  match e with
  | Num _ => true
  | Sym s => negb (String.eqb s x)
  | Pow a b =>
    if is_rational_scalar_representation x a then
      match b with
      | Num q => (q_is_int q && q_lt 0 q) || match a with Num _ => false | _ => true end
      | _ => true
      end
    else false
  | _ => false
  end.
(** Expr.cc:1088-1109 has_x_function(). *)
Fixpoint has_x_function (e : expr) : bool :=
  match e with
  | Add l | Mul l => existsb has_x_function l
  | Pow a b => has_x_function a || has_x_function b
  | Fun FX _ => true
  | Fun _ l => existsb has_x_function l
  | SumE _ lo up e | ProdE _ lo up e => has_x_function lo || has_x_function up || has_x_function e
  | _ => false
  end.
(** Expr.cc:1001-1026 is_scalar_representation(), 1028-1048 is_multivariate_polynomial(). *)
Fixpoint is_scalar (e : expr) : bool :=
  match e with
  | Num _ | Cst _ => true
  | Sym _ => false
  | Pow a b => is_scalar a && is_scalar b
  | Fun _ l | Add l | Mul l => forallb is_scalar l
  | SumE _ _ _ _ | ProdE _ _ _ _ => false (* the index is a symbol *)
  end.
Fixpoint is_multivariate_polynomial (e : expr) : bool :=
  is_scalar e ||
  match e with
  | Sym _ => true
  | Pow a b => is_multivariate_polynomial a && is_pos_int_num b
  | Add l | Mul l => forallb is_multivariate_polynomial l
  | _ => false
  end.
