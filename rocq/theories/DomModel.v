(** Model of find_domain_in_N (src/util.cc): the least index from which on an expression is defined.
    GiNaC's numerator, denominator and expand are parameters; so are the roots: [roots x e] are the
    real numbers among the roots that find_roots finds for convert_to_integer_polynomial(e), none if
    e is no rational polynomial or find_roots gives up. The symbols z count in Z. *)
From Coq Require Import ZArith QArith Qcanon Qround List String Bool.
From Verif Require Import Ast ExprModel.
Import ListNotations.
Local Open Scope bool_scope.
Local Open Scope list_scope.

Section Model.
Context (G : ginac) (numerator denominator expand : expr -> expr) (roots : string -> expr -> list Qc).

(** util.cc:446-488 ok_argument_factorial. *)
(** [e] is x times a number *)
Definition times_number (x : string) (e : expr) : option Qc :=
  match e with
  | Mul [a; b] =>
    match a, b with
    | Sym s, Num q | Num q, Sym s => if String.eqb s x then Some q else None
    | _, _ => None
    end
  | _ => None
  end.
Definition is_number (e : expr) : option Qc := match e with Num q => Some q | _ => None end.
Definition pos_int (q : Qc) : bool := q_is_int q && (0 <? q_int q)%Z.
(** first is a n, second is b *)
Definition affine (x : string) (first second : expr) : bool :=
  match times_number x first, is_number second with Some a, Some b => pos_int a && q_is_int b | _, _ => false end.
Definition shifted_symbol (x : string) (first second : expr) : bool :=
  match first, second with Sym s, Num b => String.eqb s x && q_is_int b | _, _ => false end.
Definition ok_argument_factorial (x : string) (e : expr) : bool :=
  match e with
  | Add [a; b] => affine x a b || affine x b a || shifted_symbol x a b || shifted_symbol x b a
  | Add _ => false
  | Mul [_; _] => match times_number x e with Some a => pos_int a | None => false end
  | Sym s => String.eqb s x
  | _ => false
  end.

(** util.cc:514-516: while (z < root) ++z; util.cc:537-538 for e = 2.718... *)
Definition raise (z : Z) (q : Qc) : Z := Z.max z (Qceiling (this q)).
Definition raise_e (z : Z) : Z := Z.max z 3.
(** util.cc:503-518: the roots, the last one first. *)
Definition raise_all (z : Z) (l : list Qc) : Z := fold_left raise (rev l) z.
Definition is_log (e : expr) : bool := match e with Fun FLog _ => true | _ => false end.

(** util.cc:499-573: the answer and the new z. [None]: the nesting exceeds the fuel. *)
Fixpoint all_operands (rec : expr -> Z -> option (bool * Z)) (l : list expr) (z : Z) : option (bool * Z) :=
  match l with
  | [] => Some (true, z)
  | a :: l => match rec a z with Some (true, z) => all_operands rec l z | r => r end
  end.
Definition find_domain_with (rec : expr -> Z -> option (bool * Z)) (e : expr) (z : Z) : option (bool * Z) :=
  match rec (expand (numerator e)) z with
  | Some (true, z) => rec (expand (denominator e)) z
  | r => r
  end.
Fixpoint on_expanded (fuel : nat) (x : string) (e : expr) (z : Z) : option (bool * Z) :=
  match fuel with
  | O => None
  | S fuel =>
    let rec := on_expanded fuel x in
    if has x e then
      if is_polynomial x e then Some (true, raise_all z (roots x e))
      else match e with
      | Add l | Mul l => all_operands rec (rev l) z
      | Fun FLog (a :: _) =>
        if is_polynomial x a then match rec (gsub G a (Num 1)) z with Some (_, z) => Some (true, z) | None => None end
        else if is_log a then match rec a z with Some (_, z) => Some (true, raise_e z) | None => None end
        else Some (false, z)
      | Fun FFact (a :: _) => if ok_argument_factorial x a then rec a z else Some (false, z)
      | Pow a b =>
        match a with
        | Num q => if q_lt 0 q && has x b then Some (true, z) else find_domain_with rec (gmul G b (gfun G FLog [a])) z
        | _ => find_domain_with rec (gmul G b (gfun G FLog [a])) z
        end
      | _ => Some (false, z)
      end
    else Some (true, z)
  end.
Definition find_domain_in_N (fuel : nat) (x : string) (e : expr) (z : Z) : option (bool * Z) :=
  find_domain_with (on_expanded fuel x) e z.
End Model.
