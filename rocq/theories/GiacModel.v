(** Model of the use of giac for factorisation: src/factorize_giac.cc, the translation of a
    giac expression and the separation of the numeric factors.  The translation to giac is not
    modelled; giac's trees, their value, and its multiplication are parameters of the model. *)
From Coq Require Import ZArith QArith Qcanon List String Bool.
From Verif Require Import Ast ExprModel.
Import ListNotations.
Local Open Scope list_scope.

(** The objects of giac that are distinguished: types _INT_ and _ZINT (integers), _FRAC, _IDNT,
    _VECT, _SYMB (an operator and its operand) and the others. *)
Inductive goper := OProd | OPlus | OInv | OPow | OFun (name : string).
Inductive gen :=
  | GInt (z : Z)
  | GFrac (n d : gen)
  | GIdnt (name : string)
  | GVec (l : list gen)
  | GSymb (op : goper) (arg : gen)
  | GOther.

(** The values of int; larger integers are of type _ZINT, and reading [val], or [to_int], of
    them is not defined here. *)
Definition is_int32 (z : Z) : bool := Z.leb (-2147483648) z && Z.leb z 2147483647.

Section M.
Variable G : ginac.
(** GiNaC's find_function, which throws when there is no function of that name (Expr.inlines.hh:536-540). *)
Variable find_functor : string -> option fname.
(** giac's operator* . *)
Variable gtimes : gen -> gen -> gen.

(** factorize_giac.cc:283-326.  None: an exception, or an operation that is not defined.
    The elements of vectors are visited from the last one. *)
Fixpoint translate_back (g : gen) : option expr :=
  let fix factors (l : list gen) : option expr :=
    match l with
    | [] => Some (Num 1%Qc)
    | a :: l' => match factors l' with None => None | Some e =>
        match translate_back a with None => None | Some x => Some (gmul G e x) end end
    end in
  let fix terms (l : list gen) : option expr :=
    match l with
    | [] => Some (Num 0%Qc)
    | a :: l' => match terms l' with None => None | Some e =>
        match translate_back a with None => None | Some x => Some (gadd G e x) end end
    end in
  let fix back (l : list gen) : option expr :=
    match l with [] => None | [a] => translate_back a | _ :: l' => back l' end in
  match g with
  | GInt z => if is_int32 z then Some (Num (zq z)) else None
  | GFrac n d =>
    match n, d with
    | GInt a, GInt b => if is_int32 a && is_int32 b && negb (Z.eqb b 0) then Some (Num (zq a / zq b)%Qc) else None
    | _, _ => None
    end
  | GIdnt s => Some (Sym s)
  | GSymb OProd a => match a with GVec l => factors l | _ => Some (Num 1%Qc) end
  | GSymb OPlus a => match a with GVec l => terms l | _ => Some (Num 0%Qc) end
  | GSymb OInv a => match translate_back a with None => None | Some e => Some (gpow G e (Num (zq (-1)))) end
  | GSymb OPow a =>
    match a with
    | GVec (f :: l) =>
      match translate_back f with None => None | Some b =>
        match back (f :: l) with None => None | Some e => Some (gpow G b e) end end
    | _ => None
    end
  | GSymb (OFun s) a =>
    match find_functor s with None => None | Some f =>
      match translate_back a with None => None | Some e => Some (gfun G f [e]) end end
  | GVec _ | GOther => Some (Num 0%Qc)
  end.

(** factorize_giac.cc:349-350, 357-358. *)
Definition is_numeric_factor (g : gen) : bool :=
  match g with GInt _ | GFrac _ _ => true | GSymb OInv _ => true | _ => false end.
(** factorize_giac.cc:348-353. *)
Fixpoint split_vector (l : list gen) : gen * gen :=
  match l with
  | [] => (GInt 1, GInt 1)
  | v :: l' => let '(a, b) := split_vector l' in
    if is_numeric_factor v then (gtimes a v, b) else (a, gtimes b v)
  end.
(** factorize_giac.cc:342-361. *)
Definition split_factors (g : gen) : gen * gen :=
  match g with
  | GSymb OProd a => match a with GVec l => split_vector l | _ => (GInt 1, GInt 1) end
  | _ => if is_numeric_factor g then (gtimes (GInt 1) g, GInt 1) else (GInt 1, gtimes (GInt 1) g)
  end.
(** factorize_giac.cc:362-363; the rewriting with the blackboard (364-365) is in BlackboardModel.v. *)
Definition factors_of (g : gen) : option expr * option expr :=
  (translate_back (fst (split_factors g)), translate_back (snd (split_factors g))).
End M.
