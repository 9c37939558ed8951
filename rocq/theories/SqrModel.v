(** Model of PURRS::sqrfree (src/Expr.cc:628-717): the subexpressions that GiNaC does not take for polynomials are hidden behind new symbols of
    a blackboard, GiNaC::sqrfree is called, the symbols are put back.
    Simplifications: the names of the new symbols are a parameter ([fresh k] is the name of the k-th symbol made); a failing assertion is
    the outcome Undefined. *)
From Coq Require Import QArith Qcanon List String Bool.
From Verif Require Import Ast ExprModel BlackboardModel.
Import ListNotations.
Local Open Scope list_scope.

Section M.
Variable G : ginac.
Variable fresh : nat -> string.
(** The blackboard and the number of symbols made so far. *)
Definition board := (blackboard * nat)%type.
(** Blackboard.inlines.hh:78-87, called with a new symbol. *)
Definition hide (s : board) (e : expr) : board * expr :=
  ((fst (insert_definition (fst s) (fresh (snd s)) e), S (snd s)), Sym (fresh (snd s))).
(** Expr.cc:671-676: the exponents that GiNaC accepts. *)
Definition int_num (b : expr) : bool := match b with Num q => q_is_int q | _ => false end.
(** Expr.cc:656-692 substitute_critical_ex. The symbols of the list y are names. For a power the exponent is a number, so that the recursive
    call returns it. *)
Fixpoint substitute_critical (y : list string) (s : board) (e : expr) {struct e} : call (board * expr) :=
  match e with
  | Add l => from_last (substitute_critical y) (gadd G) (Num 0%Qc) s l
  | Mul l => from_last (substitute_critical y) (gmul G) (Num 1%Qc) s l
  | Pow a b =>
    if negb (int_num b) then Done (hide s e)
    else cbind (substitute_critical y s a) (fun p => cbind (substitute_critical y (fst p) b) (fun q => Done (fst q, gpow G (snd p) (snd q))))
  | Fun _ _ | SumE _ _ _ _ | ProdE _ _ _ _ =>
    if existsb (fun x => has x e) y then Undefined else Done (hide s e)
  | Num _ | Cst _ | Sym _ => Done (s, e)
  end.
(** Expr.cc:702-717. [ginac_sqrfree] is GiNaC::sqrfree, [fuel] bounds the depth of the recursion of Blackboard::rewrite. *)
Definition sqrfree (ginac_sqrfree : list string -> expr -> expr) (fuel : nat) (x : expr) (y : list string) : call expr :=
  if forallb (fun z => is_polynomial z x) y then
    cbind (substitute_critical y (empty_blackboard, 0%nat) x) (fun p =>
    cbind (rewrite_bb G fuel (fst (fst p)) (ginac_sqrfree y (snd p))) (fun r => Done (snd r)))
  else Undefined.
End M.
