(** Specification for recurrences defined by a maximum. *)
From Coq Require Import ZArith QArith Qcanon Reals List String Bool.
From Verif Require Import Ast SeqInterp RecModel MaxModel.
Import ListNotations.

(** The auxiliary recurrence is solved correctly: the closed form for x(n) = f, x(0) = c
    has the value of c at 0 and satisfies the equation from 1 on.  (That PURRS does so for linear
    recurrences is the subject of C21-C24.) *)
Definition aux_correct (I : interp) (A : aux_rec) : Prop :=
  forall f c v k rho, a_order A f = Some k -> (k <= 1)%nat -> a_status A f = SUCCESS ->
  has "n" c = false -> eval I rho c = Some v ->
  exists y, denotes I rho (a_solution A f c) y /\ y O = v /\ solves_from I rho 1 f y.
(** f is a x(n-1) + b with rational a and b. *)
Definition affine (a b : Qc) : expr := Add [Mul [Num a; Fun FX [Add [Sym "n"; Num (zq (-1))]]]; Num b].
(** A solver for exactly these, x(n) = a x(n-1) + b with a = 1: c + b n. *)
Definition unit_aux : aux_rec := MkAux
  (fun f => match f with Add [_; Num b] => if expr_eqb f (affine 1%Qc b) then Some 1%nat else None | _ => None end)
  (fun _ => SUCCESS)
  (fun f c => match f with Add [_; Num b] => Add [c; Mul [Num b; Sym "n"]] | _ => c end).
