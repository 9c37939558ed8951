(** Values of giac's trees. *)
From Coq Require Import ZArith QArith Qcanon Reals List String.
From Verif Require Import Ast ExprModel GiacModel.
Import ListNotations.
Local Open Scope R_scope.
Local Open Scope list_scope.

Section S.
Variable I : interp.
Variable find_functor : string -> option fname.
(** [None]: no value, or a tree that giac does not produce for the expressions of PURRS. *)
Fixpoint gval (rho : string -> R) (g : gen) : option R :=
  match g with
  | GInt z => Some (IZR z)
  | GFrac (GInt a) (GInt b) => if Z.eqb b 0 then None else Some (IZR a / IZR b)
  | GIdnt s => Some (rho s)
  | GSymb OProd (GVec l) => fold_right (fun a acc => olift2 Rmult (gval rho a) acc) (Some 1) l
  | GSymb OPlus (GVec l) => fold_right (fun a acc => olift2 Rplus (gval rho a) acc) (Some 0) l
  | GSymb OProd a | GSymb OPlus a => gval rho a
  | GSymb OInv a => obind (gval rho a) (fun v => if Req_EM_T v 0 then None else Some (/ v))
  | GSymb OPow (GVec [a; b]) => obind (gval rho a) (fun x => obind (gval rho b) (rpow x))
  | GSymb (OFun s) a => match find_functor s with None => None | Some f => obind (gval rho a) (fun v => ifun I f [v]) end
  | _ => None
  end.
(** Every integer fits in an int, and sums and products have a vector of operands. *)
Fixpoint fits (g : gen) : Prop :=
  match g with
  | GInt z => (- 2147483648 <= z <= 2147483647)%Z
  | GFrac n d => fits n /\ fits d
  | GIdnt _ | GOther => True
  | GVec l => fold_right (fun a P => fits a /\ P) True l
  | GSymb OProd a | GSymb OPlus a => (exists l, a = GVec l) /\ fits a
  | GSymb _ a => fits a
  end.
(** giac's product has the value of the product. *)
Definition times_ok (gtimes : gen -> gen -> gen) : Prop := forall rho a b x y,
  gval rho a = Some x -> gval rho b = Some y -> gval rho (gtimes a b) = Some (x * y).
End S.
(** No inverse is a factor. *)
Definition no_inverse (g : gen) : Prop :=
  match g with GSymb OInv _ => False | GSymb OProd (GVec l) => forall a, ~ In (GSymb OInv a) l | _ => True end.
(** An instance: products of numbers computed, 1 removed, vectors joined. *)
Definition gops (g : gen) : list gen := match g with GSymb OProd (GVec l) => l | _ => [g] end.
Definition times0 (a b : gen) : gen :=
  match a, b with
  | GInt x, GInt y => GInt (x * y)
  | _, _ => match a with GInt 1 => b | _ => match b with GInt 1 => a | _ => GSymb OProd (GVec (gops a ++ gops b)) end end
  end.
