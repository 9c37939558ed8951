(** Specification vocabulary for the functions of src/Expr.cc. *)
From Coq Require Import ZArith Reals List String.
From Verif Require Import Ast.
Import ListNotations.
Local Open Scope R_scope.

(** m (m-1) ... (m-k+1) / k! *)
Fixpoint gbinom (m : R) (k : nat) : R :=
  match k with O => 1 | S j => gbinom m j * (m - INR j) / INR (S j) end.
(** a - b floor(a/b) *)
Definition rmod (a b : R) : R := a - b * IZR (Int_part (a / b)).
(** The standard meaning of floor, mod, binom, max, min. *)
Definition std_interp (I : interp) : Prop :=
  (forall v, ifun I FFloor [v] = Some (IZR (Int_part v))) /\
  (forall a b, b <> 0 -> ifun I FMod [a; b] = Some (rmod a b)) /\
  (forall m k, ifun I FBinom [m; INR k] = Some (gbinom m k)) /\
  (forall a b, ifun I FMax [a; b] = Some (Rmax a b)) /\
  (forall a b, ifun I FMin [a; b] = Some (Rmin a b)).
(** No sum or product inside. *)
Fixpoint no_binders (e : expr) : Prop :=
  match e with
  | Add l | Mul l | Fun _ l => fold_right (fun a P => no_binders a /\ P) True l
  | Pow a b => no_binders a /\ no_binders b
  | SumE _ _ _ _ | ProdE _ _ _ _ => False
  | _ => True
  end.
(** The symbol is not the index of a sum or product inside [e]. *)
Fixpoint not_bound (s : string) (e : expr) : Prop :=
  match e with
  | Add l | Mul l | Fun _ l => fold_right (fun a P => not_bound s a /\ P) True l
  | Pow a b => not_bound s a /\ not_bound s b
  | SumE k lo up e | ProdE k lo up e => k <> s /\ not_bound s lo /\ not_bound s up /\ not_bound s e
  | _ => True
  end.
(** No applied function, sum or product inside. *)
Fixpoint no_functions (e : expr) : Prop :=
  match e with
  | Add l | Mul l => fold_right (fun a P => no_functions a /\ P) True l
  | Pow a b => no_functions a /\ no_functions b
  | Fun _ _ | SumE _ _ _ _ | ProdE _ _ _ _ => False
  | _ => True
  end.
(** Every factor of the product contains the symbol. *)
Definition all_factors_have (k : string) (e : expr) : Prop :=
  match e with Mul l => Forall (fun f => has k f = true) l | _ => has k e = true end.
(** Value of a polynomial with real coefficients, lowest degree first. *)
Fixpoint rpoly (c : list R) (t : R) : R := match c with [] => 0 | a :: c => a + t * rpoly c t end.
Definition is_integer (v : R) : Prop := exists z, v = IZR z.
(** The symbol [s] is bound nowhere in [e] and no index bound in [e] occurs in [r]. *)
Fixpoint no_capture (s : string) (r e : expr) : Prop :=
  match e with
  | Add l | Mul l | Fun _ l => fold_right (fun a P => no_capture s r a /\ P) True l
  | Pow a b => no_capture s r a /\ no_capture s r b
  | SumE k lo up e | ProdE k lo up e =>
    k <> s /\ has k r = false /\ no_capture s r lo /\ no_capture s r up /\ no_capture s r e
  | _ => True
  end.
(** Every power occurring in [e] has a positive integer as exponent. *)
Fixpoint positive_integer_powers (e : expr) : Prop :=
  match e with
  | Add l | Mul l | Fun _ l => fold_right (fun a P => positive_integer_powers a /\ P) True l
  | Pow a b => positive_integer_powers a /\ exists n, b = Num (zq (Z.pos n))
  | SumE k lo up e | ProdE k lo up e =>
    positive_integer_powers lo /\ positive_integer_powers up /\ positive_integer_powers e
  | _ => True
  end.
Definition is_rational (v : R) : Prop := exists p q, (q <> 0)%Z /\ v = IZR p / IZR q.
(** No product that is an operand of the top-level sum, and no top-level product, has a sum among its factors. *)
Definition distributed (e : expr) : Prop :=
  let flat t := match t with Mul l => Forall (fun f => match f with Add _ => False | _ => True end) l | _ => True end in
  match e with Add l => Forall flat l | _ => flat e end.
(** The value of [e] as a function of the symbol [x] is a polynomial (or nowhere defined),
    whatever the other symbols are. *)
Definition polynomial_function (I : interp) (x : string) (e : expr) : Prop := forall rho,
  (forall t, eval I (upd rho x t) e = None) \/ exists c, forall t, eval I (upd rho x t) e = Some (rpoly c t).
(** The standard interpretation. *)
Definition I0 : interp := MkI (fun _ => PI) (fun f l =>
  match f, l with
  | FFloor, [v] => Some (IZR (Int_part v))
  | FMod, [a; b] => if Req_EM_T b 0 then None else Some (rmod a b)
  | FBinom, [m; k] => match as_int k with Some z => if Z.ltb z 0 then None else Some (gbinom m (Z.to_nat z)) | None => None end
  | FMax, [a; b] => Some (Rmax a b)
  | FMin, [a; b] => Some (Rmin a b)
  | FFact, [a] => match as_int a with Some z => if Z.ltb z 0 then None else Some (INR (fact (Z.to_nat z))) | None => None end
  | FLog, [a] => if Rlt_dec 0 a then Some (ln a) else None
  | FExp, [a] => Some (exp a)
  | FSin, [a] => Some (sin a)
  | FCos, [a] => Some (cos a)
  | FX, [a] => Some a
  | _, _ => None
  end).
(** The same interpretation with another sequence x(.). *)
Definition with_x (I : interp) (x : list R -> option R) : interp :=
  MkI (icst I) (fun f l => match f with FX => x l | _ => ifun I f l end).
