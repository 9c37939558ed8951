(** Vocabulary for C45. *)
From Coq Require Import ZArith QArith Qcanon Reals List String Bool.
From Verif Require Import Ast ExprModel ExprSpec DecompModel.
Import ListNotations.
Local Open Scope R_scope.
Local Open Scope list_scope.

(** f(lo) f(lo+1) ... f(lo+cnt-1) *)
Fixpoint zprod (f : Z -> R) (lo : Z) (cnt : nat) : R := match cnt with O => 1 | S c => zprod f lo c * f (lo + Z.of_nat c)%Z end.
Fixpoint zsum (f : Z -> R) (lo : Z) (cnt : nat) : R := match cnt with O => 0 | S c => zsum f lo c + f (lo + Z.of_nat c)%Z end.
(** The environment for n = N. *)
Definition env (rho : string -> R) (N : Z) : string -> R := upd rho "n" (IZR N).
(** The factors: e at k = i has the value f(i), not zero, for all i >= lo. *)
Definition factors_are (I : interp) (rho : string -> R) (k : string) (lo : Z) (e : expr) (f : Z -> R) : Prop :=
  forall i, (lo <= i)%Z -> eval I (upd rho k (IZR i)) e = Some (f i) /\ f i <> 0.
(** The sum of c(i) b^i for i = 0, ..., N is available in closed form. *)
Definition sums_exponentials (I : interp) (sum_pe : expr -> string -> expr -> expr) : Prop :=
  forall rho h c b (N : Z) (g : Z -> R), (0 <= N)%Z ->
  (forall i, (0 <= i <= N)%Z -> eval I (upd (env rho N) h (IZR i)) (Mul [c; Pow b (Sym h)]) = Some (g i)) ->
  eval I (env rho N) (sum_pe c h b) = Some (zsum g 0 (Z.to_nat (N + 1))).
(** The products treated.  Left out: k + q with a fraction q; powers with exponent 0 (GiNaC has none);
    a constant to a power depending on k if the product does not start at 1, or if the exponent has
    a part that is neither polynomial nor exponential, or no value at k = 0; sums with an index named
    like the fresh symbol or k. *)
Section Treated.
Context (I : interp) (rho : string -> R) (G : ginac) (simplify expand : expr -> expr) (k h : string) (lo : Z).
Definition exponent_treated (b : expr) : Prop :=
  lo = 1%Z /\ (exists v, eval I (upd rho k 0) b = Some v) /\
  Forall (fun t => let '(a, p, q) := t in q = Num 0 /\ no_capture k (Sym h) p /\ not_bound h (substitute G (Sym k) (Sym h) p) /\ has h p = false /\ has h a = false) (exp_poly_decomposition G simplify (expand b) k).
Fixpoint treated (e : expr) : Prop :=
  no_capture k (Sym h) e /\ has h e = false /\
  match e with
  | Add [a; Num q] => a = Sym k -> q_is_int q = true
  | Mul l => fold_right (fun a P => treated a /\ P) True l
  | Pow a b => if has k a then (match b with Num q => q <> 0%Qc /\ treated a | _ => True end) else exponent_treated b
  | _ => True
  end.
(** The auxiliary functions split a sum into factors, and stay within these products. *)
Definition splits_product (e a b : expr) : Prop :=
  (forall rho v, eval I rho e = Some v -> eval I rho (Mul [a; b]) = Some v) /\ (treated e -> treated a /\ treated b).
Definition splits_quotient (e a b : expr) : Prop :=
  (forall rho v, eval I rho e = Some v -> exists x y, eval I rho a = Some x /\ eval I rho b = Some y /\ y <> 0 /\ v = x / y) /\ (treated e -> treated a /\ treated b).
End Treated.
