(** Vocabulary for C26. *)
From Coq Require Import ZArith QArith Qcanon Reals List String Bool.
From Verif Require Import Ast VerifySpec.
Import ListNotations.
Local Open Scope R_scope.

(** x(lo) + ... + x(lo+cnt-1). *)
Fixpoint range_sum (x : nat -> R) (lo cnt : nat) : R := match cnt with O => 0 | S c => range_sum x lo c + x (lo + c)%nat end.
(** x(lo) + ... + x(n-1) *)
Definition sum_below (x : nat -> R) (lo n : nat) : R := range_sum x lo (n - lo).
(** [t] is [s] or a power of it. *)
Definition carries (s t : expr) : Prop := t = s \/ exists b, t = Pow s b.
(** At most one factor is [s] or a power of [s], and the power has a positive integer exponent. *)
Definition at_most_once (s : expr) (fs : list expr) : Prop :=
  Forall (fun t => match t with Pow a b => a = s -> exists z, (1 <= z)%Z /\ b = Num (zq z) | _ => True end) fs /\
  forall l1 t l2, fs = l1 ++ t :: l2 -> carries s t -> Forall (fun u => ~ carries s u) (l1 ++ l2).
Definition linear_in_term (s e : expr) : Prop :=
  match e with
  | Add l => Forall (fun t => match t with Mul fs => at_most_once s fs | t => at_most_once s [t] end) l
  | _ => True
  end.

(** The parts of a right-hand side with respect to the sum [s], by values: e = c s + r, where c and r come from
    terms and factors free of x. *)
Section Parts.
Context (I : interp) (rho : string -> R) (s : expr).
Inductive term_parts : expr -> R -> R -> Prop :=
| TP_free t v : x_free t -> eval I rho t = Some v -> term_parts t 0 v
| TP_sum : term_parts s 1 0
| TP_mul f1 f2 c : Forall x_free (f1 ++ f2) -> eval I rho (Mul (f1 ++ f2)) = Some c -> term_parts (Mul (f1 ++ s :: f2)) c 0.
Inductive sum_parts : list expr -> R -> R -> Prop :=
| SP_nil : sum_parts [] 0 0
| SP_cons t l c r c' r' : term_parts t c r -> sum_parts l c' r' -> sum_parts (t :: l) (c + c') (r + r').
Definition has_parts (e : expr) (c r : R) : Prop := match e with Add l => sum_parts l c r | t => term_parts t c r end.
End Parts.
(** [addend] is the sum [s] or a product with it. *)
Definition multiple_of (s addend : expr) : Prop := addend = s \/ exists f1 f2, addend = Mul (f1 ++ s :: f2).
(** ... and a term of [e]. *)
Definition term_of (addend e : expr) : Prop := e = addend \/ exists l, e = Add l /\ In addend l.
(** x(.) occurs only as x(k), and not within sums and products. *)
Fixpoint x_only_at (k : string) (e : expr) : Prop :=
  match e with
  | Add l | Mul l => fold_right (fun a P => x_only_at k a /\ P) True l
  | Pow a b => x_only_at k a /\ x_only_at k b
  | Fun FX l => l = [Sym k]
  | Fun _ l => fold_right (fun a P => x_only_at k a /\ P) True l
  | SumE _ lo up e | ProdE _ lo up e => x_free lo /\ x_free up /\ x_free e
  | _ => True
  end.
