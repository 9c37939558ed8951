(** Specification for numerators and denominators. *)
From Coq Require Import ZArith QArith Qcanon Reals List String Bool.
From Verif Require Import Ast FactSpec.
Import ListNotations.
Local Open Scope list_scope.

(** A denominator that is split into powers of distinct bases with positive integer exponents. *)
Definition nat_exponent (f : expr) : Prop := exists q n, f = Num q /\ rv q = INR n /\ (0 < n)%nat.
Definition nice_denominator (split : expr -> option (list (expr * expr))) (d : expr) : Prop :=
  exists l, splits_to split d l /\ NoDup (map fst l) /\ Forall (fun p => nat_exponent (snd p)) l.
(** Multiplying by 1^0 or 1^1 does not change the factors. *)
Definition resplits_units (split : expr -> option (list (expr * expr))) (G : ginac) : Prop :=
  forall c l e, splits_to split c l -> e = Num 0 \/ e = Num 1 -> splits_to split (gmul G c (gpow G (Num 1) e)) l.
(** The sums met by the procedure [nd] in [e] have terms with such denominators. *)
Inductive nice_sums (split : expr -> option (list (expr * expr))) (G : ginac) (nd : expr -> option (expr * expr)) : expr -> Prop :=
| NsSum l ds : Forall (nice_sums split G nd) l -> Forall2 (fun t d => exists n, nd t = Some (n, d)) l ds ->
    Forall (nice_denominator split) ds -> resplits split G ds -> nice_sums split G nd (Add l)
| NsPow a b : nice_sums split G nd a -> nice_sums split G nd b -> nice_sums split G nd (Pow a b)
| NsMul l : Forall (fun f => forall a b, f = Pow a b -> nice_sums split G nd f) l -> nice_sums split G nd (Mul l)
| NsAtom e : (forall l, e <> Add l) -> (forall l, e <> Mul l) -> (forall a b, e <> Pow a b) -> nice_sums split G nd e.
