(** Specification of the extraction of common factors. *)
From Coq Require Import ZArith QArith Qcanon Reals List String Bool Permutation.
From Verif Require Import Ast.
Import ListNotations.
Local Open Scope list_scope.

(** Product of powers. *)
Definition power_product (l : list (expr * expr)) : expr := Mul (map (fun p => Pow (fst p) (snd p)) l).
(** Factors other than powers of 1. *)
Definition proper (l : list (expr * expr)) : list (expr * expr) := filter (fun p => negb (is_num 1 (fst p))) l.
(** A way of splitting expressions sees the proper factors [l] of [e], up to the order; 1 appears
    only with exponent 1. *)
Definition splits_to (split : expr -> option (list (expr * expr))) (e : expr) (l : list (expr * expr)) : Prop :=
  exists ps, split e = Some ps /\ Permutation (proper ps) l /\ (forall f, In (Num 1, f) ps -> f = Num 1).
(** A term that is split into powers of distinct bases; 1 appears only with exponent 1. *)
Definition distinct_bases (split : expr -> option (list (expr * expr))) (t : expr) : Prop :=
  exists ps, split t = Some ps /\ NoDup (map fst (proper ps)) /\ (forall f, In (Num 1, f) ps -> f = Num 1).
(** Multiplying by a power of a base of the given terms adds that power to the factors seen. *)
Definition resplits (split : expr -> option (list (expr * expr))) (G : ginac) (ts : list expr) : Prop :=
  (forall c l t ps b f e, splits_to split c l -> In t ts -> split t = Some ps -> In (b, f) ps -> b <> Num 1 -> ~ In b (map fst l) ->
     splits_to split (gmul G c (gpow G b e)) ((b, e) :: l)) /\
  (forall c l, splits_to split c l -> splits_to split (gmul G c (gpow G (Num 1) (Num 1))) l).
(** The sums met by the factorization of [e], after [prep], have terms with distinct bases. *)
Inductive factorizable (split : expr -> option (list (expr * expr))) (G : ginac) (prep : expr -> expr) (e : expr) : Prop :=
| FzSum ts : prep e = Add ts -> Forall (distinct_bases split) ts -> resplits split G ts -> factorizable split G prep e
| FzPow a b : prep e = Pow a b -> factorizable split G prep a -> factorizable split G prep e
| FzMul l : prep e = Mul l -> Forall (factorizable split G prep) l -> factorizable split G prep e
| FzAtom : (forall l, prep e <> Add l) -> (forall l, prep e <> Mul l) -> (forall l b, prep e <> Pow (Add l) b) -> factorizable split G prep e.
