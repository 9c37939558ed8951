(** Vocabulary for C55. *)
From Coq Require Import ZArith QArith Qcanon Reals List String Bool.
From Verif Require Import Ast ExprSpec.
Import ListNotations.
Local Open Scope R_scope.
Local Open Scope list_scope.

(** Factorials and binomials: of natural numbers, and with a natural number below. *)
Definition factorial_std (I : interp) : Prop := forall v w, ifun I FFact [v] = Some w <-> exists n, v = INR n /\ w = INR (fact n).
Definition binom_std (I : interp) : Prop := forall m v w, ifun I FBinom [m; v] = Some w <-> exists n, v = INR n /\ w = gbinom m n.
Definition integer_number (e : expr) : Prop := exists z, e = Num (zq z).
(** The operands [l] of a sum: the integer z (or none, z = 0) and [rest]. *)
Definition integer_part (l : list expr) (z : Z) (rest : list expr) : Prop :=
  Forall (fun a => ~ integer_number a) rest /\
  ((z = 0%Z /\ l = rest) \/ exists l1 l2, l = l1 ++ Num (zq z) :: l2 /\ rest = l1 ++ l2).
(** The factorial of the sum [l] can be rewritten at rho: at most one integer operand (always so in
    GiNaC), and if it is positive the rest is a natural number. *)
Definition factorial_fine (I : interp) (rho : string -> R) (l : list expr) : Prop :=
  exists z rest, integer_part l z rest /\ ((0 < z)%Z -> exists n, eval I rho (Add rest) = Some (INR n)).
(** Exponents of (c^x)^q can be swapped. *)
Definition swap_fine (c q : Qc) : Prop := 0 < rv c \/ (rv c <> 0 /\ is_integer (rv q)).
(** binom(m,k) can be rewritten at rho: a negative integer m, or natural numbers k <= m, or a case left alone. *)
Definition binomial_fine (I : interp) (rho : string -> R) (m k : expr) : Prop :=
  (exists p, m = Num (zq (Z.neg p))) \/
  (exists a b, (b <= a)%nat /\ eval I rho m = Some (INR a) /\ eval I rho k = Some (INR b)) \/
  (exists q, m = Num q /\ ~ is_integer (rv q) /\ forall p, k <> Num p).
Inductive binomials_fine (I : interp) : (string -> R) -> expr -> Prop :=
| BF_leaf rho e : match e with Num _ | Cst _ | Sym _ => True | _ => False end -> binomials_fine I rho e
| BF_add rho l : Forall (binomials_fine I rho) l -> binomials_fine I rho (Add l)
| BF_mul rho l : Forall (binomials_fine I rho) l -> binomials_fine I rho (Mul l)
| BF_pow rho a b : binomials_fine I rho a -> binomials_fine I rho b -> binomials_fine I rho (Pow a b)
| BF_binom rho m k : binomial_fine I rho m k -> binomials_fine I rho (Fun FBinom [m; k])
| BF_fun rho f l : f <> FBinom -> Forall (binomials_fine I rho) l -> binomials_fine I rho (Fun f l)
| BF_sum rho k lo up b : binomials_fine I rho lo -> binomials_fine I rho up -> (forall i : Z, binomials_fine I (upd rho k (IZR i)) b) -> binomials_fine I rho (SumE k lo up b)
| BF_prod rho k lo up b : binomials_fine I rho lo -> binomials_fine I rho up -> (forall i : Z, binomials_fine I (upd rho k (IZR i)) b) -> binomials_fine I rho (ProdE k lo up b).
(** Every factorial and nested power reached in [e] can be rewritten in its environment. [again r]: r
    is a result of swapping exponents that is rewritten again. *)
Inductive factorials_fine (I : interp) (swapped : expr -> expr -> Prop) : (string -> R) -> expr -> Prop :=
| FF_leaf rho e : match e with Num _ | Cst _ | Sym _ => True | _ => False end -> factorials_fine I swapped rho e
| FF_add rho l : Forall (factorials_fine I swapped rho) l -> factorials_fine I swapped rho (Add l)
| FF_mul rho l : Forall (factorials_fine I swapped rho) l -> factorials_fine I swapped rho (Mul l)
| FF_pow rho a b : (forall c x q, a = Pow (Num c) x -> b = Num q -> (exists p, x = Num p) \/ (swap_fine c q /\ forall r, swapped (Pow a b) r -> factorials_fine I swapped rho r)) ->
    factorials_fine I swapped rho a -> factorials_fine I swapped rho b -> factorials_fine I swapped rho (Pow a b)
| FF_fact_sum rho l : factorial_fine I rho l -> factorials_fine I swapped rho (Fun FFact [Add l])
| FF_fact rho a : (forall l, a <> Add l) -> factorials_fine I swapped rho (Fun FFact [a])
| FF_fun rho f l : f <> FFact -> Forall (factorials_fine I swapped rho) l -> factorials_fine I swapped rho (Fun f l)
| FF_sum rho k lo up b : factorials_fine I swapped rho lo -> factorials_fine I swapped rho up -> (forall i : Z, factorials_fine I swapped (upd rho k (IZR i)) b) -> factorials_fine I swapped rho (SumE k lo up b)
| FF_prod rho k lo up b : factorials_fine I swapped rho lo -> factorials_fine I swapped rho up -> (forall i : Z, factorials_fine I swapped (upd rho k (IZR i)) b) -> factorials_fine I swapped rho (ProdE k lo up b).
