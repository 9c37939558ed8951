(** Vocabulary for C34. *)
From Coq Require Import ZArith QArith Qcanon Reals List String Bool.
From Verif Require Import Ast ExprModel SeqInterp ElimSpec BoundVModel.
Import ListNotations.
Local Open Scope R_scope.
Local Open Scope list_scope.

(** [x] satisfies x(n) = a x(floor(n/b)) + p(n) from b on. *)
Definition functional_equation (a : R) (b : nat) (p : nat -> R) (x : nat -> R) : Prop := forall n, (b <= n)%nat -> x n = a * x (n / b)%nat + p n.
(** The factor is n or n^k, k > 0. *)
Definition power_of_n (f : expr) : Prop := f = Sym "n" \/ exists k, (0 < k)%nat /\ f = Pow (Sym "n") (Num (zq (Z.of_nat k))).
(** The sum of the summands in n is a product with a power of n, if its coefficient is a number. *)
Definition n_survives (G : ginac) (l : list expr) : Prop := forall fs q, fst (split G l) = Mul fs -> coeff_n G fs = Num q -> exists f, In f fs /\ power_of_n f.
