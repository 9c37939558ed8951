(** Vocabulary for C66. *)
From Coq Require Import ZArith List Reals.
From Verif Require Import Fld SeqSpec.
Import ListNotations.
Local Open Scope list_scope.

Section Spec.
Context {K : Fld}.
Local Open Scope fld_scope.
(** x(n) = a_0(n) x(n-1) + ... + a_{k-1}(n) x(n-k) + p(n) for all n >= start. *)
Definition obeys (k : nat) (a : Z -> nat -> K) (p x : Z -> K) (start : Z) : Prop :=
  forall n, (start <= n)%Z -> x n = bsum k (fun j => a n j * x (n - 1 - Z.of_nat j)%Z) + p n.
(** [sol] gives, for all values of the symbolic conditions x(f), ..., x(f+k-1), the solution with these initial values. *)
Definition general (k : nat) (a : Z -> nat -> K) (p : Z -> K) (f : Z) (sol : (Z -> K) -> Z -> K) : Prop :=
  forall ic, (forall i, (f <= i < f + Z.of_nat k)%Z -> sol ic i = ic i) /\ obeys k a p (sol ic) (f + Z.of_nat k).
(** [cs] ends with [k] conditions at the consecutive indices ..., m-1, m. *)
Definition ends_with (k : nat) (m : Z) (older last cs : list (Z * K)) : Prop :=
  cs = older ++ last /\ map fst last = map (fun j => (m - Z.of_nat k + 1 + Z.of_nat j)%Z) (seq 0 k).
Definition meets (x : Z -> K) (cs : list (Z * K)) : Prop := Forall (fun c => x (fst c) = snd c) cs.
(** Contract of GiNaC's lsolve: nothing is returned if there is no solution; what is returned is a solution, whatever
    the values [y] of the unknowns that are left as they are. *)
Definition value (l u : list K) : K := bsum (length u) (fun j => nth j l 0 * nth j u 0).
Definition solves_all (u : list K) (es : list (list K * K)) : Prop := Forall (fun e => value (fst e) u = snd e) es.
Definition lsolve_contract (ls : nat -> list (list K * K) -> option (list K -> list K)) : Prop :=
  forall n es, (forall e, In e es -> length (fst e) = n) ->
  match ls n es with
  | Some s => forall y, length y = n -> length (s y) = n /\ solves_all (s y) es
  | None => ~ exists u, length u = n /\ solves_all u es
  end.
(** x(n) = f(n) (x(n0) + ... + x(n-1)) + g(n) for n > n0. *)
Definition weighted (f g : Z -> K) (n0 : Z) (x : Z -> K) : Prop :=
  forall n, (n0 < n)%Z -> x n = f n * zsum n0 (n - 1) x + g n.
End Spec.
(** x(n) = c(n) x(n-1)^a_0(n) ... x(n-k)^a_{k-1}(n) for n >= start, all terms being positive. *)
Definition obeys_power (k : nat) (a : Z -> nat -> R) (c x : Z -> R) (start : Z) : Prop :=
  forall n, (start <= n)%Z -> x n = (c n * fold_right Rmult 1 (map (fun j => Rpower (x (n - 1 - Z.of_nat j)%Z) (a n j)) (seq 0 k)))%R.
