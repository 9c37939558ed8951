(** Vocabulary for C31 and C32. *)
From Coq Require Import ZArith QArith Qcanon Reals List String Bool.
From Verif Require Import Fld Ast ExprModel ExprSpec SeqInterp ElimSpec.
Import ListNotations.
Local Open Scope R_scope.
Local Open Scope list_scope.

(** x(.) occurs in no sum or product. *)
Fixpoint x_outside (e : expr) : bool :=
  match e with
  | Add l | Mul l | Fun _ l => forallb x_outside l
  | Pow a b => x_outside a && x_outside b
  | SumE _ lo up e | ProdE _ lo up e => negb (has_x_function lo || has_x_function up || has_x_function e)
  | _ => true
  end.
(** The canonical constructors do not introduce x(.) and do not move it into sums and products. *)
Definition x_free (e : expr) : Prop := has_x_function e = false.
Record x_kept (G : ginac) : Prop := MkXK {
  xk_add : forall a b, x_free a -> x_free b -> x_free (gadd G a b);
  xk_mul : forall a b, x_free a -> x_free b -> x_free (gmul G a b);
  xk_pow : forall a b, x_free a -> x_free b -> x_free (gpow G a b);
  xk_fun : forall f l, f <> FX -> Forall x_free l -> x_free (gfun G f l);
  xk_sum : forall k lo up e, x_free lo -> x_free up -> x_free e -> x_free (gsum G k lo up e);
  xk_prod : forall k lo up e, x_free lo -> x_free up -> x_free e -> x_free (gprod G k lo up e);
  xo_add : forall a b, x_outside a = true -> x_outside b = true -> x_outside (gadd G a b) = true;
  xo_mul : forall a b, x_outside a = true -> x_outside b = true -> x_outside (gmul G a b) = true;
  xo_pow : forall a b, x_outside a = true -> x_outside b = true -> x_outside (gpow G a b) = true;
  xo_fun : forall f l, Forall (fun a => x_outside a = true) l -> x_outside (gfun G f l) = true }.
(** A simplification: it preserves values (whatever the sequence x) and introduces no x(.). *)
Definition sound_simplification (I : interp) (f : expr -> expr) : Prop :=
  (forall x e, refines (with_x I x) e (f e)) /\ (forall e, x_free e -> x_free (f e)).

(** The initial conditions x(F), ..., x(F+k-1) that determine the solution: the first k valid indices, or the last k
    indices up to the largest one for which a condition is given, whichever are the larger ones. *)
Definition conditions_from (valid k : nat) (ics : list (nat * expr)) (F : nat) : Prop :=
  (valid <= F)%nat /\ (forall i e, In (i, e) ics -> (i < F + k)%nat) /\ (F = valid \/ exists e, In ((F + k - 1)%nat, e) ics).

Section Spec.
Context (I : interp) (rho : string -> R).
(** Values c d^n at every natural number n. *)
Definition geometric (x : nat -> R) (d : R) (e : expr) : Prop := exists c, forall n, at_n I rho x n e = Some (c * d ^ n).
(** The factor is n^k. *)
Definition is_n_power (f : expr) (k : nat) : Prop := (f = Sym "n" /\ k = 1%nat) \/ f = Pow (Sym "n") (Num (zq (Z.of_nat k))).
Definition no_n_power (f : expr) : Prop := match f with Sym s => s <> "n"%string | Pow a _ => a <> Sym "n" | _ => True end.
(** c n^k d^n with d in [ds], in the form in which expand() leaves it. *)
Inductive exp_summand (x : nat -> R) (ds : list R) : expr -> Prop :=
| ES_geometric t d : In d ds -> geometric x d t -> no_n_power t -> (forall l, t = Mul l -> Forall no_n_power l) -> exp_summand x ds t
| ES_power t k : In 1 ds -> is_n_power t k -> exp_summand x ds t
| ES_product f k l1 l2 d : is_n_power f k -> Forall no_n_power (l1 ++ l2) -> In d ds -> geometric x d (Mul (l1 ++ l2)) ->
    exp_summand x ds (Mul (l1 ++ f :: l2)).
(** A sum of such terms. *)
Definition exp_polynomial (x : nat -> R) (ds : list R) (e : expr) : Prop :=
  match e with Add l => Forall (exp_summand x ds) l | t => exp_summand x ds t end.
(** The sum has the summand n. *)
Definition bare_n (e : expr) : Prop := match e with Add l => In (Sym "n") l | _ => False end.

(** The right-hand side is linear from [f] on: a_1(n) x(n-1) + ... + a_k(n) x(n-k) + g(n), and
    [inhom] is g. *)
Fixpoint wsum (k : nat) (f : nat -> R) : R := match k with O => 0 | S k => wsum k f + f (S k) end.
Definition linear_rhs (f order : nat) (rhs inhom : expr) : Prop :=
  exists (a : nat -> nat -> R) (g : nat -> R), forall x n, (f <= n)%nat ->
    at_n I rho x n rhs = Some (wsum order (fun d => a d n * x (n - d)%nat) + g n) /\ at_n I rho x n inhom = Some (g n).
(** [t] is the product of x(k) and of the expressions [cs], free of x. *)
Definition ic_term (t : expr) (k : nat) (cs : list expr) : Prop :=
  Forall x_free cs /\
  ((t = Fun FX [Num (zq (Z.of_nat k))] /\ cs = []) \/
   (exists f1 f2, t = Mul (f1 ++ Fun FX [Num (zq (Z.of_nat k))] :: f2) /\ cs = f1 ++ f2)).
(** A sum of multiples of x(f), ..., x(f+order-1), or one multiple of x(f). *)
Definition ic_sum (f order : nat) (e : expr) : Prop :=
  match e with
  | Add l => Forall (fun t => exists k cs, (f <= k < f + order)%nat /\ ic_term t k cs) l
  | t => exists cs, ic_term t f cs
  end.
(** The summands of a solution with symbolic initial conditions: multiples of x(k), or free of x. *)
Definition ic_summands (e : expr) : Prop :=
  match e with
  | Add l => Forall (fun t => x_free t \/ exists k cs, ic_term t k cs) l
  | t => exists k cs, ic_term t k cs
  end.
(** The sums and products formed bind the symbol n nowhere. *)
Definition n_not_bound (G : ginac) : Prop := forall a b, not_bound "n" a -> not_bound "n" b -> not_bound "n" (gadd G a b) /\ not_bound "n" (gmul G a b).
(** The difference [diff] is a sum of terms c n^k d^n where d ranges over at most [num] bases; a
    summand n requires the base 1 twice. *)
Definition few_exponentials (x : nat -> R) (num : nat) (diff : expr) : Prop :=
  not_bound "n" diff /\ exists ds, (List.length ds <= num)%nat /\ exp_polynomial x ds diff /\ (bare_n diff -> (2 <= count_occ Req_EM_T ds 1%R)%nat).
(** [y] is the sequence of the values of [e] from [f] on. *)
Definition has_values (f : nat) (e : expr) (y : nat -> R) : Prop := forall n, (f <= n)%nat -> at_n I rho y n e = Some (y n).
(** The values of an expression free of x. *)
Definition seq_of (e : expr) (n : nat) : R := match at_n I rho (fun _ => 0) n e with Some v => v | None => 0 end.
End Spec.
(** A sum of exponentials c d^n over a field. *)
Definition exp_sum_at {K : Fld} (l : list (K * K)) (n : nat) : K := fold_right (fun cd s => (fst cd * snd cd ^ n + s)%F) f0 l.
