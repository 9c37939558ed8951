(** Vocabulary for C56. *)
From Coq Require Import ZArith QArith Qcanon Reals List String Bool.
From Verif Require Import Ast ExprModel LogModel.
Import ListNotations.
Local Open Scope R_scope.
Local Open Scope list_scope.

(** The real logarithm, of positive numbers only, and the exponential. *)
Definition log_std (I : interp) : Prop := forall v w, ifun I FLog [v] = Some w <-> 0 < v /\ w = ln v.
Definition exp_std (I : interp) : Prop := forall v, ifun I FExp [v] = Some (exp v).
(** [numer a] / [denom a] is a. *)
Definition fractions (I : interp) (numer denom : expr -> expr) : Prop := forall rho a v, eval I rho a = Some v ->
  exists p q, eval I rho (numer a) = Some p /\ eval I rho (denom a) = Some q /\ q <> 0 /\ v = p / q.
Definition positive_at (I : interp) (rho : string -> R) (e : expr) : Prop := exists u, eval I rho e = Some u /\ 0 < u.

Section Fine.
Context (I : interp) (G : ginac) (numer denom simplify_powers : expr -> expr) (canon : list expr -> list expr).
(** log(arg): nested powers in arg are rewritten correctly; then b^x has a positive base b (or a
    number), and a product, if it is split, positive factors. *)
Definition log_fine (rho : string -> R) (all : bool) (arg : expr) : Prop :=
  (forall b x v, arg = Pow b x -> eval I rho arg = Some v -> eval I rho (simplify_powers arg) = Some v) /\
  let arg' := match arg with Pow _ _ => simplify_powers arg | _ => arg end in
  (forall b x, arg' = Pow b x -> (exists q, b = Num q) \/ positive_at I rho b) /\
  (forall l, all = true -> arg' = Mul l -> Forall (positive_at I rho) l).
(** The logarithms in an exponent. *)
Definition exponent_fine (rho : string -> R) (x : expr) : Prop :=
  (forall a, x = Fun FLog [a] -> log_fine rho false a) /\
  (forall l a, x = Mul l -> (In (Fun FLog [a]) l \/ exists y, In (Pow (Fun FLog [a]) y) l) -> log_fine rho false a).
(** b^x: where b^(c log a) is to become a^(c log b), b is positive and the exponent has one such
    factor log a only. *)
Definition exchanged (base f : expr) : Prop := exists a, f = Fun FLog [a] /\ (has "n" a = true \/ ((exists q, base = Num q) /\ forall q, a <> Num q)).
Definition power_fine (rho : string -> R) (b x : expr) : Prop :=
  exponent_fine rho x /\
  forall l, exponent_simpl G simplify_powers x = Some (Mul l) ->
    (forall l1 f l2, l = l1 ++ f :: l2 -> exchanged b f -> positive_at I rho b /\ forall g, In g (l1 ++ l2) -> ~ exchanged b g).
(** A single logarithm divided by several ones: the last of these must cancel with it. *)
Definition quotient_fine (l : list expr) : Prop := forall f g r, filter is_log l = [f] -> (2 <= List.length (filter is_inv l))%nat ->
  rev (canon (filter is_inv l)) = g :: r -> recip numer denom f g = true.
(** All the calls made for e at rho are fine. *)
Inductive logs_fine : (string -> R) -> expr -> Prop :=
| LF_leaf rho e : match e with Num _ | Cst _ | Sym _ => True | _ => False end -> logs_fine rho e
| LF_add rho l : Forall (logs_fine rho) l -> logs_fine rho (Add l)
| LF_mul rho l l' : quotient_fine l -> simpl_quotient_of_logs G numer denom canon l = Mul l' -> Forall (logs_fine rho) l' -> logs_fine rho (Mul l)
| LF_mul1 rho l t : quotient_fine l -> simpl_quotient_of_logs G numer denom canon l = t -> (forall l', t <> Mul l') -> logs_fine rho t -> logs_fine rho (Mul l)
| LF_pow rho b x : power_fine rho b x -> (forall fuel b1 x1, power_step G simplify_powers fuel b x = Some (inr (b1, x1)) -> logs_fine rho b1) ->
    (forall fuel b1 x1, power_step G simplify_powers fuel b x = Some (inr (b1, x1)) -> logs_fine rho x1) -> logs_fine rho (Pow b x)
| LF_log rho a : log_fine rho true a -> (forall l f, prepared simplify_powers a = Mul l -> In f l -> match f with Pow _ _ | Num _ => True | _ => False end -> logs_fine rho (glog G f)) -> logs_fine rho (Fun FLog [a])
| LF_fun rho f l : (forall a, Fun f l <> Fun FLog [a]) -> Forall (logs_fine rho) l -> logs_fine rho (Fun f l)
| LF_sum rho k lo up b : logs_fine rho lo -> logs_fine rho up -> (forall i : Z, logs_fine (upd rho k (IZR i)) b) -> logs_fine rho (SumE k lo up b)
| LF_prod rho k lo up b : logs_fine rho lo -> logs_fine rho up -> (forall i : Z, logs_fine (upd rho k (IZR i)) b) -> logs_fine rho (ProdE k lo up b).
End Fine.
