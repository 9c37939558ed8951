(** Specification of the decompositions. *)
From Coq Require Import ZArith QArith Qcanon Reals List String Bool.
From Verif Require Import Ast ExprSpec.
Import ListNotations.
Local Open Scope R_scope.
Local Open Scope list_scope.

(** Where [e] has a value, the value of [p] is a polynomial in [x]. *)
Definition polynomial_where_defined (I : interp) (x : string) (e p : expr) : Prop :=
  forall rho, exists c, forall t v, eval I (upd rho x t) e = Some v -> eval I (upd rho x t) p = Some (rpoly c t).
(** sum of alpha_i^x (p_i + q_i) *)
Definition exp_sum (x : string) (l : list (expr * expr * expr)) : expr :=
  Add (map (fun t => let '(a, p, q) := t in Mul [Pow a (Sym x); Add [p; q]]) l).
(** sum of h_j (a_j x)! *)
Definition fact_sum (x : string) (l : list (Qc * expr)) : expr :=
  Add (map (fun t => Mul [snd t; Fun FFact [Mul [Num (fst t); Sym x]]]) l).
(** The factorial function on natural numbers. *)
Definition factorial_interp (I : interp) : Prop := forall n : nat, ifun I FFact [INR n] = Some (INR (fact n)).
Definition no_factorial (e : expr) : Prop := match e with Fun FFact _ => False | _ => True end.
(** Summands free of factorials, or with one factorial factor: x! or, for the key q, (q x)!. *)
Definition fact_arg (x : string) (k : option Qc) (a : expr) : Prop :=
  match k with None => a = Sym x | Some q => q <> 0%Qc /\ q <> 1%Qc /\ (a = Mul [Num q; Sym x] \/ a = Mul [Sym x; Num q]) end.
Inductive fact_summand (x : string) : option Qc -> expr -> Prop :=
| FS_plain e : (forall l, e <> Mul l) -> no_factorial e -> fact_summand x None e
| FS_product l : Forall no_factorial l -> fact_summand x None (Mul l)
| FS_fact k a : fact_arg x k a -> fact_summand x k (Fun FFact [a])
| FS_mul k a l1 l2 : fact_arg x k a -> Forall no_factorial l1 -> Forall no_factorial l2 -> fact_summand x k (Mul (l1 ++ Fun FFact [a] :: l2)).
Definition keys_of (ks : list (option Qc)) : list Qc := flat_map (fun k => match k with Some q => [q] | None => [] end) ks.
