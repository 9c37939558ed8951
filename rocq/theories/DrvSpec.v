(** Vocabulary for C79 and C80. *)
From Coq Require Import ZArith QArith Qcanon Reals List String.
From Verif Require Import Ast ExprModel ExprSpec SeqInterp ElimModel ElimSpec ClassModel DrvModel.
Import ListNotations.
Local Open Scope list_scope.
Local Open Scope R_scope.

(** [e] is the quotient of [n] and [d]. *)
Definition quotient (I : interp) (e n d : expr) : Prop :=
  forall rho u w, eval I rho n = Some u -> eval I rho d = Some w -> w <> 0 -> eval I rho e = Some (u / w).

Section Spec.
Context (I : interp) (rho : string -> R) (G : ginac) (collect : expr -> expr) (x : nat -> R).
(** The steps that keep the equation at the index [n], for the sequence [x], and the index at which it is found afterwards. *)
Inductive sound_step (n : nat) : action -> nat -> Prop :=
| S_simplified e : at_n I rho x n e <> None -> sound_step n (Simplified e) n
(** the leading x(n+m) has a nonzero coefficient *)
| S_negative e m c w k : at_n I rho x n e <> None -> no_binders e -> find_max G e = (m, c) -> at_n I rho x n c = Some w -> w <> 0 -> (Z.of_nat n + m)%Z = Z.of_nat k ->
    sound_step n (Solved_negative e) k
(** the right-hand side is a x(n) + b with a <> 1 *)
| S_null e l cs rest A : at_n I rho x n e <> None -> collect e = Add l -> one_x_n l cs rest -> eprod (with_x I x) (upd rho "n" (INR n)) cs = Some A -> A <> 1 ->
    sound_step n (Solved_null e) n
(** the right-hand side is a x(n) with a <> 1 *)
| S_multiple e f1 f2 A : at_n I rho x n e <> None -> collect e = Mul (f1 ++ Fun FX [Sym "n"] :: f2) -> eprod (with_x I x) (upd rho "n" (INR n)) (f1 ++ f2) = Some A -> A <> 1 ->
    sound_step n (Solved_null e) n
(** the right-hand side is x(n) + b, and the leading x(n+m) in b has a coefficient with the same nonzero value at n and n + m *)
| S_shifted e l cs rest b m c w k : at_n I rho x n e <> None -> collect e = Add l -> one_x_n l cs rest -> no_binders (Add l) ->
    coeff_x_n G (Add l) = (Num 1%Qc, b) -> find_max G b = (m, c) -> at_n I rho x n c = Some w -> at_n I rho x k c = Some w -> w <> 0 ->
    (Z.of_nat n + m)%Z = Z.of_nat k -> sound_step n (Solved_null e) k.
Inductive sound_path : nat -> list action -> nat -> Prop :=
| P_nil n : sound_path n [] n
| P_cons n a k l j : sound_step n a k -> sound_path k l j -> sound_path n (a :: l) j.
End Spec.
(** Eliminations, as opposed to simplifications. *)
Definition elimination (a : action) : Prop := match a with Simplified _ => False | _ => True end.
