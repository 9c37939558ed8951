(** C102: replacing the arguments of x in a right-hand side (src/Recurrence.cc,
    src/rr_classifier.cc).  [with_x I x]: x is interpreted as the sequence x;
    [inside], [outside_x]: occurrences (SrchSpec.v). *)
From Coq Require Import ZArith QArith Qcanon List String Reals Lra Lia.
From Verif Require Import Ast ExprModel ExprSpec ExprProofs1 ExprProofs2 ExprProofs3 ExprCases SrchSpec XargModel XargProofs XargProofs2.
Import ListNotations.
Local Open Scope string_scope.
Local Open Scope list_scope.
Local Open Scope R_scope.

(** The rewritten expression has the value of the original for the sequence n -> x(n + num);
    no x within the argument of an x. *)
Theorem C102_shift_partial : forall I G x, ginac_ok (with_x I x) G -> forall e num,
  (forall l, inside (Fun FX l) e -> exists a, l = [a] /\ forall l', ~ inside (Fun FX l') a) ->
  forall rho v,
  eval (with_x I (fun l => match l with [t] => x [t + IZR num] | _ => None end)) rho e = Some v ->
  eval (with_x I x) rho (increase_argument_x_function G e num) = Some v.
Proof. exact increase_ok. Qed.
Print Assumptions C102_shift_partial.
(** x(x(n)) becomes x(x(n) + num). *)
Theorem C102_shift_refuted : ~ (forall e num rho v, eval (with_x I0 (later twice num)) rho e = Some v ->
  eval (with_x I0 twice) rho (increase_argument_x_function G0 e num) = Some v).
Proof. exact nested_refuted. Qed.
Print Assumptions C102_shift_refuted.

(** An expression whose only occurrences of the symbol s are in arguments of x has, after the
    change of variable, the value it had with s equal to the value of r. *)
Theorem C102_change_of_variable : forall I G, ginac_ok I G -> forall s r e, no_capture s r e -> ~ outside_x (Sym s) e ->
  (forall l, inside (Fun FX l) e -> exists a, l = [a]) -> forall rho v w,
  eval I rho r = Some w -> eval I (upd rho s w) e = Some v -> eval I rho (change_variable_function_x G e s r) = Some v.
Proof. exact change_ok. Qed.
Print Assumptions C102_change_of_variable.
(** The other occurrences are not replaced. *)
Theorem C102_outside_is_kept : forall I G, ginac_ok I G -> forall s r e, (forall l, ~ inside (Fun FX l) e) -> forall rho v,
  eval I rho e = Some v -> eval I rho (change_variable_function_x G e s r) = Some v.
Proof. exact no_x_change. Qed.
Print Assumptions C102_outside_is_kept.
Theorem C102_change_everywhere_refuted : ~ (forall e s r rho v w, no_capture s r e -> (forall l, inside (Fun FX l) e -> exists a, l = [a]) ->
  eval (with_x I0 twice) rho r = Some w -> eval (with_x I0 twice) (upd rho s w) e = Some v ->
  eval (with_x I0 twice) rho (change_variable_function_x G0 e s r) = Some v).
Proof. exact outside_refuted. Qed.
Print Assumptions C102_change_everywhere_refuted.

(** 2 x(n/2) + sum(k, 1, 3, x(n + k)), n -> 2 m; and 2 x(n-1) + n, shifted by 3. *)
Definition c102 : expr := Add [Mul [Num (zq 2); Fun FX [Mul [Num (Q2Qc (1 # 2)); Sym "n"]]];
  SumE "k" (Num (zq 1)) (Num (zq 3)) (Fun FX [Add [Sym "n"; Sym "k"]])].
Definition c102s : expr := Add [Mul [Num (zq 2); Fun FX [Add [Sym "n"; Num (zq (-1))]]]; Sym "n"].
Definition c102r : expr := Mul [Num (zq 2); Sym "m"].
Example C102_cases :
  no_capture "n" c102r c102 /\ ~ outside_x (Sym "n") c102 /\ (forall l, inside (Fun FX l) c102 -> exists a, l = [a]) /\
  change_variable_function_x G0 c102 "n" c102r =
    Add [SumE "k" (Num (zq 1)) (Num (zq 3)) (Fun FX [Add [Sym "k"; Mul [Num (zq 2); Sym "m"]]]);
         Mul [Fun FX [Mul [Num (zq 2); Sym "m"; Num (Q2Qc (1 # 2))]]; Num (zq 2)]] /\
  (forall l, inside (Fun FX l) c102s -> exists a, l = [a] /\ forall l', ~ inside (Fun FX l') a) /\
  increase_argument_x_function G0 c102s 3 =
    Add [Sym "n"; Mul [Fun FX [Add [Sym "n"; Num (zq (-1)); Num (zq 3)]]; Num (zq 2)]].
Proof.
  split; [cbn; repeat split; discriminate|]. split; [apply occ_out_ok; reflexivity|].
  split; [intros l H; destruct (flat_x_ok c102 eq_refl l H) as (a & -> & _); now exists a|].
  split; [expr_case|]. split; [exact (flat_x_ok c102s eq_refl)|expr_case].
Qed.
