(** Vocabulary for C64. *)
From Coq Require Import ZArith QArith Qcanon Reals List String.
From Verif Require Import Ast ExprModel FactRwSpec.
Import ListNotations.
Local Open Scope R_scope.

(** log and the factorial are what they should be. *)
Definition standard (I : interp) : Prop :=
  (forall v, 0 < v -> ifun I FLog [v] = Some (ln v)) /\ (forall v, v <= 0 -> ifun I FLog [v] = None) /\ factorial_std I.
(** numerator and denominator of [e]. *)
Definition fraction_of (I : interp) (e n d : expr) : Prop :=
  forall rho u w, eval I rho n = Some u -> eval I rho d = Some w -> w <> 0 -> exists v, eval I rho e = Some v.

Section Spec.
Context (I : interp) (rho : string -> R) (x : string) (G : ginac) (numerator denominator expand : expr -> expr) (roots : string -> expr -> list Qc).
(** The value of [e] when x is the real number [t]. *)
Definition at_x (t : R) (e : expr) : option R := eval I (upd rho x t) e.
(** [e] has a value, which is not 0 if [nz], at all integers greater than [z]. *)
Definition defined_after (nz : bool) (z : Z) (e : expr) : Prop :=
  forall n, (z < n)%Z -> exists v, at_x (IZR n) e = Some v /\ (nz = true -> v <> 0).
(** The expressions for which the search is sound. [nz]: the value 0 is excluded. *)
Inductive tame (z : Z) : bool -> expr -> Prop :=
(** no x *)
| T_const nz e v : has x e = false -> eval I rho e = Some v -> (nz = true -> v <> 0) -> tame z nz e
(** polynomials; if they must not vanish, their integer roots are found *)
| T_poly nz e t : has x e = true -> is_polynomial x e = true -> at_x t e <> None ->
    (nz = true -> forall n, at_x (IZR n) e = Some 0 -> In (zq n) (roots x e)) -> tame z nz e
| T_add l : is_polynomial x (Add l) = false -> Forall (tame z false) l -> tame z false (Add l)
| T_mul nz l : is_polynomial x (Mul l) = false -> Forall (tame z nz) l -> tame z nz (Mul l)
(** log(p): all real numbers where p is 1 are found, and p is greater than 1 somewhere after z *)
| T_log nz p m v : is_polynomial x p = true -> has x p = true -> (forall t, at_x t p = Some 1 -> exists q, In q (roots x (gsub G p (Num 1))) /\ rv q = t) ->
    IZR z < m -> at_x m p = Some v -> 1 < v -> tame z nz (Fun FLog [p])
(** log(log(p)) *)
| T_loglog p : tame z true (Fun FLog [p]) -> is_polynomial x p = true -> has x p = true -> is_polynomial x (Fun FLog [p]) = false -> tame z false (Fun FLog [Fun FLog [p]])
(** factorials: the root of the argument is found *)
| T_fact nz a : has x a = true -> (forall t, at_x t a = Some 0 -> exists q, In q (roots x a) /\ rv q = t) -> tame z nz (Fun FFact [a])
(** q^b: the exponent has a value *)
| T_exp nz q b : 0 < rv q -> has x b = true -> defined_after false z b -> is_polynomial x (Pow (Num q) b) = false -> tame z nz (Pow (Num q) b)
(** a^b = e^(b log(a)) *)
| T_pow nz a b : (forall q, a = Num q -> rv q <= 0 \/ has x b = false) -> is_polynomial x (Pow a b) = false ->
    let e := gmul G b (gfun G FLog [a]) in let n := expand (numerator e) in let d := expand (denominator e) in
    fraction_of I (Mul [b; Fun FLog [a]]) n d -> tame z false n -> tame z true d -> tame z nz (Pow a b).
End Spec.
