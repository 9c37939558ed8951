(** The tactic [ring] for polynomials over the rational numbers. *)
From mathcomp Require Import all_ssreflect all_algebra.
Require Import Ring.
Import GRing.Theory.
Local Open Scope ring_scope.
Definition PQt : Type := {poly rat}.
Definition Tadd (x y : PQt) : PQt := (x : {poly rat}) + y.
Definition Tmul (x y : PQt) : PQt := (x : {poly rat}) * y.
Definition Topp (x : PQt) : PQt := - (x : {poly rat}).
Definition T0 : PQt := (0 : {poly rat}).
Definition T1 : PQt := (1 : {poly rat}).
Lemma rt : ring_theory T0 T1 Tadd Tmul (fun x y => Tadd x (Topp y)) Topp (@eq PQt).
Proof. split=> * //; rewrite /Tadd /Tmul /Topp ?/T0 ?/T1; [exact: add0r|exact: addrC|exact: addrA|exact: mul1r|exact: mulrC|exact: mulrA|exact: mulrDl|exact: subrr]. Qed.
Add Ring rr : rt.
Ltac pring := 
  repeat match goal with
  | |- context [@GRing.add ?V ?x ?y] => change (@GRing.add V x y) with (Tadd x y)
  | |- context [@GRing.opp ?V ?x] => change (@GRing.opp V x) with (Topp x)
  | |- context [@GRing.mul ?V ?x ?y] => change (@GRing.mul V x y) with (Tmul x y)
  | |- context [@GRing.one ?V] => change (@GRing.one V) with T1
  | |- context [@GRing.zero ?V] => change (@GRing.zero V) with T0
  end; match goal with |- @eq _ ?x ?y => change (@eq PQt x y) end; ring.
