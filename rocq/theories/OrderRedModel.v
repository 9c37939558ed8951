(** Model of the order reduction: src/finite_order.cc:605-655, 657-743, 745-861 and
    src/Recurrence.cc:419-473.  Right-hand sides are given by their coefficients a_1..a_k and
    inhomogeneous part; expressions are the functions they denote (the symbol r takes the
    value n mod d). *)
From Coq Require Import ZArith List Bool.
From Verif Require Import Fld FPoly SeqSpec.
Import ListNotations.

Section M.
Context {K : Fld}.
Local Open Scope fld_scope.

(** finite_order.cc:650-654: new_coefficients[i/d] = coefficients[i] for i multiple of d
    (vectors whose entry 0 is unused), the vector has size [dim]. *)
Fixpoint set_new (d : nat) (c : list K) (i : nat) (new : list K) : list K :=
  match i with
  | O => new
  | S i' =>
    let new := if Nat.eqb (i' mod d) 0
               then firstn (i' / d) new ++ nth i' c 0 :: skipn (S (i' / d)) new else new in
    set_new d c i' new
  end.
(** Recurrence.cc:426-427: dim = size/d + 1. *)
Definition reduced_coefficients (d : nat) (c : list K) : list K :=
  set_new d c (length c) (repeat 0 (length c / d + 1)).
(** finite_order.cc:159-160 on the inhomogeneous part: n -> d n + r. *)
Definition reduced_inhomogeneous (d : nat) (p : Z -> K) (r : Z) (m : Z) : K := p (Z.of_nat d * m + r)%Z.
(** finite_order.cc:680-743 come_back_to_original_variable: the reduced solution [sol r y m]
    depends on the symbol r, the initial values y and the index m; the substitutions are
    r -> n mod d, n -> (n - n mod d)/d, x(k) -> x(d k + n mod d). *)
Definition come_back (d : nat) (sol : Z -> (Z -> K) -> Z -> K) (x : Z -> K) (n : Z) : K :=
  let m := (n mod Z.of_nat d)%Z in
  sol m (fun k => x (Z.of_nat d * k + m)%Z) ((n - m) / Z.of_nat d)%Z.

(** finite_order.cc:793-811: the expression that replaces mod(n, d); [w j] is
    cos(j theta) + i sin(j theta). *)
Fixpoint to_sub_loop (w : nat -> K) (cnt j : nat) (n : Z) (acc : K) : K :=
  match cnt with
  | O => acc
  | S c => to_sub_loop w c (S j) n
      (if w j =? 1 then acc else acc + w j * / (1 - w j) * zpow (w j) n)
  end.
Definition to_sub_in_solution (w : nat -> K) (d : nat) (n : Z) : K :=
  to_sub_loop w d 1 n 0 + 1 / ofn 2 * (ofn d - 1).
(** finite_order.cc:815-845: the expression that replaces x(mod(n, d) + h d). *)
Fixpoint ic_tmp (w : nat -> K) (cnt j : nat) (e : Z) (acc : K) : K :=
  match cnt with O => acc | S c => ic_tmp w c (S j) e (acc + zpow (w j) e) end.
Fixpoint initial_condition (w : nat -> K) (d cnt i h : nat) (x : Z -> K) (n : Z) (acc : K) : K :=
  match cnt with
  | O => acc
  | S c => initial_condition w d c (S i) h x n
      (acc + ic_tmp w d 1 (n - Z.of_nat (i + h * d)) 0 * x (Z.of_nat (i + h * d)) / ofn d)
  end.
End M.
