(** Vocabulary for the specifications of C02-C04. *)
From Coq Require Import ZArith List Znumtheory.
Local Open Scope Z_scope.

(** b1^e1 * b2^e2 * ... *)
Fixpoint prodpow (bs es : list Z) : Z :=
  match bs, es with
  | b :: bs, e :: es => b ^ e * prodpow bs es
  | _, _ => 1
  end.

(** No prime below 100 divides [b]. *)
Definition no_small_prime (b : Z) : Prop := forall p, prime p -> (p | b) -> 100 <= p.
