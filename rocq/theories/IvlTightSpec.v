(** Exactness of the arithmetic where sums of boundaries are formed. *)
From Coq Require Import Qcanon.
From Verif Require Import IvlModel.

(** The unit computes the number q without error. *)
Definition exact_at (A : arith) (dir : bool) (q : Qc) : Prop := exists s, rnd A dir q = (Fin s q, false).
(** The sum of two finite boundaries is computed without error. *)
Definition exact_sum (A : arith) (dir : bool) (v w : val) : Prop := forall s q t p, v = Fin s q -> w = Fin t p -> exact_at A dir (q + p)%Qc.

