(** What a call over an interval [begin, end) should do, in terms of the calls at one number. *)
From Coq Require Import ZArith QArith Qcanon List Bool Arith.
From Verif Require Import Ast RecModel.
Import ListNotations.
Local Open Scope list_scope.
Local Open Scope nat_scope.

(** The j-th number of the interval. *)
Definition number_at (b : Qc) (j : nat) : Qc := (b + zq (Z.of_nat j))%Qc.
(** [one_by_one G kind b s out s']: the calls at b, b + 1, ..., one for each value of [out], each on
    the object the previous one left, return the values of [out] and leave the object [s']. *)
Definition one_by_one (G : engine) (kind : nat) (b : Qc) (s : state G) (out : list (E G)) (s' : state G) : Prop :=
  exists st : nat -> state G, st 0 = s /\ st (length out) = s' /\
  forall j v, nth_error out j = Some v -> evaluate G kind (number_at b j) (st j) = (st (S j), Ok v).
(** The numbers of the interval are exactly the first [n]. *)
Definition covers (b e : Qc) (n : nat) : Prop := forall j, (number_at b j < e)%Qc <-> j < n.
