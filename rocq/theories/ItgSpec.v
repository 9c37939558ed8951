(** Circular functions of intervals: a unit that rounds them correctly. *)
From Coq Require Import ZArith QArith Qcanon Reals Bool.
From Verif Require Import Bool3Model Ast IvlModel IvlSpec.
Local Open Scope R_scope.

Definition circular (f : func) : Prop := f = Sin \/ f = Cos \/ f = Tan.
(** The greatest machine number that is not above t, the least one that is not below it; the remark is made if and only if
    this is not t. *)
Definition greatest_below (rep : Qc -> Prop) (r : val * bool) (t : R) : Prop :=
  exists s p, fst r = Fin s p /\ rep p /\ rv p <= t /\ (forall m, rep m -> rv m <= t -> rv m <= rv p) /\ (snd r = false <-> rv p = t).
Definition least_above (rep : Qc -> Prop) (r : val * bool) (t : R) : Prop :=
  exists s p, fst r = Fin s p /\ rep p /\ t <= rv p /\ (forall m, rep m -> t <= rv m -> rv p <= rv m) /\ (snd r = false <-> rv p = t).
Record correctly_rounded (A : arith) (rep : Qc -> Prop) : Prop := {
  circular_down : forall f s q, circular f -> greatest_below rep (fn A f false (Fin s q)) (exact f (rv q));
  circular_up : forall f s q, circular f -> least_above rep (fn A f true (Fin s q)) (exact f (rv q)) }.

(** r is between the boundaries or is one of them. *)
Definition touches (x : ivl) (r : R) : Prop := hull (mkI (mkB (bv (lo x)) ZERO) (mkB (bv (up x)) ZERO) (fl x)) r.
(** [found] is true if one of the numbers o + k * p is in x. *)
Definition finds (x : ivl) (o p : R) (found : bool) : Prop := forall k, hull x (o + IZR k * p) -> found = true.
(** If x contains just one of its two boundaries and f has the same value there, this value is not a machine number. *)
Definition no_tie (rep : Qc -> Prop) (f : func) (x : ivl) : Prop := forall s p s' q m,
  bv (lo x) = Fin s p -> bv (up x) = Fin s' q -> is_closed (lo x) <> is_closed (up x) -> exact f (rv p) = rv m -> exact f (rv q) = rv m -> ~ rep m.
