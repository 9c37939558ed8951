(** C24: order reduction (src/finite_order.cc:605-861, src/Recurrence.cc:419-473). *)
From Coq Require Import ZArith QArith Qcanon List Lia.
From Verif Require Import Fld FPoly SeqSpec OrderRedSpec OrderRedModel OrderRedProofs OrderRedCases CplxF.
Import ListNotations.
Local Open Scope fld_scope.

(** If every reduced recurrence (one for each residue r) is solved by [sol r], mapping back
    gives a solution of the original one; with first index 0 it takes the k values
    x(0), ..., x(k-1).  In general the solution is the one starting from d*f. *)
Theorem C24_order_reduction :
  forall (K : Fld) (d q : nat) (c0 : K) (a : list K) (p : Z -> K) (f : Z) (x : Z -> K)
         (sol : Z -> (Z -> K) -> Z -> K),
  (1 < d)%nat -> length a = (q * d)%nat -> decrements_multiple_of d a ->
  (forall r y, (0 <= r < Z.of_nat d)%Z ->
     solves (tl (reduced_coefficients d (c0 :: a))) (reduced_inhomogeneous d p r) f y (sol r y)) ->
  solves a p (Z.of_nat d * f) x (come_back d sol x).
Proof. exact (fun K => @order_reduction_correct K). Qed.
Print Assumptions C24_order_reduction.

(** When the first valid index f of the recurrence is not 0 the reduced recurrence is given
    the same f (Recurrence.cc:438), so the answer does not start at f: it uses values that
    are not initial conditions. *)
Theorem C24_first_valid_index_refuted : forall K : Fld, exists (a : list K) (p : Z -> K) (c0 : K) (f : Z) (x : Z -> K) sol,
  decrements_multiple_of 2 a /\ length a = 2%nat /\ (0 < f)%Z /\
  (forall r y, (0 <= r < 2)%Z ->
    solves (tl (reduced_coefficients 2 (c0 :: a))) (reduced_inhomogeneous 2 p r) f y (sol r y)) /\
  ~ solves a p f x (come_back 2 sol x).
Proof. exact (fun K => @first_index_refuted K). Qed.
Print Assumptions C24_first_valid_index_refuted.

(** The expression that replaces mod(n,d) in the expanded solution. *)
Theorem C24_expanded_mod : forall (K : Fld) (w : nat -> K) (d : nat), (0 < d)%nat -> roots_of_unity w d ->
  forall n, to_sub_in_solution w d n = ofz (n mod Z.of_nat d).
Proof. exact (fun K => @to_sub_correct K). Qed.
Print Assumptions C24_expanded_mod.

(** The expression that replaces x(mod(n,d) + h d). *)
Theorem C24_expanded_initial_condition : forall (K : Fld) (w : nat -> K) (d : nat), (0 < d)%nat -> roots_of_unity w d ->
  forall (h : nat) (x : Z -> K) (n : Z),
  initial_condition w d d 0 h x n 0 = x (n mod Z.of_nat d + Z.of_nat h * Z.of_nat d)%Z.
Proof. exact (fun K => @initial_condition_correct K). Qed.
Print Assumptions C24_expanded_initial_condition.

(** The complex numbers used by the code, cos(2 pi j/d) + i sin(2 pi j/d), are the roots of unity. *)
Theorem C24_roots_of_unity : forall d, (0 < d)%nat -> roots_of_unity (unity d) d.
Proof. exact unity_ok. Qed.
Print Assumptions C24_roots_of_unity.

Example C24_case : (* x(n) = x(n-2): x(0), x(1), x(0), x(1), ... *)
  decrements_multiple_of (K:=QcF) 2 [0; 1] /\
  (forall r y, (0 <= r < Z.of_nat 2)%Z -> solves (tl (reduced_coefficients 2 [0; 0; 1 : QcF]))
     (reduced_inhomogeneous 2 (fun _ => 0) r) 0 y (fun _ => y 0%Z)) /\
  come_back (K:=QcF) 2 (fun _ y _ => y 0%Z) (fun n => ofz n) 7 = ofz 1.
Proof. exact (conj decrements_2 (conj (fun r y _ => reduced_shift _ 0 r y) eq_refl)). Qed.
Example C24_unity_case : roots_of_unity (K:=QcF) (fun j => (Q2Qc (-1) : QcF) ^ j) 2 /\
  to_sub_in_solution (K:=QcF) (fun j => (Q2Qc (-1) : QcF) ^ j) 2 7 = ofz 1.
Proof.
  split; [split; [|split]|].
  - intros j. exact (f_equal (fun z : QcF => z ^ j) (Qc_is_canon (Q2Qc (-1)) _ eq_refl)).
  - apply Qc_is_canon. reflexivity.
  - intros j Hj. replace j with 1%nat by lia. discriminate.
  - apply Qc_is_canon. vm_compute. reflexivity.
Qed.
