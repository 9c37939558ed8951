(** C05: closed form of sum_{k=0}^{N} p(k) alpha^k (src/sum_poly.cc).
    [bsum (S N) f] is f 0 + ... + f N, [peval p x] the value of the polynomial. *)
From Coq Require Import ZArith QArith Qcanon List.
From Verif Require Import Fld FPoly SumPolyModel SumPolyProofs.
Import ListNotations.
Local Open Scope fld_scope.

Theorem C05_sum_poly_times_exponentials :
  forall (K : Fld) (p : list K) (alpha : K) (N : nat), alpha <> 0 ->
  sum_poly_times_exponentials p N alpha = bsum (S N) (fun k => peval p (ofn k) * alpha ^ k).
Proof. exact (fun K p alpha N => sum_poly_times_exponentials_correct p N alpha). Qed.
Print Assumptions C05_sum_poly_times_exponentials.

Theorem C05_sum_poly : forall (K : Fld) (p : list K) (N : nat),
  sum_poly p N = bsum (S N) (fun k => peval p (ofn k)).
Proof. exact (fun K => @sum_poly_correct K). Qed.
Print Assumptions C05_sum_poly.

(** The alternative algorithm (iterated integration) computes the same sum. *)
Theorem C05_sum_poly_alt : forall (K : Fld) (p : list K) (N : nat),
  sum_poly_alt p N = bsum (S N) (fun k => peval p (ofn k)).
Proof. exact (fun K => @sum_poly_alt_correct K). Qed.
Print Assumptions C05_sum_poly_alt.

(** The Newton decomposition p(x) = sum_i b_i x(x-1)...(x-i+1), with degree+1 coefficients. *)
Theorem C05_poly_dec : forall (K : Fld) (p : list K) (t : K),
  length (poly_dec p) = S (pdegree p) /\
  peval p t = bsum (S (pdegree p)) (fun i => nth i (poly_dec p) 0 * bprod i (fun j => t - ofn j)).
Proof. exact (fun K => @poly_dec_spec K). Qed.
Print Assumptions C05_poly_dec.

(** Closed form for one falling power. *)
Theorem C05_sum_falling_times_exp : forall (K : Fld) (x : K) (k N : nat), x <> 0 -> x <> 1 ->
  sum_falling_prod_times_exp k x N =
  bsum (S N) (fun j => bprod k (fun i => ofn j - ofn i) * x ^ j).
Proof. exact (fun K => @sum_falling_prod_times_exp_spec K). Qed.
Print Assumptions C05_sum_falling_times_exp.

(** sum_{k=0}^{3} (1 + 2 k^2) 3^k  =  1 + 9 + 81 + 513 = 604. *)
Example C05_case :
  sum_poly_times_exponentials (K := QcF) [Q2Qc 1; Q2Qc 0; Q2Qc 2] 3 (Q2Qc 3) = Q2Qc 604
  /\ (Q2Qc 3 : QcF) <> 0.
Proof. split; [apply Qc_is_canon; vm_compute; reflexivity|discriminate]. Qed.
Example C05_case_alt :
  sum_poly_alt (K := QcF) [Q2Qc 1; Q2Qc 0; Q2Qc 2] 3 = Q2Qc 32 /\
  sum_poly (K := QcF) [Q2Qc 1; Q2Qc 0; Q2Qc 2] 3 = Q2Qc 32.
Proof. split; apply Qc_is_canon; vm_compute; reflexivity. Qed.
