(** C92: numerator(), denominator() and transform_in_single_fraction(). *)
From Coq Require Import ZArith QArith Qcanon Reals List String Bool.
From Verif Require Import Ast ExprModel ExprSpec FactModel FactSpec FactCases NumDenModel NumDenSpec NumDenCases FracModel FracProofs.
Import ListNotations.
Local Open Scope R_scope.

(** numerator(e) / denominator(e) is e, wherever e has a value, under the conditions of C50 and C51. *)
Theorem C92_quotient_partial : forall (I : interp) (G : ginac), ginac_ok I G -> forall (prep : expr -> expr) (fuel : nat) (e num den : expr) (rho : string -> R) (v : R),
  resplits_units split_bases_exponents G -> (forall u, refines I u (prep u)) ->
  nice_sums split_bases_exponents G (numerator_denominator G) (distribute_mul_over_add G e) ->
  (forall n d, numerator_denominator G (distribute_mul_over_add G e) = Some (n, d) -> factorizable split_bases_exponents G prep n) ->
  numerator G prep fuel e = Some num -> denominator G e = Some den -> eval I rho e = Some v ->
  exists x y, eval I rho num = Some x /\ eval I rho den = Some y /\ y <> 0 /\ x = v * y.
Proof. exact quotient_ok. Qed.
Print Assumptions C92_quotient_partial.
Example C92_case : ginac_ok I0 G1 /\ resplits_units split_bases_exponents G1 /\ (forall u, refines I0 u (idE u)) /\ distribute_mul_over_add G1 fr_e0 = fr_e /\
  nice_sums split_bases_exponents G1 (numerator_denominator G1) fr_e /\ factorizable split_bases_exponents G1 idE fr_n /\ numerator_denominator G1 fr_e = Some (fr_n, nd_d) /\
  (exists n, numerator G1 idE 3 fr_e0 = Some n) /\ denominator G1 fr_e0 = Some nd_d.
Proof.
  split; [exact (G1_ok I0)|]. split; [exact G1_units|]. split; [intros u rho v H; exact H|]. split; [exact fr_dist|]. split; [exact fr_nice|]. split; [exact fr_factorizable|].
  split; [exact fr_result|]. split; [exact fr_numerator|exact fr_denominator].
Qed.
(** One fraction with the value of e, when GiNaC's numer_denom is right. *)
Theorem C92_single_fraction_partial : forall (I : interp) (G : ginac), ginac_ok I G -> forall (num_den : expr -> expr * expr) (prep : expr -> expr) (fuel : nat) (e res : expr) (rho : string -> R) (v : R),
  (forall u, refines I u (prep u)) ->
  (forall n d, num_den (distribute_mul_over_add G e) = (n, d) -> factorizable split_bases_exponents G prep n /\
     exists x y, eval I rho n = Some x /\ eval I rho d = Some y /\ y <> 0 /\ v = x / y) ->
  transform_in_single_fraction G num_den prep fuel e = Some res -> eval I rho res = Some v.
Proof. exact single_ok. Qed.
Print Assumptions C92_single_fraction_partial.
