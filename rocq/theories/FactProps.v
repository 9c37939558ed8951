(** C50, C51: common factors, numerators and denominators (src/util.cc:178-233, src/factorize.cc,
    src/numerator_denominator.cc). *)
From Coq Require Import ZArith QArith Qcanon Reals List String Bool.
From Verif Require Import Ast ExprModel ExprSpec FactModel FactSpec FactProofs FactProofs2 FactCases NumDenModel NumDenSpec NumDenProofs NumDenProofs2 NumDenCases.
Import ListNotations.
Local Open Scope R_scope.
Local Open Scope string_scope.
Local Open Scope list_scope.

(** * C50 *)
(** Splitting in bases and exponents preserves the product. *)
Theorem C50_split : forall (I : interp) (rho : string -> R) (e : expr) (ps : list (expr * expr)) (v : R),
  split_bases_exponents e = Some ps -> eval I rho e = Some v -> eval I rho (power_product ps) = Some v.
Proof. exact split_ok. Qed.
Print Assumptions C50_split.
Example C50_split_case : exists ps, split_bases_exponents (Mul [Num (zq (-12)); Sym "a"]) = Some ps /\ List.length ps = 4%nat.
Proof. eexists. split; [reflexivity|reflexivity]. Qed.
(** Common factor times remainder, when no term of the sums met has two powers of the same base. *)
Theorem C50_no_ratio_partial : forall (I : interp) (G : ginac), ginac_ok I G -> forall (prep : expr -> expr), (forall e, refines I e (prep e)) ->
  forall (fuel : nat) (e common rest : expr) (rho : string -> R) (v : R),
  factorizable split_bases_exponents G prep e -> factorize_no_ratio_ex G prep fuel e = Some (common, rest) -> eval I rho e = Some v ->
  exists c r, eval I rho common = Some c /\ eval I rho rest = Some r /\ c * r = v.
Proof. exact no_ratio_ok. Qed.
Print Assumptions C50_no_ratio_partial.
Example C50_no_ratio_case : factorizable split_bases_exponents G0 idE (Add fx_ts) /\ exists rest, factorize_no_ratio_ex G0 idE 1 (Add fx_ts) = Some (fx_common, rest).
Proof. exact (conj fx_factorizable fx_result). Qed.
Theorem C50_factorize_partial : forall (I : interp) (G : ginac), ginac_ok I G ->
  forall (prep : expr -> expr) (num_den : expr -> expr * expr) (fuel : nat) (e common rest n d : expr) (rho : string -> R) (v : R),
  (forall e, refines I e (prep e)) -> num_den e = (n, d) ->
  factorizable split_bases_exponents G prep n -> factorizable split_bases_exponents G prep d ->
  factorize G prep num_den fuel e = Some (common, rest) ->
  (exists x y, eval I rho n = Some x /\ eval I rho d = Some y /\ y <> 0 /\ v = x / y) ->
  exists c r, eval I rho common = Some c /\ eval I rho rest = Some r /\ c * r = v.
Proof. exact factorize_ok. Qed.
Print Assumptions C50_factorize_partial.
(** 2 2^n a + 2 2^n b: the product of the results is 2 a + 2 b. *)
Theorem C50_same_base_refuted : exists (e common rest : expr) (rho : string -> R), ginac_ok I0 G0 /\
  factorize_no_ratio_ex G0 idE 1 e = Some (common, rest) /\ eval I0 rho e = Some 8 /\ eval I0 rho (Mul [common; rest]) = Some 4.
Proof. exists fb_e, fb_common, fb_rest, (fun _ => 1). exact (conj (G0_ok I0) fact_wrong). Qed.
Print Assumptions C50_same_base_refuted.

(** * C51 *)
(** Numerator over denominator, the latter not zero, when the denominators of the terms of the
    sums met are products of distinct bases with positive integer exponents. *)
Theorem C51_quotient_partial : forall (I : interp) (G : ginac), ginac_ok I G -> resplits_units split_bases_exponents G ->
  forall e : expr, nice_sums split_bases_exponents G (numerator_denominator G) e ->
  forall (n d : expr) (rho : string -> R) (v : R), numerator_denominator G e = Some (n, d) -> eval I rho e = Some v ->
  exists x y, eval I rho n = Some x /\ eval I rho d = Some y /\ y <> 0 /\ x = v * y.
Proof. exact numerator_denominator_ok. Qed.
Print Assumptions C51_quotient_partial.
Example C51_case : resplits_units split_bases_exponents G1 /\ nice_sums split_bases_exponents G1 (numerator_denominator G1) nd_e /\ numerator_denominator G1 nd_e = Some (nd_n, nd_d).
Proof. exact (conj G1_units (conj nd_nice nd_result)). Qed.
(** x^(-1/2) + x^(-3/2) becomes 2 x^2 / x^2. *)
Theorem C51_root_refuted : exists (e n d : expr) (rho : string -> R), ginac_ok I0 G1 /\ numerator_denominator G1 e = Some (n, d) /\
  eval I0 rho e = Some (5 / 8) /\ eval I0 rho n = Some 32 /\ eval I0 rho d = Some 16.
Proof. exists nw_e, nw_n, nw_d, (fun _ => 4). exact (conj (G1_ok I0) (conj nw_result nw_value)). Qed.
Print Assumptions C51_root_refuted.
