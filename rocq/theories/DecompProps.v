(** C47, C48, C49: decompositions (src/util.cc:247-270, src/ep_decomp.cc, src/fact_decomp.cc). *)
From Coq Require Import ZArith QArith Qcanon Reals List String Bool.
From Verif Require Import Ast ExprModel ExprSpec DecompModel DecompSpec DecompProofs DecompProofs2 DecompCases.
Import ListNotations.
Local Open Scope R_scope.
Local Open Scope string_scope.
Local Open Scope list_scope.

(** * C47 *)
(** p + q has the value of e, p is a polynomial in x wherever e is defined, and q is 0 when e
    is recognised as a polynomial. *)
Theorem C47_polynomial_part : forall (I : interp) (G : ginac), ginac_ok I G -> forall (e : expr) (x : string) (p q : expr),
  isolate_polynomial_part G e x = (p, q) ->
  (forall rho v, eval I rho e = Some v -> eval I rho (Add [p; q]) = Some v) /\
  polynomial_where_defined I x e p /\
  (is_polynomial x e = true -> q = Num 0).
Proof. exact isolate_ok. Qed.
Print Assumptions C47_polynomial_part.
Example C47_case : isolate_polynomial_part G0 (Add [Pow (Sym "n") (Num (zq 2)); Fun FLog [Sym "n"]; Sym "a"]) "n" =
  (Add [Sym "a"; Pow (Sym "n") (Num (zq 2))], Fun FLog [Sym "n"]).
Proof. reflexivity. Qed.

(** * C48 *)
Theorem C48_exp_poly : forall (I : interp) (G : ginac), ginac_ok I G -> forall (simplify : expr -> expr) (e : expr) (x : string),
  (forall e, refines I e (simplify e)) ->
  let l := exp_poly_decomposition G simplify e x in
  (forall rho v, eval I rho e = Some v -> eval I rho (exp_sum x l) = Some v) /\
  NoDup (map (fun t => fst (fst t)) l) /\
  Forall (fun t => has x (fst (fst t)) = false /\ polynomial_where_defined I x e (snd (fst t))) l.
Proof. exact exp_poly_ok. Qed.
Print Assumptions C48_exp_poly.
Example C48_case : exp_poly_decomposition G0 idE ep_e "n" = [(Num (zq 2), Add [Num 1; Sym "n"], Num 0); (Num 1, Num 0, Fun FLog [Sym "n"])].
Proof. exact ep_case. Qed.

(** * C49 *)
(** Sums whose summands have at most one factorial, x! or (q x)! with each q <> 0, 1 at most once. *)
Theorem C49_factorials_partial : forall (I : interp) (G : ginac) (x : string), ginac_ok I G -> factorial_interp I ->
  (forall a b, gmul G (Num a) (Num b) = Num (a * b)) ->
  forall (simplify : expr -> expr) (e : expr) (s : list expr) (ks : list (option Qc)) (rho : string -> R) (v : R),
  refines I e (simplify e) -> simplify e = Add s -> Forall2 (fact_summand x) ks s -> NoDup (keys_of ks) ->
  eval I rho e = Some v -> exists l, factorial_decomposition G simplify e x = Some l /\ eval I rho (fact_sum x l) = Some v.
Proof. intros I G x HG HF HN. exact (factorial_decomposition_ok I G HG HF HN x). Qed.
Print Assumptions C49_factorials_partial.
Example C49_case : exists v l, eval I0 (fun _ => 1) fc_e = Some v /\ factorial_decomposition G0 idE fc_e "n" = Some l /\ eval I0 (fun _ => 1) (fact_sum "n" l) = Some v.
Proof.
  destruct fact_case_val as [v Hv].
  destruct (C49_factorials_partial I0 G0 "n" (G0_ok I0) I0_factorial G0_num idE fc_e _ _ _ v (fun _ _ H => H) eq_refl fact_case_shape fact_case_keys Hv) as (l & A & B).
  exists v, l. auto.
Qed.
(** The factorial of another symbol is replaced by 1. *)
Theorem C49_symbol_refuted : exists (e : expr) (l : list (Qc * expr)) (rho : string -> R), ginac_ok I0 G0 /\ factorial_interp I0 /\
  factorial_decomposition G0 idE e "n" = Some l /\ eval I0 rho e = Some 6 /\ eval I0 rho (fact_sum "n" l) = Some 1.
Proof. exists fw_e, fw_l, (fun _ => 3). exact (conj (G0_ok I0) (conj I0_factorial fact_symbol_wrong)). Qed.
Print Assumptions C49_symbol_refuted.
(** Of two summands with the same factorial (q x)! one is dropped. *)
Theorem C49_repeated_refuted : exists (e : expr) (l : list (Qc * expr)) (rho : string -> R), ginac_ok I0 G0 /\ factorial_interp I0 /\
  factorial_decomposition G0 idE e "n" = Some l /\ eval I0 rho e = Some 8 /\ eval I0 rho (fact_sum "n" l) = Some 6.
Proof. exists fr_e, fr_l, (fun _ => 1). exact (conj (G0_ok I0) (conj I0_factorial fact_repeated_wrong)). Qed.
Print Assumptions C49_repeated_refuted.
