(** C81: from the right-hand side x(n) = a(n) x(n-1) + p(n) to its solution.
    [solution_with I rho rhs f 1 x0 y]: y(f) = x0(f) and y(n) = rhs holds from f+1 on (CSolSpec.v). *)
From Coq Require Import ZArith QArith Qcanon Reals List String Bool Lia Lra.
From Verif Require Import Fld FPoly SeqSpec SeqLemmas Ast ExprModel ExprSpec SeqInterp NonLinModel NonLinCases ElimModel ElimSpec ElimCases VerifySpec VerifyCases ClassModel ClassSpec ClassProofs3 ClassCases DecompModel DecompSpec
  ProdModel ProdSpec ProdProps DomModel DomProps DrvModel SolverModel SolverProofs1 CSolSpec CSolProofs CSolProofs2 CSolCases VSolModel VSolProofs VSolCases.
Import ListNotations.
Local Open Scope list_scope.
Local Open Scope R_scope.

(** The solution returned (product_factor * (sum + x(first_valid_index))) is the sequence with the given value at the first valid index [f], which exists; the values of the
    expressions built on the way exist as well.  [f] is such that the coefficient is defined and not zero afterwards (see C79).
    Missing: the products excluded by [treated] (ProdSpec.v, see C45), for which the solution may be wrong (see below). *)
Theorem C81_solution_partial : forall (I : interp) (rho : string -> R) (G : ginac), (forall l, ifun I FX l = None) -> (forall x, ginac_ok (with_x I x) G) -> factorial_interp I -> no_new_binders G ->
  forall (lm ms : Z) (rhs : expr) (s : cls), classify G lm ms rhs = inr s -> c_type s = Some VAR_COEFF -> c_order s = 1%nat ->
  hd (Num 0%Qc) (c_coeffs s) = Num 0%Qc -> Forall unary_x (terms rhs) ->
  let c := nth 1 (c_coeffs s) (Num 0%Qc) in x_free (c_inhom s) -> x_free c ->
  forall is_poly lc_negative content primpart num_den expand simplify factorize sum_pe h index post (f : nat),
  let J := with_x I (fun _ => 0) in let lo := (Z.of_nat f + 1)%Z in
  (forall N e, splits_product J (env rho N) G simplify expand index h lo e (primpart e) (content e)) ->
  (forall N e, splits_quotient J (env rho N) G simplify expand index h lo e (fst (num_den e)) (snd (num_den e))) ->
  (forall N e, splits_product J (env rho N) G simplify expand index h lo e (fst (factorize e)) (snd (factorize e))) ->
  (forall x e, refines (with_x I x) e (expand e)) -> (forall x e, refines (with_x I x) e (simplify e)) -> (forall x e, refines (with_x I x) e (post e)) -> sums_exponentials J sum_pe ->
  (forall n, (f < n)%nat -> exists u, value_of I rho n c = Some u /\ u <> 0) -> no_capture "n" (Sym index) c -> has index c = false ->
  (forall N, treated J (env rho N) G simplify expand index h lo (expand (let '(a, b) := num_den (substitute G (Sym "n") (Sym index) c) in gdiv G a b))) ->
  forall fuel pf, product_factor G is_poly lc_negative content primpart num_den expand simplify factorize sum_pe h index post fuel f (c_coeffs s) = Value pf ->
  defined_from I rho (f + 1) rhs ->
  let l := divided_term G expand simplify (c_inhom s) pf in
  (exists inh, decomposition_values (K:=RF) I rho (fun u => u) (f + 1) l inh) /\ (exists pfv, forall n, (f <= n)%nat -> value_of I rho n pf = Some (pfv (Z.of_nat n))) /\
  forall x0 : nat -> R, (exists y, solution_with I rho rhs f 1 x0 y) /\
  forall (inh : list (comp (K:=RF))) gos (pfv : Z -> R), decomposition_values (K:=RF) I rho (fun u => u) (f + 1) l inh -> Forall (fun e => cbase e <> f0) inh ->
  (forall n, (f <= n)%nat -> value_of I rho n pf = Some (pfv (Z.of_nat n))) -> summation_ok (K:=RF) f1 f gos ->
  forall y, solution_with I rho rhs f 1 x0 y -> forall n, (f <= n)%nat -> solve_variable_coeff_order_1 (K:=RF) gos pfv inh f (fun z => x0 (Z.to_nat z)) (Z.of_nat n) = y n.
Proof.
  intros I rho G HX HG HF HB lm ms rhs s Hs Ht Ho H0 U c Fi Fc ip lc ct pp nd ex si fa sp h index post f J lo Hc Hq Hf He Hi Hp Hsp Nz Cap Fr Tr fuel pf Epf Dr l.
  split; [|split; [|intros x0; split]].
  - exact (values_exist I rho G HX HG HF HB lm ms rhs s Hs Ht Ho H0 U Fi Fc ip lc ct pp nd ex si fa sp h index post f Hc Hq Hf He Hi Hp Hsp Nz Cap Fr Tr fuel pf Epf Dr).
  - exists (fun z => SeqSpec.zprod (K:=RF) (Z.of_nat f + 1) z (fun z => match value_of I rho (Z.to_nat z) c with Some u => u | None => 0 end)). exact (product_value I rho G HG HF HB s Ho ip lc ct pp nd ex si fa sp h index post f Hc Hq Hf He Hi Hp Hsp Nz Cap Fr Tr fuel pf Epf).
  - exact (exists1 I rho G HX HG lm ms rhs s Hs Ht Ho H0 U Fi Fc f Dr x0).
  - intros inh gos pfv. exact (solved I rho G HX HG HF HB lm ms rhs s Hs Ht Ho H0 U Fi Fc ip lc ct pp nd ex si fa sp h index post f Hc Hq Hf He Hi Hp Hsp Nz Cap Fr Tr fuel pf Epf Dr inh gos pfv x0).
Qed.
Print Assumptions C81_solution_partial.

(** x(n) = n x(n-1) + 1: every hypothesis holds; product_factor is n! (not simplified). *)
Example C81_case : forall x0 : nat -> R, exists s inh pfv, classify G0 lmax lmax fac_rhs = inr s /\ pf_of 0%nat (c_coeffs s) = Value fac_pf /\
  decomposition_values (K:=RF) I1 rho0 (fun u => u) 1 (divided_term G0 idE idE (c_inhom s) fac_pf) inh /\ (forall n, value_of I1 rho0 n fac_pf = Some (pfv (Z.of_nat n))) /\
  forall y, solution_with I1 rho0 fac_rhs 0 1 x0 y -> forall n, solve_variable_coeff_order_1 (K:=RF) no_sums pfv inh 0 (fun z => x0 (Z.to_nat z)) (Z.of_nat n) = y n.
Proof.
  intros x0. destruct fac_runs as (s & Hs & Ht & Ho & Hc & Hi).
  pose proof (C81_solution_partial I1 rho0 G0 I1_x (fun x => Ast.G0_ok _) I1_factorial G0_nb lmax lmax fac_rhs s Hs Ht Ho) as T. rewrite Hc, Hi in T. cbv zeta in T. cbn [hd nth] in T.
  specialize (T eq_refl fac_unary eq_refl eq_refl always never one_content idE whole idE idE whole' sum_symbolic "h"%string "k"%string idE 0%nat).
  specialize (T (fun N e => whole_product _ _ _ _ _ _ _ _ e) (fun N e => whole_quotient _ _ _ _ _ _ _ _ e) (fun N e => whole_product' _ _ _ _ _ _ _ _ e)).
  specialize (T (fun x e rho v H => H) (fun x e rho v H => H) (fun x e rho v H => H) (sum_symbolic_ok _)).
  assert (NZ : forall n, (0 < n)%nat -> exists u, value_of I1 rho0 n (Sym "n") = Some u /\ u <> 0) by (intros n Hn; exists (INR n); split; [reflexivity|apply not_0_INR; lia]).
  specialize (T NZ Logic.I eq_refl (fun N => fac_treated _ _) 5%nat fac_pf fac_product).
  assert (D : defined_from I1 rho0 (0 + 1) fac_rhs) by (intros x n Hn; eexists; apply fac_val; lia).
  destruct (T D) as ((inh & Dv) & (pfv & Pv) & Sol). destruct (Sol x0) as [_ R2]. exists s, inh, pfv. rewrite Hc, Hi. split; [exact Hs|]. split; [exact fac_product|]. split; [exact Dv|].
  split; [intros n; apply Pv; lia|]. intros y Hy n. refine (R2 inh no_sums pfv Dv _ (fun m Hm => Pv m Hm) (no_sums_ok _ _) y Hy n (Nat.le_0_l n)).
  destruct fac_decomposition as (q & Eq). rewrite Eq in Dv. exact (base_one _ _ _ _ Dv).
Qed.

(** x(n) = 2^n x(n-1) + 1/(n-1): the first valid index is 1, the product factor is computed as 2^(n(n+1)/2) although the product starts at 2 (C45): the solution returned does not have the
    value x(1) at 1, and it is wrong at 2. *)
Theorem C81_lower_limit_refuted : exists (rhs : expr) (s : cls), classify G0 lmax lmax rhs = inr s /\ c_type s = Some VAR_COEFF /\ c_order s = 1%nat /\
  first_valid_index G0 numer0 denom0 idE low_roots 5 s = Some 1%Z /\ defined_from I1 rho0 2 rhs /\
  exists pf, pf_of 1%nat (c_coeffs s) = Value pf /\
  forall (inh : list (comp (K:=RF))) (pfv : Z -> R), decomposition_values (K:=RF) I1 rho0 (fun u => u) 2 (divided_term G0 idE idE (c_inhom s) pf) inh ->
  (forall n, (1 <= n)%nat -> value_of I1 rho0 n pf = Some (pfv (Z.of_nat n))) ->
  forall x0 y : nat -> R, x0 1%nat <> 0 -> solution_with I1 rho0 rhs 1 1 x0 y ->
  let X n := solve_variable_coeff_order_1 (K:=RF) no_sums pfv inh 1 (fun z => x0 (Z.to_nat z)) (Z.of_nat n) in X 1%nat <> x0 1%nat /\ X 2%nat <> y 2%nat.
Proof.
  destruct low_runs as (s & Hs & Ht & Ho & Hc & Hi & Hf). exists low_rhs, s. split; [exact Hs|]. split; [exact Ht|]. split; [exact Ho|]. split; [exact Hf|].
  split; [intros x n Hn; eexists; apply low_val; exact Hn|]. exists low_pf. rewrite Hc, Hi. split; [exact low_product|].
  intros inh pfv Dv Pv x0 y Nx [Y1 Y2] X. destruct low_decomposition as (q & Eq).
  assert (Hb : Forall (fun e : comp (K:=RF) => cbase e <> f0) inh) by (rewrite Eq in Dv; exact (base_one _ _ _ _ Dv)). rewrite Forall_forall in Hb.
  assert (P : forall n, (1 <= n)%nat -> pfv (Z.of_nat n) = low_value (Z.of_nat n)) by (intros n Hn; pose proof (Pv n Hn) as A; rewrite low_pf_value in A; congruence).
  assert (Iv : inh_value inh 2 = (1 / 8)).
  { change 2%Z with (Z.of_nat 2). rewrite <- (inhom_value I1 rho0 G0 (fun x => Ast.G0_ok _) (fake (gdiv G0 low_inhom low_pf)) RF (fun u => u) emb_RF idE idE (fun x e rho v H => H) (fun x e rho v H => H) 2 inh 2 (1 / 8) Dv (le_n _)); [reflexivity|].
    cbn [fake c_inhom]. replace (1 / 8) with (/ (INR 2 - 1) / low_value (Z.of_nat 2)).
    - apply (ProdProofs2.div_val (with_x I1 (fun _ => 0)) G0 (Ast.G0_ok _)); [exact (low_inhom_value 2 (le_n _))|exact (low_pf_value 2)|]. unfold low_value. apply pow_nonzero. lra.
    - unfold low_value. change (Z.to_nat (Z.of_nat 2 * (Z.of_nat 2 + 1) / 2)) with 3%nat. cbn. field. }
  assert (C : forall n, (1 <= n)%nat -> solve_constant_coeff_order_1 (K:=RF) no_sums 1 inh 1 (Z.of_nat n) = SeqSpec.zsum (K:=RF) 2 (Z.of_nat n) (fun k => zpow (K:=RF) 1 (Z.of_nat n - k) * inh_value inh k)).
  { intros n Hn. apply (solve_constant_coeff_order_1_correct (K:=RF)); [change (@f0 RF) with 0; change (1 <> 0); lra|exact Hb|exact (no_sums_ok 1 1)|lia]. }
  unfold X, solve_variable_coeff_order_1. change (@f1 RF) with 1. change (@fmul RF) with Rmult. change (@fadd RF) with Rplus. split.
  - rewrite (C 1%nat), (P 1%nat) by lia. unfold low_value. change (Z.to_nat (Z.of_nat 1 * (Z.of_nat 1 + 1) / 2)) with 1%nat.
    replace (SeqSpec.zsum (K:=RF) 2 (Z.of_nat 1) (fun k => zpow (K:=RF) 1 (Z.of_nat 1 - k) * inh_value inh k)) with 0 by reflexivity. change (Z.to_nat (Z.of_nat 1)) with 1%nat. lra.
  - rewrite (C 2%nat), (P 2%nat) by lia. unfold low_value. change (Z.to_nat (Z.of_nat 2 * (Z.of_nat 2 + 1) / 2)) with 3%nat. change (Z.to_nat (Z.of_nat 1)) with 1%nat.
    replace (SeqSpec.zsum (K:=RF) 2 (Z.of_nat 2) (fun k => zpow (K:=RF) 1 (Z.of_nat 2 - k) * inh_value inh k)) with (1 / 8).
    + specialize (Y2 2%nat (le_n _)). unfold holds_at in Y2. pose proof (low_val y 2 (le_n _)) as A. unfold at_n in A. rewrite A in Y2. cbn [Nat.sub] in Y2.
      assert (E : 2 ^ 2 * y 1%nat + / (INR 2 - 1) = y 2%nat) by congruence. rewrite (Y1 1%nat) in E by lia. replace (INR 2 - 1) with 1 in E by (cbn; ring). lra.
    + unfold SeqSpec.zsum. change (Z.to_nat (Z.of_nat 2 - 2 + 1)) with 1%nat. cbn [bsum]. change (2 + Z.of_nat 0)%Z with 2%Z. rewrite Iv. change (@f0 RF) with 0. change (@fadd RF) with Rplus. change (zpow (K:=RF) 1 (Z.of_nat 2 - 2)) with 1. lra.
Qed.
Print Assumptions C81_lower_limit_refuted.
