(** C82: linear recurrences with constant coefficients whose decrements have a common divisor, from the right-hand side to the solution.
    [solution_with I rho rhs 0 k x0 y]: y has the values x0 at 0, ..., k-1 and y(n) = rhs holds from k on (CSolSpec.v). *)
From Coq Require Import ZArith QArith Qcanon Reals List String Bool Lia Lra.
From Verif Require Import Fld FPoly SeqSpec Ast ExprModel ExprSpec SeqInterp VerifySpec VerifyCases NonLinCases ElimModel ElimSpec DecompModel ClassModel ClassSpec ClassProofs3 ClassCases LinSolve
  SolverModel SolverProps OrderRedModel OrdRwModel OrdRwSpec OrdRwProps CSolModel CSolSpec CSolProofs CSolProofs2 CSolCases RSolModel RSolSpec RSolProofs RSolCases.
Import ListNotations.
Local Open Scope list_scope.
Local Open Scope R_scope.

(** First valid index 0 (see C24 for others); n occurs in the right-hand side as in C70.  The reduced recurrence, with the coefficients [a], is solved for each remainder r0, and
    the value found at n is that of the sequence with the given initial values, which exists. *)
Theorem C82_reduced_partial : forall (I : interp) (rho : string -> R) (G : ginac), (forall l, ifun I FX l = None) -> (forall x, ginac_ok (with_x I x) G) ->
  forall (lm ms : Z) (rhs : expr) (s : cls), classify G lm ms rhs = inr s -> c_type s = Some CONST_COEFF ->
  hd (Num 0%Qc) (c_coeffs s) = Num 0%Qc -> Forall unary_x (terms rhs) -> x_free (c_inhom s) -> (1 < c_gcd s)%Z ->
  forall (r : string), r <> "n"%string -> forall (rhs' inh_e : expr), let d := Z.to_nat (c_gcd s) in
  Forall (direct_term r d) (terms rhs) -> write_reduced_order_recurrence G r d rhs = Some (rhs', inh_e) ->
  (forall t t', In t (terms rhs) -> rewrite_term G r d t = Some t' -> has_x_of_n t' = has_x_of_n t) -> Forall linear_term (terms rhs) ->
  forall (K : Fld) (inj : R -> K), embedding K inj ->
  forall simplify expand : expr -> expr, (forall x e, refines (with_x I x) e (simplify e)) -> (forall x e, refines (with_x I x) e (expand e)) ->
  forall (us : list R) (inh : nat -> list comp) ls gos find_roots numbers lcm others1 inh1 x0,
  coefficient_values I rho (c_order s) (c_coeffs s) us -> defined_from I rho (c_order s) rhs -> last us 1 <> 0 ->
  let l := exp_poly_decomposition G simplify (expand inh_e) "n" in
  let a := tl (reduced_coefficients d (f0 :: map inj us)) in
  (forall r0, (r0 < d)%nat -> decomposition_values I (upd rho r (INR r0)) inj (c_order s / d) l (inh r0) /\ Forall (fun c => cbase c <> f0) (inh r0) /\ summation_ok (hd f0 a) 0 (gos r0)) ->
  lsolve_ok ls -> (let p := build_characteristic_equation lcm (f0 :: a) in forall roots b, find_roots p = Some (roots, b) -> right_roots p roots b) -> lcm <> f0 ->
  (exists y, solution_with I rho rhs 0 (c_order s) x0 y) /\
  forall y, solution_with I rho rhs 0 (c_order s) x0 y -> forall n v,
  compute_exact_solution_finite_order ls gos find_roots numbers lcm (c_gcd s) (map inj us) others1 inh1 (not_all_polynomials l) inh 0 (fun z => inj (x0 (Z.to_nat z))) (Z.of_nat n) = Some v ->
  v = inj (y n).
Proof. exact reduced_exact. Qed.
Print Assumptions C82_reduced_partial.

(** First valid index f: the reduced recurrence is solved from its index f on, which is d f + r0 of the original one, so that the values at d f, ..., d f + k - 1 of the sequence appear in
    the answer.  From d f on the answer is right.  Missing: the indices from f to d f - 1 (see C24). *)
Theorem C82_first_index_partial : forall (I : interp) (rho : string -> R) (G : ginac), (forall l, ifun I FX l = None) -> (forall x, ginac_ok (with_x I x) G) ->
  forall (lm ms : Z) (rhs : expr) (s : cls), classify G lm ms rhs = inr s -> c_type s = Some CONST_COEFF ->
  hd (Num 0%Qc) (c_coeffs s) = Num 0%Qc -> Forall unary_x (terms rhs) -> x_free (c_inhom s) -> (1 < c_gcd s)%Z ->
  forall (r : string), r <> "n"%string -> forall (rhs' inh_e : expr), let d := Z.to_nat (c_gcd s) in
  Forall (direct_term r d) (terms rhs) -> write_reduced_order_recurrence G r d rhs = Some (rhs', inh_e) ->
  (forall t t', In t (terms rhs) -> rewrite_term G r d t = Some t' -> has_x_of_n t' = has_x_of_n t) -> Forall linear_term (terms rhs) ->
  forall (K : Fld) (inj : R -> K), embedding K inj ->
  forall simplify expand : expr -> expr, (forall x e, refines (with_x I x) e (simplify e)) -> (forall x e, refines (with_x I x) e (expand e)) ->
  forall (f : nat) (us : list R) (inh : nat -> list comp) ls gos find_roots numbers lcm others1 inh1 x0,
  coefficient_values I rho (f + c_order s) (c_coeffs s) us -> defined_from I rho (f + c_order s) rhs -> last us 1 <> 0 ->
  let l := exp_poly_decomposition G simplify (expand inh_e) "n" in
  let a := tl (reduced_coefficients d (f0 :: map inj us)) in
  (forall r0, (r0 < d)%nat -> decomposition_values I (upd rho r (INR r0)) inj (f + c_order s / d) l (inh r0) /\ Forall (fun c => cbase c <> f0) (inh r0) /\ summation_ok (hd f0 a) f (gos r0)) ->
  lsolve_ok ls -> (let p := build_characteristic_equation lcm (f0 :: a) in forall roots b, find_roots p = Some (roots, b) -> right_roots p roots b) -> lcm <> f0 ->
  (exists y, solution_with I rho rhs f (c_order s) x0 y) /\
  forall y, solution_with I rho rhs f (c_order s) x0 y -> (forall i, (d * f <= i < d * f + c_order s)%nat -> x0 i = y i) -> forall n v, (d * f <= n)%nat ->
  compute_exact_solution_finite_order ls gos find_roots numbers lcm (c_gcd s) (map inj us) others1 inh1 (not_all_polynomials l) inh f (fun z => inj (x0 (Z.to_nat z))) (Z.of_nat n) = Some v ->
  v = inj (y n).
Proof. exact reduced_from. Qed.
Print Assumptions C82_first_index_partial.

(** Without common divisor the recurrence is solved as it is. *)
Theorem C82_not_reduced : forall (I : interp) (rho : string -> R) (G : ginac), (forall l, ifun I FX l = None) -> (forall x, ginac_ok (with_x I x) G) ->
  forall (lm ms : Z) (rhs : expr) (s : cls), classify G lm ms rhs = inr s -> c_type s = Some CONST_COEFF ->
  hd (Num 0%Qc) (c_coeffs s) = Num 0%Qc -> Forall unary_x (terms rhs) -> x_free (c_inhom s) -> (c_gcd s <= 1)%Z ->
  forall (K : Fld) (inj : R -> K), embedding K inj ->
  forall simplify expand : expr -> expr, (forall x e, refines (with_x I x) e (simplify e)) -> (forall x e, refines (with_x I x) e (expand e)) ->
  forall (f : nat) (us : list R) (inh1 : list comp) ls gos find_roots numbers lcm others inh x0,
  coefficient_values I rho (f + c_order s) (c_coeffs s) us -> defined_from I rho (f + c_order s) rhs -> last us 1 <> 0 ->
  let l := exp_poly_decomposition G simplify (expand (c_inhom s)) "n" in
  decomposition_values I rho inj (f + c_order s) l inh1 -> Forall (fun c => cbase c <> f0) inh1 -> summation_ok (hd f0 (map inj us)) f (gos 0%nat) ->
  lsolve_ok ls -> (let p := build_characteristic_equation lcm (f0 :: map inj us) in forall roots d, find_roots p = Some (roots, d) -> right_roots p roots d) -> lcm <> f0 ->
  (exists y, solution_with I rho rhs f (c_order s) x0 y) /\
  forall y, solution_with I rho rhs f (c_order s) x0 y -> forall n v, (f <= n)%nat ->
  compute_exact_solution_finite_order ls gos find_roots numbers lcm (c_gcd s) (map inj us) (not_all_polynomials l) inh1 others inh f (fun z => inj (x0 (Z.to_nat z))) (Z.of_nat n) = Some v ->
  v = inj (y n).
Proof. exact not_reduced_exact. Qed.
Print Assumptions C82_not_reduced.

(** The values of the parts of the reduced inhomogeneous term that the theorem speaks of exist. *)
Theorem C82_values_exist : forall (I : interp) (rho : string -> R) (G : ginac), (forall l, ifun I FX l = None) -> (forall x, ginac_ok (with_x I x) G) ->
  forall (lm ms : Z) (rhs : expr) (s : cls), classify G lm ms rhs = inr s -> c_type s = Some CONST_COEFF ->
  hd (Num 0%Qc) (c_coeffs s) = Num 0%Qc -> Forall unary_x (terms rhs) -> x_free (c_inhom s) -> (1 < c_gcd s)%Z ->
  forall (r : string), r <> "n"%string -> forall (rhs' inh_e : expr), let d := Z.to_nat (c_gcd s) in
  Forall (direct_term r d) (terms rhs) -> write_reduced_order_recurrence G r d rhs = Some (rhs', inh_e) ->
  (forall t t', In t (terms rhs) -> rewrite_term G r d t = Some t' -> has_x_of_n t' = has_x_of_n t) -> Forall linear_term (terms rhs) ->
  forall (K : Fld) (inj : R -> K), embedding K inj ->
  forall simplify expand : expr -> expr, (forall x e, refines (with_x I x) e (simplify e)) -> (forall x e, refines (with_x I x) e (expand e)) ->
  forall (f : nat) (us : list R), coefficient_values I rho (f + c_order s) (c_coeffs s) us -> defined_from I rho (f + c_order s) rhs ->
  forall r0, (r0 < d)%nat -> exists inh, decomposition_values I (upd rho r (INR r0)) inj (f + c_order s / d) (exp_poly_decomposition G simplify (expand inh_e) "n") inh.
Proof. exact reduced_values. Qed.
Print Assumptions C82_values_exist.

(** x(n) = 3 x(n-2) + n: every hypothesis of the theorem holds, and the solver returns at every n. *)
Example C82_case : forall x0 : nat -> R, exists s, classify G0 lmax lmax two_rhs = inr s /\ c_order s = 2%nat /\ c_gcd s = 2%Z /\
  (exists y, solution_with I1 rho0 two_rhs 0 2 x0 y) /\
  forall y, solution_with I1 rho0 two_rhs 0 2 x0 y -> forall n,
  compute_exact_solution_finite_order (K:=RF) gauss no_sum no_roots true 1 (c_gcd s) [0; 3] false [] false two_inh 0 (fun z => x0 (Z.to_nat z)) (Z.of_nat n) = Some (y n).
Proof.
  intros x0. destruct two_runs as (s & Hs & Ht & Ho & Hg & Hc & Hi). exists s. split; [exact Hs|]. split; [exact Ho|]. split; [exact Hg|]. destruct two_rewritten as (rhs' & Rw).
  pose proof (C82_reduced_partial I1 rho0 G0 I1_x (fun x => Ast.G0_ok _) lmax lmax two_rhs s Hs Ht) as T. rewrite Ho, Hc, Hi, Hg in T. cbv zeta in T. change (Z.to_nat 2) with 2%nat in T.
  specialize (T eq_refl two_unary eq_refl ltac:(lia) "r"%string ltac:(discriminate) rhs' two_inh_e two_direct Rw two_kept two_linear RF (fun u => u) emb_RF idE idE (fun x e rho v H => H) (fun x e rho v H => H)
    [0; 3] two_inh gauss no_sum no_roots true 1 false [] x0).
  rewrite two_decomposition in T.
  destruct T as [A B].
  - repeat constructor; intros x n _; unfold at_n; cbn [eval]; rewrite ?rv_0, ?rv_zq; reflexivity.
  - intros x n Hn. eexists. apply two_val. exact Hn.
  - cbn [last]. lra.
  - intros r0 _. split; [apply two_inh_ok|]. split; [constructor; [|constructor]; cbn [cbase]; change (@f0 RF) with 0; lra|]. intros e z C. discriminate C.
  - apply C23_lsolve_contract.
  - intros roots b C. discriminate C.
  - change (@f0 RF) with 0. lra.
  - split; [exact A|]. intros y Hy n. rewrite Hg. specialize (B y Hy n). unfold compute_exact_solution_finite_order in *. change (1 <? 2)%Z with true in *. cbv iota in *. change (Z.to_nat 2) with 2%nat in *.
    destruct (two_solved (fun z => x0 (Z.to_nat z)) (Z.of_nat n)) as (v & E). specialize (B v E). rewrite <- B. exact E.
Qed.

(** The same recurrence, used from the index 1 on. *)
Example C82_first_index_case : forall x0 : nat -> R, exists s, classify G0 lmax lmax two_rhs = inr s /\ c_gcd s = 2%Z /\
  forall y, solution_with I1 rho0 two_rhs 1 2 x0 y -> forall n, (2 <= n)%nat ->
  compute_exact_solution_finite_order (K:=RF) gauss no_sum no_roots true 1 (c_gcd s) [0; 3] false [] false two_inh 1 (fun z => y (Z.to_nat z)) (Z.of_nat n) = Some (y n).
Proof.
  intros x0. destruct two_runs as (s & Hs & Ht & Ho & Hg & Hc & Hi). exists s. split; [exact Hs|]. split; [exact Hg|]. destruct two_rewritten as (rhs' & Rw).
  intros y [Hy0 Hy] n Hn.
  pose proof (C82_first_index_partial I1 rho0 G0 I1_x (fun x => Ast.G0_ok _) lmax lmax two_rhs s Hs Ht) as T. rewrite Ho, Hc, Hi, Hg in T. cbv zeta in T. change (Z.to_nat 2) with 2%nat in T.
  specialize (T eq_refl two_unary eq_refl ltac:(lia) "r"%string ltac:(discriminate) rhs' two_inh_e two_direct Rw two_kept two_linear RF (fun u => u) emb_RF idE idE (fun x e rho v H => H) (fun x e rho v H => H)
    1%nat [0; 3] two_inh gauss no_sum no_roots true 1 false [] y).
  rewrite two_decomposition in T.
  destruct T as [_ B].
  - repeat constructor; intros x m _; unfold at_n; cbn [eval]; rewrite ?rv_0, ?rv_zq; reflexivity.
  - intros x m Hm. eexists. apply two_val. lia.
  - cbn [last]. lra.
  - intros r0 _. split; [apply two_inh_ok|]. split; [constructor; [|constructor]; cbn [cbase]; change (@f0 RF) with 0; lra|]. intros e z C. discriminate C.
  - apply C23_lsolve_contract.
  - intros roots b C. discriminate C.
  - change (@f0 RF) with 0. lra.
  - rewrite Hg. specialize (B y (conj (fun i _ => eq_refl) Hy) (fun i _ => eq_refl) n). unfold compute_exact_solution_finite_order in *. change (1 <? 2)%Z with true in *. cbv iota in *. change (Z.to_nat 2) with 2%nat in *.
    destruct (two_solved_from 1 (fun z => y (Z.to_nat z)) (Z.of_nat n)) as (v & E). specialize (B v ltac:(lia) E). rewrite <- B. exact E.
Qed.
(** x(n) = x(n-2) + 1/(n+1): the reduced recurrence keeps the term 1/(n+1), and the value found at n = 2 is wrong whatever the initial values. *)
Theorem C82_denominator_refuted : exists (rhs : expr) (s : cls), classify G0 lmax lmax rhs = inr s /\ c_type s = Some CONST_COEFF /\ c_order s = 2%nat /\ c_gcd s = 2%Z /\
  exists us, coefficient_values I1 rho0 2 (c_coeffs s) us /\ defined_from I1 rho0 2 rhs /\
  exists rhs' inh_e, write_reduced_order_recurrence G0 "r" 2 rhs = Some (rhs', inh_e) /\
  let l := exp_poly_decomposition G0 idE (idE inh_e) "n" in
  exists inh, (forall r0, (r0 < 2)%nat -> decomposition_values (K:=RF) I1 (upd rho0 "r" (INR r0)) (fun u => u) 1 l (inh r0)) /\
  forall x0 : nat -> R, exists v,
  compute_exact_solution_finite_order (K:=RF) gauss no_sum no_roots true 1 (c_gcd s) us (not_all_polynomials l) (inh 0%nat) (not_all_polynomials l) inh 0 (fun z => x0 (Z.to_nat z)) 2 = Some v /\
  forall y, solution_with I1 rho0 rhs 0 2 x0 y -> v <> y 2%nat.
Proof.
  destruct div_runs as (s & Hs & Ht & Ho & Hg & Hc & Hi). exists rhs2, s. split; [exact Hs|]. split; [exact Ht|]. split; [exact Ho|]. split; [exact Hg|]. exists [0; 1].
  split. { rewrite Hc. repeat constructor; intros x n _; unfold at_n; cbn [eval]; rewrite ?rv_0, ?rv_1; reflexivity. }
  split. { intros x n Hn. eexists. apply div_val. exact Hn. }
  exists rhs2', inverse. split; [exact div_rewritten|]. cbv zeta. rewrite div_decomposition. exists div_inh. split; [intros r0 _; apply div_inh_ok|].
  intros x0. destruct (div_solved x0) as (v & E & V). exists v. rewrite Hg. split; [exact E|]. intros y [Y1 Y2] C.
  specialize (Y2 2%nat (le_n _)). unfold holds_at in Y2. pose proof (div_val y 2 (le_n _)) as A. unfold at_n in A. rewrite A in Y2. cbn [Nat.sub] in Y2.
  assert (E2 : y 0%nat + / (INR 2 + 1) = y 2%nat) by congruence. rewrite (Y1 0%nat) in E2 by lia. cbn [INR] in E2. lra.
Qed.
Print Assumptions C82_denominator_refuted.
