(** Proofs for C78: the roots of the characteristic equation found by the code. *)
From Coq Require Import ZArith QArith Qcanon Reals List String Bool Lia Lra.
From Coquelicot Require Import Complex.
From Verif Require Import Fld FPoly PolyMore CplxF SeqSpec Ast ExprModel ExprSpec SeqInterp VerifySpec DecompModel ClassModel ClassSpec ClassProofs3 LinSolve RootModel RootSpec FindRootModel FindRootSpec NestedProofs RatRootProofs SearchProofs FindRootProofs FindRootProofs2 FindRootProofs3 FindRootProofs4 SolverModel CSolModel CSolSpec CSolProofs.
Import ListNotations.
Local Open Scope list_scope.
Local Open Scope nat_scope.

Lemma emb_RF : embedding RF (fun u => u).
Proof. constructor; auto. Qed.
Lemma emb_CF : embedding CF RtoC.
Proof. constructor; [reflexivity|reflexivity|apply RtoC_plus|apply RtoC_mult|apply RtoC_inj]. Qed.

Lemma nodup_roots (p : list Qc) : square_free p -> forall (l : list C) (h : list C),
  (forall x, pval p x = (peval (K:=CF) h x * lin_prod (K:=CF) l x)%C) -> NoDup l.
Proof.
  intros HS. induction l as [|r new IH]; intros h E; [constructor|]. constructor.
  - intros I. apply in_split in I. destruct I as (u & v & ->).
    apply (HS r (pmul (K:=CF) h (lin_poly (u ++ v)))). intros x. rewrite E, (peval_pmul (K:=CF)), peval_lin_poly, !lp_cprod.
    rewrite cprod_cons, !cprod_app, cprod_cons. cring.
  - apply (IH (pmul (K:=CF) h (lin_poly [r]))). intros x. rewrite E, (peval_pmul (K:=CF)), peval_lin_poly.
    cbn [lin_prod fold_right]. fold (lin_prod (K:=CF) new x). cring.
Qed.
Lemma leading (p : list Qc) (k : C) (l : list C) : proper p -> k <> RtoC 0 -> (forall x, pval p x = (k * lin_prod (K:=CF) l x)%C) -> qC (last p 0%Qc) = k.
Proof.
  intros HP Hk V. pose proof (product_length p k l HP Hk V) as L. destruct (lin_poly_normal l) as [I1 I2].
  assert (N : forall x, peval (K:=CF) (map qC p) x = peval (K:=CF) (pscal (K:=CF) k (lin_poly l)) x).
  { intros x. rewrite (peval_pscal (K:=CF)), peval_lin_poly. exact (V x). }
  pose proof (nth_peval_ext (K:=CF) _ _ N (List.length l)) as M. rewrite (nth_pscal (K:=CF)) in M.
  pose proof (last_nth (K:=CF) (lin_poly l)) as B. change (@f0 CF) with (RtoC 0) in *. change (car CF) with C in *. rewrite I1 in B. cbn [Nat.pred] in B. rewrite I2 in B. rewrite <- B in M.
  pose proof (last_nth (K:=QcF) p) as Q. change (@f0 QcF) with 0%Qc in Q. change (car QcF) with Qc in Q. rewrite L in Q. cbn [Nat.pred] in Q. rewrite Q.
  rewrite <- qC_0, map_nth in M. rewrite M. change (@fmul CF) with Cmult. ring.
Qed.
Lemma build_map (m : Qc) (qs : list Qc) : build_characteristic_equation (K:=CF) (qC m) (RtoC 0 :: map qC qs) = map qC (build_characteristic_equation (K:=QcF) m (0%Qc :: qs)).
Proof.
  unfold build_characteristic_equation. rewrite map_app, map_map. cbn [map List.length]. rewrite map_length. change (RtoC 0 :: map qC qs) with (RtoC 0 :: map qC qs).
  apply (f_equal (fun l => l ++ [qC m])). change (car QcF) with Qc. apply map_ext. intros i. 
  assert (E : nth (S (List.length qs) - 1 - i) (RtoC 0 :: map qC qs) (RtoC 0) = qC (nth (S (List.length qs) - 1 - i) (0%Qc :: qs) 0%Qc)).
  { rewrite <- qC_0. apply (map_nth qC (0%Qc :: qs)). }
  change (@f0 CF) with (RtoC 0). change (@f0 QcF) with 0%Qc. change (@fopp QcF) with Qcopp. change (@fmul QcF) with Qcmult. rewrite qC_opp, qC_mul, <- E. reflexivity.
Qed.
Lemma build_proper (m : Qc) (qs : list Qc) : m <> 0%Qc -> proper (build_characteristic_equation (K:=QcF) m (0%Qc :: qs)).
Proof.
  intros H. unfold build_characteristic_equation. split; [intros X; apply app_eq_nil in X as [_ X]; discriminate|]. change (car QcF) with Qc. rewrite last_last. exact H.
Qed.

Lemma found_right poly_factor fuel (p : list Qc) roots d : factorizer_ok poly_factor -> proper p -> integer_coefficients p -> square_free p -> no_pure_power_factor p ->
  number_roots poly_factor fuel (SAdd p) = Some (roots, d) -> right_roots (K:=CF) (map qC p) roots d.
Proof.
  intros HPF HP HI HS HN E. unfold number_roots, find_roots_top in E. destruct (find_roots poly_factor fuel p [] 1) as [[b l]|] eqn:F; [|discriminate].
  destruct b; [|discriminate]. assert (roots = map (fun r => (rvalue r, multiplicity r)) l /\ d = true) as [-> ->] by (injection E; intros; subst; split; reflexivity). clear E.
  destruct (find_roots_ok poly_factor HPF fuel p [] 1 true l HP HI HS F) as (new & E1 & _ & A2 & A3). cbn [app] in E1. subst new.
  destruct (A3 HN eq_refl) as (k & Hk & V). specialize (A2 eq_refl).
  assert (V' : forall x, pval p x = (k * lin_prod (K:=CF) (map rvalue l) x)%C) by (intros x; rewrite V, lf_cprod, lp_cprod, cprod_map; reflexivity).
  split; [|split; [|split]].
  - rewrite map_map. change (map (fun x => fst (rvalue x, multiplicity x)) l) with (map rvalue l). apply (nodup_roots p HS _ [k]). intros x. rewrite V'. cbn [peval]. cring.
  - apply Forall_forall. intros r Hr. apply in_map_iff in Hr as (t & <- & Ht). cbn [snd]. rewrite (A2 t Ht). lia.
  - intros _. apply Forall_forall. intros r Hr. apply in_map_iff in Hr as (t & <- & Ht). exact (A2 t Ht).
  - intros y. change (peval (K:=CF) (map qC p) y) with (pval p y). rewrite V. change (@f0 CF) with (RtoC 0). rewrite <- qC_0.
    assert (L : last (map qC p) (qC 0) = qC (last p 0%Qc)).
    { clear. induction p as [|a [|b p] IH]; auto. }
    change (car CF) with C. rewrite L, (leading p k (map rvalue l) HP Hk V'). change (@fmul CF) with Cmult. apply (f_equal (Cmult k)). clear - A2.
    induction l as [|r l IH]; [reflexivity|]. cbn [map fold_right fst snd]. rewrite lf_cons, IH by (intros; apply A2; right; auto). rewrite (A2 r) by (left; auto). cbn [fpow]. cring.
Qed.

Lemma map_rv qs : map RtoC (map rv qs) = map qC qs.
Proof. rewrite map_map. reflexivity. Qed.
(** With the roots found by the code, for a square-free characteristic polynomial without pure power factor. *)
Theorem solution_found (I : interp) (rho : string -> R) (G : ginac) (HX : forall l, ifun I FX l = None) (HG : forall x, ginac_ok (with_x I x) G)
    (lm ms : Z) (rhs : expr) (s : cls) (Hs : classify G lm ms rhs = inr s) (Ht : c_type s = Some CONST_COEFF)
    (H0 : hd (Num 0%Qc) (c_coeffs s) = Num 0%Qc) (U : Forall unary_x (terms rhs)) (Fi : x_free (c_inhom s))
    (simplify expand : expr -> expr) (Hsi : forall x e, refines (with_x I x) e (simplify e)) (Hex : forall x e, refines (with_x I x) e (expand e))
    (f : nat) (m : Z) (qs : list Qc) (inh : list (comp (K:=CF))) gos poly_factor fuel X x0 :
  coefficient_values I rho (f + c_order s) (c_coeffs s) (map rv qs) -> defined_from I rho (f + c_order s) rhs ->
  let l := exp_poly_decomposition G simplify (expand (c_inhom s)) "n" in
  let p := build_characteristic_equation (K:=QcF) (zq m) (0%Qc :: qs) in
  decomposition_values (K:=CF) I rho RtoC (f + c_order s) l inh -> Forall (fun c => cbase c <> f0) inh ->
  last qs 1%Qc <> 0%Qc -> m <> 0%Z -> integer_coefficients p -> square_free p -> no_pure_power_factor p -> factorizer_ok poly_factor ->
  summation_ok (K:=CF) (hd (RtoC 0) (map qC qs)) f gos ->
  solve_linear_finite_order (K:=CF) gauss gos (fun _ => number_roots poly_factor fuel (SAdd p)) true (qC (zq m)) (map qC qs) (not_all_polynomials l) inh f (fun z => RtoC (x0 (Z.to_nat z))) = Some X ->
  (exists y, solution_with I rho rhs f (c_order s) x0 y) /\
  forall y, solution_with I rho rhs f (c_order s) x0 y -> forall n, (f <= n)%nat -> X (Z.of_nat n) = RtoC (y n).
Proof.
  intros Hus Dr l p D Hb Hlast Hm HI HS HN HPF Hg E. rewrite <- map_rv in E, Hg.
  assert (Hz : zq m <> 0%Qc) by (intros C; apply (f_equal rv) in C; rewrite rv_zq, rv_0 in C; apply Hm; apply eq_IZR; exact C).
  apply (solution_right I rho G HX HG lm ms rhs s Hs Ht H0 U Fi CF RtoC emb_CF simplify expand Hsi Hex f (map rv qs) inh gauss gos (fun _ => number_roots poly_factor fuel (SAdd p)) true (qC (zq m)) X x0); auto.
  - clear - Hlast. intros C. apply Hlast. apply rv_inj. rewrite rv_0, <- C. clear C Hlast. rewrite <- rv_1. induction qs as [|a [|b qs] IH]; auto.
  - apply gauss_ok.
  - cbv zeta. intros roots d F. rewrite map_rv. change (@f0 CF) with (RtoC 0). rewrite build_map. apply (found_right poly_factor fuel p roots d HPF); auto. now apply build_proper.
  - apply qC_neq0. exact Hz.
Qed.
