(** Proofs for C81. *)
From Coq Require Import ZArith QArith Qcanon Reals List String Bool Lia Lra.
From Verif Require Import Fld FPoly SeqSpec SeqLemmas Ast ExprModel ExprSpec ExprProofs1 ExprProofs2 ExprProofs3 SeqInterp ElimModel ElimSpec ElimProofs NonLinModel DecompModel DecompSpec DecompProofs NonLinProofs VerifySpec ClassModel ClassSpec ClassProofs3 LinSolve SolverSpec SolverModel SolverProofs2 SolverProps ProdModel ProdSpec ProdProofs ProdProofs2 ProdProps CSolModel CSolSpec CSolProofs CSolProofs2 VSolModel.
Import ListNotations.
Local Open Scope list_scope.
Local Open Scope R_scope.

Lemma zprod_bprod (F : Z -> R) lo cnt : ProdSpec.zprod F lo cnt = bprod (K:=RF) cnt (fun i => F (lo + Z.of_nat i)%Z).
Proof. induction cnt; cbn [ProdSpec.zprod bprod]; [reflexivity|]. now rewrite IHcnt. Qed.

Section P.
Context (I : interp) (rho : string -> R) (G : ginac).
Context (HX : forall l, ifun I FX l = None) (HG : forall x, ginac_ok (with_x I x) G) (HF : factorial_interp I) (HB : no_new_binders G).
Notation at_ := (at_n I rho).
Let z0 : nat -> R := fun _ => 0.
Notation J := (with_x I z0).
Context (lm ms : Z) (rhs : expr) (s : cls) (Hs : classify G lm ms rhs = inr s) (Ht : c_type s = Some VAR_COEFF) (Ho : c_order s = 1%nat).
Context (H0 : hd (Num 0%Qc) (c_coeffs s) = Num 0%Qc) (U : Forall unary_x (terms rhs)).
Let c := nth 1 (c_coeffs s) (Num 0%Qc).
Context (Fi : x_free (c_inhom s)) (Fc : x_free c).
Lemma value1 x n v : at_ x n rhs = Some v -> (1 <= n)%nat -> exists u g, at_ z0 n c = Some u /\ at_ z0 n (c_inhom s) = Some g /\ v = u * x (n - 1)%nat + g.
Proof.
  intros E L. assert (Nf : c_type s <> Some FUNCTIONAL) by (rewrite Ht; discriminate).
  destruct (classify_value_linear G lm ms I rho x n HX (HG x) rhs s v Hs Nf E) as [_ V].
  unfold reassembled in V. rewrite eval_Add, esum_cons in V. apply olift2_some in V as (g & d & Eg & Ed & ->).
  cbn [divided_terms map] in Ed. rewrite app_nil_r in Ed. pose proof (length_coeffs G lm ms rhs s Hs H0 U) as LC. rewrite Ho in LC. unfold c in *.
  destruct (c_coeffs s) as [|c0 [|c1 [|]]]; cbn [tl List.length] in LC; try discriminate LC. cbn [hd nth] in *. subst c0.
  cbn [shifted_terms] in Ed. rewrite !esum_cons in Ed. apply olift2_some in Ed as (p & q & Ep & Eq & ->). apply olift2_some in Eq as (p1 & q1 & Ep1 & Eq1 & ->).
  rewrite eval_Mul2 in Ep. apply olift2_some in Ep as (r & w & Er & _ & ->). cbn [eval] in Er. rewrite rv_0 in Er. assert (r = 0) by congruence. subst r.
  cbn in Eq1. assert (q1 = 0) by congruence. subst q1.
  rewrite eval_Mul2 in Ep1. apply olift2_some in Ep1 as (u & w1 & Eu & Ew & ->).
  pose proof (x_plus_val I rho x n (- Z.of_nat 1) (n - 1) ltac:(lia)) as X. unfold at_n, n_plus in X. rewrite X in Ew. assert (w1 = x (n - 1)%nat) by congruence. subst w1.
  exists u, g. unfold at_n. rewrite <- (x_free_eval I x z0 c1) by exact Fc. rewrite <- (x_free_eval I x z0 (c_inhom s)) by exact Fi. split; [exact Eu|]. split; [exact Eg|]. ring.
Qed.

Context (is_poly lc_negative : expr -> bool) (content primpart : expr -> expr).
Context (num_den : expr -> expr * expr) (expand simplify : expr -> expr) (factorize : expr -> expr * expr).
Context (sum_pe : expr -> string -> expr -> expr) (h index : string) (post : expr -> expr).
Context (f : nat).
Notation lo := (Z.of_nat f + 1)%Z.
Context (Hc : forall N e, splits_product J (env rho N) G simplify expand index h lo e (primpart e) (content e)).
Context (Hq : forall N e, splits_quotient J (env rho N) G simplify expand index h lo e (fst (num_den e)) (snd (num_den e))).
Context (Hf : forall N e, splits_product J (env rho N) G simplify expand index h lo e (fst (factorize e)) (snd (factorize e))).
Context (He : forall x e, refines (with_x I x) e (expand e)) (Hi : forall x e, refines (with_x I x) e (simplify e)) (Hp : forall x e, refines (with_x I x) e (post e)).
Context (Hsp : sums_exponentials J sum_pe).
Context (Nz : forall n, (f < n)%nat -> exists u, value_of I rho n c = Some u /\ u <> 0).
Context (Cap : no_capture "n" (Sym index) c) (Fr : has index c = false) (In_ : index <> "n"%string).
Notation quot := (let '(a, b) := num_den (substitute G (Sym "n") (Sym index) c) in gdiv G a b).
Context (Tr : forall N, treated J (env rho N) G simplify expand index h lo (expand quot)).
Let alpha (z : Z) : R := match value_of I rho (Z.to_nat z) c with Some u => u | None => 0 end.
Lemma factorial_J : factorial_interp J. Proof. exact HF. Qed.
Lemma factors N : factors_are J (env rho N) index lo quot alpha.
Proof.
  intros i Hi'. destruct (Nz (Z.to_nat i) ltac:(lia)) as (u & Eu & Nu). unfold alpha. rewrite Eu. split; [|exact Nu].
  assert (Es : eval J (upd (env rho N) index (IZR i)) (substitute G (Sym "n") (Sym index) c) = Some u).
  { eapply (substitute_ok J G (HG z0)); [exact Cap|cbn [eval]; unfold upd at 1; now rewrite String.eqb_refl|]. unfold value_of, at_n in Eu. rewrite <- Eu. apply eval_agree. intros t Ht'.
    unfold env, upd. destruct (String.eqb_spec t "n"); [rewrite INR_IZR_INZ, Z2Nat.id by lia; reflexivity|]. destruct (String.eqb_spec t index); [|reflexivity]. subst t. congruence. }
  destruct (Hq N (substitute G (Sym "n") (Sym index) c)) as [Q _]. destruct (num_den (substitute G (Sym "n") (Sym index) c)) as [a b]. cbn [fst snd] in Q.
  destruct (Q _ _ Es) as (x & y & Ex & Ey & Ny & ->). apply (div_val J G (HG z0)); auto.
Qed.
Context (fuel : nat) (pf : expr) (Epf : product_factor G is_poly lc_negative content primpart num_den expand simplify factorize sum_pe h index post fuel f (c_coeffs s) = Value pf).
Lemma product_value n : (f <= n)%nat -> value_of I rho n pf = Some (SeqSpec.zprod (K:=RF) lo (Z.of_nat n) alpha).
Proof.
  intros Hn. unfold product_factor in Epf. fold c in Epf. pose proof (factors (Z.of_nat n)) as F. specialize (Tr (Z.of_nat n)). destruct (num_den (substitute G (Sym "n") (Sym index) c)) as [a b].
  apply bind_value in Epf as (p & Ep & E). assert (pf = post p) by congruence. subst pf. unfold value_of, at_n. apply (Hp z0).
  pose proof (C45_product_partial J G (HG z0) factorial_J HB is_poly lc_negative content primpart num_den expand simplify factorize sum_pe h rho index lo (Z.of_nat n) ltac:(lia)
    (Hc _) (Hq _) (Hf _) (He z0) (Hi z0) Hsp fuel (gdiv G a b) p alpha Ep Tr F) as V.
  unfold env in V. rewrite <- INR_IZR_INZ in V. rewrite V. apply (f_equal Some). unfold SeqSpec.zprod. apply zprod_bprod.
Qed.
Lemma product_nz n : SeqSpec.zprod (K:=RF) lo n alpha <> 0.
Proof.
  unfold SeqSpec.zprod. rewrite <- (zprod_bprod alpha). apply zprod_nz. intros i Hi'. destruct (Nz (Z.to_nat i) ltac:(lia)) as (u & Eu & Nu). unfold alpha. now rewrite Eu.
Qed.
Context (Dr : defined_from I rho (f + 1) rhs).
Let p (z : Z) : R := match value_of I rho (Z.to_nat z) (c_inhom s) with Some g => g | None => 0 end.
Lemma equation x n : (f < n)%nat -> value_of I rho n (c_inhom s) = Some (p (Z.of_nat n)) /\ at_ x n rhs = Some (alpha (Z.of_nat n) * x (n - 1)%nat + p (Z.of_nat n)).
Proof.
  intros L. destruct (Dr x n ltac:(lia)) as (v & E). destruct (value1 x n v E ltac:(lia)) as (u & g & Eu & Eg & ->). unfold alpha, p, value_of. fold z0. rewrite Nat2Z.id, Eu, Eg. auto.
Qed.
Fixpoint seq (x : nat -> R) (n : nat) : R := match n with O => x O | S m => if Nat.ltb f (S m) then alpha (Z.of_nat (S m)) * seq x m + p (Z.of_nat (S m)) else x (S m) end.
Lemma exists1 x0 : exists y, solution_with I rho rhs f 1 x0 y.
Proof using HX HG Hs Ht Ho H0 U Fi Fc Dr.
  exists (seq x0). split.
  - intros i Hi'. destruct i as [|m]; [reflexivity|]. cbn [seq]. destruct (Nat.ltb_spec f (S m)); [lia|reflexivity].
  - intros n Hn. unfold holds_at. destruct (equation (seq x0) n ltac:(lia)) as [_ E]. unfold at_n in E. etransitivity; [exact E|]. apply (f_equal Some).
    destruct n as [|m]; [lia|]. cbn [seq]. replace (S m - 1)%nat with m by lia. destruct (Nat.ltb_spec f (S m)); [reflexivity|lia].
Qed.
Let l := divided_term G expand simplify (c_inhom s) pf.
Lemma divided_value n : (f < n)%nat -> value_of I rho n (gdiv G (c_inhom s) pf) = Some (p (Z.of_nat n) / SeqSpec.zprod (K:=RF) lo (Z.of_nat n) alpha).
Proof.
  intros L. apply (div_val J G (HG z0)); [exact (proj1 (equation z0 n L))|exact (product_value n ltac:(lia))|apply product_nz].
Qed.
Definition fake (e : expr) : cls := MkC 0 [] 0%Z [] e None.
Lemma values_exist : exists inh, decomposition_values (K:=RF) I rho (fun u => u) (f + 1) l inh.
Proof.
  apply (decomposition_exists0 I rho G HG (fake (gdiv G (c_inhom s) pf)) RF (fun u => u) emb_RF simplify expand Hi He (f + 1)). intros n Hn.
  eexists. exact (divided_value n ltac:(lia)).
Qed.
Lemma solved (inh : list (comp (K:=RF))) gos (pfv : Z -> R) (x0 : nat -> R) : decomposition_values (K:=RF) I rho (fun u => u) (f + 1) l inh -> Forall (fun e => cbase e <> f0) inh ->
  (forall n, (f <= n)%nat -> value_of I rho n pf = Some (pfv (Z.of_nat n))) -> summation_ok (K:=RF) f1 f gos ->
  forall y, solution_with I rho rhs f 1 x0 y -> forall n, (f <= n)%nat -> solve_variable_coeff_order_1 (K:=RF) gos pfv inh f (fun z => x0 (Z.to_nat z)) (Z.of_nat n) = y n.
Proof.
  intros D Hb Hpf Hg y [Y1 Y2].
  destruct (C22_variable_coefficient RF gos alpha p pfv inh f (fun z => x0 (Z.to_nat z))) as [X1 X2].
  - intros z Hz. destruct (Nz (Z.to_nat z) ltac:(lia)) as (u & Eu & Nu). unfold alpha. now rewrite Eu.
  - intros z Hz. pose proof (Hpf (Z.to_nat z) ltac:(lia)) as A. rewrite (product_value (Z.to_nat z)), Z2Nat.id in A by lia. congruence.
  - intros z Hz. pose (n := Z.to_nat z). assert (En : z = Z.of_nat n) by (subst n; lia). clearbody n. subst z.
    rewrite <- (inhom_value I rho G HG (fake (gdiv G (c_inhom s) pf)) RF (fun u => u) emb_RF simplify expand Hi He (f + 1) inh n _ D ltac:(lia) (divided_value n ltac:(lia))).
    pose proof (Hpf n ltac:(lia)) as A. rewrite product_value in A by lia. assert (pfv (Z.of_nat n) = SeqSpec.zprod (K:=RF) lo (Z.of_nat n) alpha) as -> by congruence. reflexivity.
  - intros e Hin. rewrite Forall_forall in Hb. exact (Hb e Hin).
  - exact Hg.
  - intros n Hn. induction Hn as [|n Hn IH].
    + rewrite X1, Nat2Z.id. symmetry. apply Y1. lia.
    + rewrite X2 by lia. replace (Z.of_nat (S n) - 1)%Z with (Z.of_nat n) by lia. rewrite IH. specialize (Y2 (S n) ltac:(lia)). unfold holds_at in Y2.
      destruct (equation y (S n) ltac:(lia)) as [_ E]. unfold at_n in E. rewrite Y2 in E. replace (S n - 1)%nat with n in E by lia. change (@fadd RF) with Rplus. change (@fmul RF) with Rmult. congruence.
Qed.
End P.
