(** Proofs for C78. *)
From Coq Require Import ZArith QArith Qcanon Reals List String Bool Lia Lra.
From Verif Require Import Fld FPoly SeqSpec SeqLemmas Ast ExprModel ExprSpec ExprProofs1 ExprProofs2 ExprProofs3 SeqInterp ElimModel ElimSpec ElimProofs DecompModel DecompSpec DecompProofs NonLinProofs VerifySpec ClassModel ClassSpec ClassProofs3 LinSolve SolverSpec SolverModel SolverProofs2 SolverProps CSolModel CSolSpec.
Import ListNotations.
Local Open Scope list_scope.
Local Open Scope R_scope.

(** * The value of the right-hand side *)
(** sum of c_j x(n-i-j) *)
Fixpoint dots (i : nat) (cs : list R) (x : nat -> R) (n : nat) : R :=
  match cs with [] => 0 | c :: cs => c * x (n - i)%nat + dots (S i) cs x n end.

Section P.
Context (I : interp) (rho : string -> R) (G : ginac).
Context (HX : forall l, ifun I FX l = None) (HG : forall x, ginac_ok (with_x I x) G).
Notation at_ := (at_n I rho).

Lemma shifted_val cs : forall us i x n v, (i + List.length cs <= S n)%nat -> Forall2 (fun c u => at_ x n c = Some u) cs us ->
  esum (with_x I x) (upd rho "n" (INR n)) (shifted_terms i cs) = Some v -> v = dots i us x n.
Proof.
  induction cs as [|c cs IH]; intros us i x n v L F E; inversion F; subst; cbn [shifted_terms dots] in *.
  - cbn in E. congruence.
  - cbn [List.length] in L. rewrite esum_cons in E. apply olift2_some in E as (p & q & Ep & Eq & ->). f_equal; [|apply (IH l' (S i) x n q); auto; lia].
    rewrite eval_Mul2 in Ep. apply olift2_some in Ep as (r & w & Er & Ew & ->). unfold at_n in H1. rewrite H1 in Er. injection Er as <-.
    pose proof (x_plus_val I rho x n (- Z.of_nat i) (n - i) ltac:(lia)) as X. unfold at_n, n_plus in X. rewrite X in Ew. congruence.
Qed.
Context (lm ms : Z) (rhs : expr) (s : cls) (Hs : classify G lm ms rhs = inr s) (Ht : c_type s = Some CONST_COEFF).
Context (H0 : hd (Num 0%Qc) (c_coeffs s) = Num 0%Qc) (U : Forall unary_x (terms rhs)).
Lemma length_coeffs : List.length (tl (c_coeffs s)) = c_order s.
Proof.
  destruct (classify_order G lm ms rhs s U Hs) as (_ & [(_ & _ & L)|(_ & L & E)] & _); [|now rewrite L, E].
  destruct (c_coeffs s); cbn in *; lia.
Qed.
Lemma not_functional : c_type s <> Some FUNCTIONAL. Proof. rewrite Ht. discriminate. Qed.
Lemma rhs_val x n v us : at_ x n rhs = Some v -> (c_order s <= n)%nat -> Forall2 (fun c u => at_ x n c = Some u) (tl (c_coeffs s)) us ->
  exists g, at_ x n (c_inhom s) = Some g /\ v = dots 1 us x n + g.
Proof.
  intros E L F. destruct (classify_value_linear G lm ms I rho x n HX (HG x) rhs s v Hs not_functional E) as [_ V].
  unfold reassembled in V. rewrite eval_Add, esum_cons in V. apply olift2_some in V as (g & d & Eg & Ed & ->). exists g. split; [exact Eg|].
  cbn [divided_terms map] in Ed. rewrite app_nil_r in Ed. rewrite Rplus_comm. f_equal. pose proof length_coeffs as LC.
  destruct (c_coeffs s) as [|c cs] eqn:EC; cbn [tl] in *.
  - inversion F; subst. cbn in *. congruence.
  - cbn [hd] in H0. subst c. cbn [shifted_terms] in Ed. rewrite esum_cons in Ed. apply olift2_some in Ed as (p & q & Ep & Eq & ->).
    rewrite eval_Mul2 in Ep. apply olift2_some in Ep as (r & w & Er & Ew & ->). cbn [eval] in Er. rewrite rv_0 in Er. injection Er as <-.
    rewrite (shifted_val cs us 1 x n q); auto; [ring|lia].
Qed.
(** The coefficients have values. *)
Lemma coefficients_exist N : defined_from I rho N rhs -> Forall x_free (c_coeffs s) -> exists us, coefficient_values I rho N (c_coeffs s) us.
Proof using HX HG Hs Ht.
  intros D F. unfold coefficient_values.
  assert (C : forall n, (N <= n)%nat -> Forall (fun c => exists u, at_ (fun _ => 0) N c = Some u /\ at_ (fun _ => 0) n c = Some u) (c_coeffs s)).
  { intros n Hn. destruct (D (fun _ => 0) N ltac:(lia)) as (w & W). destruct (D (fun _ => 0) n Hn) as (w' & W').
    exact (classify_const G lm ms I rho (fun _ => 0) N n HX (HG _) rhs s w w' Hs Ht W W'). }
  assert (T : forall cs, (forall c, In c cs -> In c (c_coeffs s)) -> exists us, Forall2 (has_value I rho N) cs us).
  { induction cs as [|c cs IH]; intros Hin; [exists []; constructor|]. destruct IH as (us & IH); [intros; apply Hin; now right|].
    assert (Hc : In c (c_coeffs s)) by (apply Hin; now left). pose proof (C N ltac:(lia)) as CN. rewrite Forall_forall in CN. destruct (CN c Hc) as (u & Eu & _).
    exists (u :: us). constructor; auto. intros x n Hn. rewrite Forall_forall in F. unfold at_n. rewrite (x_free_eval I x (fun _ => 0) c _ (F c Hc)).
    pose proof (C n Hn) as Cn. rewrite Forall_forall in Cn. destruct (Cn c Hc) as (u' & Eu' & En). unfold at_n in *. congruence. }
  apply T. intros c Hc. clear - Hc. destruct (c_coeffs s); cbn in *; auto.
Qed.

(** * The inhomogeneous term *)
Context (K : Fld) (inj : R -> K) (Emb : embedding K inj).
Lemma inj_ofn n : inj (INR n) = ofn n.
Proof.
  induction n; [exact (emb_0 _ _ Emb)|]. rewrite S_INR, (Rplus_comm (INR n)), (emb_add _ _ Emb), (emb_1 _ _ Emb), IHn. reflexivity.
Qed.
Lemma inj_pow u n : inj (u ^ n) = fpow (inj u) n.
Proof. induction n; cbn [pow fpow]; [exact (emb_1 _ _ Emb)|]. now rewrite (emb_mul _ _ Emb), IHn. Qed.
Lemma inj_poly c t : inj (rpoly c t) = peval (map inj c) (inj t).
Proof. induction c; cbn [rpoly peval map]; [exact (emb_0 _ _ Emb)|]. now rewrite (emb_add _ _ Emb), (emb_mul _ _ Emb), IHc. Qed.
Lemma ofz_nat n : ofz (K:=K) (Z.of_nat n) = ofn n.
Proof. destruct n; [reflexivity|]. cbn [Z.of_nat ofz]. now rewrite SuccNat2Pos.id_succ. Qed.
Lemma zpow_nat (u : K) n : zpow u (Z.of_nat n) = fpow u n.
Proof. destruct n; [reflexivity|]. cbn [Z.of_nat zpow]. now rewrite SuccNat2Pos.id_succ. Qed.

Context (simplify expand : expr -> expr) (Hsi : forall x e, refines (with_x I x) e (simplify e)) (Hex : forall x e, refines (with_x I x) e (expand e)).
Let l := exp_poly_decomposition G simplify (expand (c_inhom s)) "n".
Let z0 : nat -> R := fun _ => 0.
Lemma sum_val n g : at_ z0 n (c_inhom s) = Some g -> at_ z0 n (exp_sum "n" l) = Some g.
Proof.
  intros E. destruct (exp_poly_ok (with_x I z0) G (HG z0) simplify (expand (c_inhom s)) "n" (Hsi z0)) as (A & _). apply A. now apply Hex.
Qed.
Lemma decomposition_exists0 N : (forall n, (N <= n)%nat -> exists v, at_ z0 n (c_inhom s) = Some v) -> exists inh, decomposition_values I rho inj N l inh.
Proof using HG Emb Hsi Hex.
  intros D.
  destruct (exp_poly_ok (with_x I z0) G (HG z0) simplify (expand (c_inhom s)) "n" (Hsi z0)) as (_ & _ & B). fold l in B.
  assert (Q : forall n, (N <= n)%nat -> Forall (fun t => exists u v w, at_ z0 n (fst (fst t)) = Some u /\ at_ z0 n (snd (fst t)) = Some v /\ at_ z0 n (snd t) = Some w) l).
  { intros n Hn. destruct (D n Hn) as (g & Eg). apply sum_val in Eg. unfold exp_sum, at_n in Eg. rewrite eval_Add in Eg. revert g Eg. generalize l.
    induction l0 as [|[[a p] q] l0 IH]; intros g Eg; constructor; cbn [map] in Eg; rewrite esum_cons in Eg; apply olift2_some in Eg as (t & r & Et & Er & ->); [|eapply IH; exact Er].
    rewrite eval_Mul2 in Et. apply olift2_some in Et as (c & d & Ec & Ed & ->). rewrite eval_Add2 in Ed. apply olift2_some in Ed as (v & w & Ev & Ew & ->).
    cbn [eval] in Ec. destruct (eval (with_x I z0) (upd rho "n" (INR n)) a) as [u|] eqn:Eu; [|discriminate]. exists u, v, w. unfold at_n. auto. }
  assert (T : forall l0, (forall t, In t l0 -> In t l) -> exists inh, Forall2 (component_values I rho inj N) l0 inh).
  { induction l0 as [|[[a p] q] l0 IH]; intros Hin; [exists []; constructor|]. destruct IH as (inh & IH); [intros; apply Hin; now right|].
    assert (Hc : In (a, p, q) l) by (apply Hin; now left). rewrite Forall_forall in B. destruct (B _ Hc) as [B1 B2]. cbn [fst snd] in *.
    destruct (B2 rho) as (c & Hc').
    pose proof (Q N ltac:(lia)) as QN. rewrite Forall_forall in QN. destruct (QN _ Hc) as (b & _ & _ & Eb & _). cbn [fst snd] in Eb.
    exists (MkComp (inj b) (map inj c) (fun z => inj (match at_ z0 (Z.to_nat z) q with Some w => w | None => 0 end)) :: inh). constructor; auto.
    cbn [component_values cbase cpoly cnopoly]. split; [|split].
    - exists b. split; auto. intros n Hn. unfold value_of. fold z0. rewrite <- Eb. unfold at_n. rewrite !eval_upd_fresh by auto. reflexivity.
    - intros n Hn. destruct (D n Hn) as (g & Eg). unfold at_n in Eg. apply Hex in Eg. specialize (Hc' (INR n) g Eg). exists (rpoly c (INR n)). split; [exact Hc'|].
      now rewrite inj_poly, inj_ofn.
    - intros n Hn. pose proof (Q n Hn) as Qn. rewrite Forall_forall in Qn. destruct (Qn _ Hc) as (_ & _ & w & _ & _ & Ew). cbn [snd] in Ew.
      exists w. split; [exact Ew|]. now rewrite Nat2Z.id, Ew. }
  apply T. auto.
Qed.
Lemma decomposition_exists N : defined_from I rho N (c_inhom s) -> exists inh, decomposition_values I rho inj N l inh.
Proof using HG Emb Hsi Hex. intros D. apply decomposition_exists0. intros n Hn. exact (D z0 n Hn). Qed.
Lemma inhom_value N inh n g : decomposition_values I rho inj N l inh -> (N <= n)%nat -> at_ z0 n (c_inhom s) = Some g -> inj g = inh_value inh (Z.of_nat n).
Proof.
  intros D Hn Eg. apply sum_val in Eg. unfold exp_sum, at_n in Eg. rewrite eval_Add in Eg. unfold decomposition_values in D. revert g Eg. generalize D. clear D. generalize l.
  intros l0 D. induction D as [|[[a p] q] c l0 inh0 Hc D IH]; intros g Eg; cbn [map] in Eg.
  - cbn in Eg. injection Eg as <-. exact (emb_0 _ _ Emb).
  - rewrite esum_cons in Eg. apply olift2_some in Eg as (t & r & Et & Er & ->). rewrite (emb_add _ _ Emb). cbn [inh_value fold_right]. fold (inh_value inh0 (Z.of_nat n)).
    rewrite <- (IH r Er). f_equal. destruct Hc as ((b & Hb & Eb) & Hp & Hq). rewrite eval_Mul2 in Et. apply olift2_some in Et as (u & d & Eu & Ed & ->).
    rewrite eval_Add2 in Ed. apply olift2_some in Ed as (v & w & Ev & Ew & ->). cbn [eval] in Eu. specialize (Hb n Hn). unfold value_of, at_n in Hb. fold z0 in Hb. rewrite Hb in Eu. cbn [obind] in Eu.
    unfold upd in Eu at 1. rewrite String.eqb_refl, rpow_nat in Eu. injection Eu as <-.
    destruct (Hp n Hn) as (v' & Ev' & Iv). destruct (Hq n Hn) as (w' & Ew' & Iw). unfold value_of, at_n in Ev', Ew'. fold z0 in Ev', Ew'.
    assert (v' = v) by congruence. assert (w' = w) by congruence. subst v' w'.
    rewrite (emb_mul _ _ Emb), inj_pow, (emb_add _ _ Emb), Iv, Iw, ofz_nat, zpow_nat, Eb. apply (Rmul_comm (F_R (fth K))).
Qed.
Lemma only_polynomials N inh n : decomposition_values I rho inj N l inh -> (N <= n)%nat -> not_all_polynomials l = false ->
  inh_value inh (Z.of_nat n) = exp_poly (map (fun e => (cbase e, cpoly e)) inh) (Z.of_nat n).
Proof.
  intros D Hn. unfold decomposition_values in D. revert D. generalize l. intros l0 D. unfold not_all_polynomials, inh_value, exp_poly.
  induction D as [|[[a p] q] c l0 inh0 Hc D IH]; intros Q; [reflexivity|]. cbn [existsb snd] in Q. apply orb_false_iff in Q as [Q1 Q2].
  cbn [map fold_right fst snd]. rewrite (IH Q2). f_equal. f_equal. destruct Hc as (_ & _ & Hq). destruct (Hq n Hn) as (w & Ew & Iw).
  apply negb_false_iff in Q1. apply is_num_eq in Q1. subst q. unfold value_of, at_n in Ew. cbn [eval] in Ew. rewrite rv_0 in Ew. injection Ew as <-.
  rewrite <- Iw, (emb_0 _ _ Emb). rewrite (Radd_comm (F_R (fth K))). apply (Radd_0_l (F_R (fth K))).
Qed.

(** * Sequences of real numbers and sequences in the field *)
Lemma dots_sum us : forall i x n, dots i us x n = bsum (K:=RF) (List.length us) (fun j => nth j us 0 * x (n - i - j)%nat).
Proof.
  induction us as [|u us IH]; intros i x n; cbn [dots]; [reflexivity|]. cbn [List.length]. rewrite (bsum_first (K:=RF)). cbn [nth].
  change (@fadd RF) with Rplus. f_equal; [f_equal; f_equal; lia|]. rewrite IH. apply (bsum_ext (K:=RF)). intros j _. f_equal. f_equal. lia.
Qed.
Lemma inj_bsum m (F : nat -> R) : inj (bsum (K:=RF) m F) = bsum m (fun j => inj (F j)).
Proof. induction m; cbn [bsum]; [exact (emb_0 _ _ Emb)|]. change (@fadd RF) with Rplus. now rewrite (emb_add _ _ Emb), IHm. Qed.
Lemma dots_lincomb us x n : (List.length us <= n)%nat ->
  inj (dots 1 us x n) = lincomb (map inj us) (fun z => inj (x (Z.to_nat z))) (Z.of_nat n).
Proof.
  intros L. rewrite dots_sum, inj_bsum. unfold lincomb. rewrite map_length. apply bsum_ext. intros j Hj. rewrite (emb_mul _ _ Emb). f_equal.
  - rewrite <- (emb_0 _ _ Emb). now rewrite map_nth.
  - f_equal. f_equal. lia.
Qed.

(** * The recurrence and its translation *)
Context (f : nat) (us : list R) (Hus : coefficient_values I rho (f + c_order s) (c_coeffs s) us).
Context (Dr : defined_from I rho (f + c_order s) rhs) (Fi : x_free (c_inhom s)).
Lemma length_us : List.length us = c_order s.
Proof. rewrite <- length_coeffs. unfold coefficient_values in Hus. clear - Hus. revert Hus. generalize (tl (c_coeffs s)). intros cs F. induction F; cbn; congruence. Qed.
Lemma inhom_any x n : at_ x n (c_inhom s) = at_ z0 n (c_inhom s).
Proof. unfold at_n. apply x_free_eval. exact Fi. Qed.
Lemma value_at x n : (f + c_order s <= n)%nat -> exists g, at_ z0 n (c_inhom s) = Some g /\ at_ x n rhs = Some (dots 1 us x n + g).
Proof.
  intros L. destruct (Dr x n L) as (v & E). destruct (rhs_val x n v us E ltac:(lia)) as (g & Eg & ->).
  - unfold coefficient_values in Hus. clear - Hus L. revert Hus. generalize (tl (c_coeffs s)). intros cs F. induction F; constructor; auto.
  - exists g. rewrite inhom_any in Eg. auto.
Qed.
Lemma inhom_defined : defined_from I rho (f + c_order s) (c_inhom s).
Proof. intros x n L. destruct (value_at x n L) as (g & Eg & _). exists g. now rewrite inhom_any. Qed.
Lemma right_exists x0 : exists y, solution_with I rho rhs f (c_order s) x0 y.
Proof.
  destruct (solves_exists (K:=RF) us (fun z => match at_ z0 (Z.to_nat z) (c_inhom s) with Some g => g | None => 0 end) (Z.of_nat f) (fun z => x0 (Z.to_nat z))) as (y & Y1 & Y2).
  exists (fun n => y (Z.of_nat n)). change (@List.length (car RF) us) with (@List.length R us) in Y1, Y2. rewrite length_us in Y1, Y2. split.
  - intros i Hi. rewrite Y1 by lia. now rewrite Nat2Z.id.
  - intros n Hn. unfold holds_at. destruct (value_at (fun n => y (Z.of_nat n)) n Hn) as (g & Eg & E). unfold at_n in E at 1. etransitivity; [exact E|]. apply (f_equal Some).
    rewrite (Y2 (Z.of_nat n)) by lia. rewrite Nat2Z.id, Eg. change (@fadd RF) with Rplus. f_equal. rewrite dots_sum. unfold lincomb. apply (bsum_ext (K:=RF)).
    intros j Hj. change (@List.length (car RF) us) with (@List.length R us) in Hj. rewrite length_us in Hj. change (@fmul RF) with Rmult. f_equal. f_equal. lia.
Qed.
Lemma right_solves inh x0 y : decomposition_values I rho inj (f + c_order s) l inh -> solution_with I rho rhs f (c_order s) x0 y ->
  solves (map inj us) (inh_value inh) (Z.of_nat f) (fun z => inj (x0 (Z.to_nat z))) (fun z => inj (y (Z.to_nat z))).
Proof.
  intros D [Y1 Y2]. unfold solves, satisfies. rewrite map_length, length_us. split.
  - intros i Hi. rewrite Y1; [reflexivity|lia].
  - intros z Hz. pose (n := Z.to_nat z). assert (En : z = Z.of_nat n) by (subst n; lia). clearbody n. subst z. rewrite Nat2Z.id.
    destruct (value_at y n ltac:(lia)) as (g & Eg & E). specialize (Y2 n ltac:(lia)). unfold holds_at in Y2. unfold at_n in E at 1. rewrite Y2 in E.
    assert (Ey : y n = dots 1 us y n + g) by congruence. rewrite Ey at 1. rewrite (emb_add _ _ Emb), dots_lincomb by (rewrite length_us; lia). f_equal.
    apply (inhom_value (f + c_order s) inh n g D ltac:(lia) Eg).
Qed.
End P.

Section Q.
Context {K : Fld}.
Add Field KFq : (fth K).
Local Open Scope fld_scope.
Lemma solves_ext (a : list K) p q fz x X : (forall n, (fz + Z.of_nat (List.length a) <= n)%Z -> p n = q n) -> solves a p fz x X -> solves a q fz x X.
Proof. intros E [A B]. split; [exact A|]. intros n Hn. rewrite <- E by exact Hn. now apply B. Qed.
Lemma roots_right (find_roots : list K -> option (list (K * nat) * bool)) numbers (lcm : K) (a : list K) (roots : list (K * nat)) d : (forall roots d, find_roots (build_characteristic_equation lcm (0 :: a)) = Some (roots, d) -> right_roots (build_characteristic_equation lcm (0 :: a)) roots d) -> lcm <> 0 -> a <> [] ->
  characteristic_roots find_roots numbers lcm a = Some (roots, d) -> roots_of a roots /\ (d = true -> Forall (fun r => snd r = 1%nat) roots).
Proof.
  intros RF Hl Ha E. unfold characteristic_roots in E.
  assert (B : find_roots (build_characteristic_equation lcm (0 :: a)) = Some (roots, d) -> roots_of a roots /\ (d = true -> Forall (fun r => snd r = 1%nat) roots)).
  { intros F. destruct (RF _ _ F) as (N & P & S1 & V). split; [|exact S1]. split; [exact N|]. split; [exact P|]. intros y. specialize (V y).
    rewrite C23_characteristic_equation in V. unfold build_characteristic_equation in V. rewrite last_last in V.
    set (pr := fold_right _ _ _) in V |- *. clearbody pr. transitivity (lcm * char_value a y / lcm); [field; exact Hl|]. rewrite V. field. exact Hl. }
  destruct a as [|a1 [|a2 a]]; [congruence| |destruct numbers; [exact (B E)|discriminate]].
  assert (roots = [(a1, 1%nat)] /\ d = true) as [-> ->] by (split; congruence). split; [|intros _; repeat constructor].
  split; [repeat constructor; auto|]. split; [repeat constructor|]. intros y. unfold char_value. cbn [List.length bsum nth fpow fold_right fst snd Nat.sub]. ring.
Qed.
End Q.

Theorem solution_right (I : interp) (rho : string -> R) (G : ginac) (HX : forall l, ifun I FX l = None) (HG : forall x, ginac_ok (with_x I x) G)
    (lm ms : Z) (rhs : expr) (s : cls) (Hs : classify G lm ms rhs = inr s) (Ht : c_type s = Some CONST_COEFF)
    (H0 : hd (Num 0%Qc) (c_coeffs s) = Num 0%Qc) (U : Forall unary_x (terms rhs)) (Fi : x_free (c_inhom s))
    (K : Fld) (inj : R -> K) (Emb : embedding K inj)
    (simplify expand : expr -> expr) (Hsi : forall x e, refines (with_x I x) e (simplify e)) (Hex : forall x e, refines (with_x I x) e (expand e))
    (f : nat) (us : list R) inh ls gos find_roots numbers lcm X x0 :
  coefficient_values I rho (f + c_order s) (c_coeffs s) us -> defined_from I rho (f + c_order s) rhs ->
  let l := exp_poly_decomposition G simplify (expand (c_inhom s)) "n" in
  decomposition_values I rho inj (f + c_order s) l inh -> Forall (fun c => cbase c <> f0) inh ->
  last us 1 <> 0 -> lsolve_ok ls -> (let p := build_characteristic_equation lcm (f0 :: map inj us) in forall roots d, find_roots p = Some (roots, d) -> right_roots p roots d) -> lcm <> f0 -> summation_ok (hd f0 (map inj us)) f gos ->
  solve_linear_finite_order ls gos find_roots numbers lcm (map inj us) (not_all_polynomials l) inh f (fun z => inj (x0 (Z.to_nat z))) = Some X ->
  (exists y, solution_with I rho rhs f (c_order s) x0 y) /\
  forall y, solution_with I rho rhs f (c_order s) x0 y -> forall n, (f <= n)%nat -> X (Z.of_nat n) = inj (y n).
Proof.
  intros Hus Dr l D Hb Hlast Hls Hrf Hlcm Hg E.
  split; [exact (right_exists I rho G HX HG lm ms rhs s Hs Ht H0 U f us Hus Dr Fi x0)|]. intros y Hy n Hn.
  pose proof (right_solves I rho G HX HG lm ms rhs s Hs Ht H0 U K inj Emb simplify expand Hsi Hex f us Hus Dr Fi inh x0 y D Hy) as Sy.
  assert (SX : solves (map inj us) (inh_value inh) (Z.of_nat f) (fun z => inj (x0 (Z.to_nat z))) X).
  { pose proof (length_us I rho G lm ms rhs s Hs H0 U f us Hus) as L.
    assert (Hl0 : us <> [] -> last (map inj us) f0 <> f0).
    { intros Hne. destruct (exists_last Hne) as (us' & u & Eu). subst us. rewrite map_app, !last_last in *. cbn [map]. rewrite last_last. intros C. apply Hlast.
      apply (emb_inj _ _ Emb). rewrite C. symmetry. apply (emb_0 _ _ Emb). }
    assert (HneK : forall (u : K) (l : list K), u :: l <> []) by (intros; discriminate).
    assert (Hne : forall (u : R) (l : list R), u :: l <> []) by (intros; discriminate).
    assert (Hb' : forall e, In e inh -> cbase e <> f0) by (apply Forall_forall; exact Hb).
    unfold solve_linear_finite_order in E.
    destruct us as [|u1 us]; [|cbn [map] in E; fold (map inj us) in E].
    - cbn [map] in E. assert (X = inh_value inh) by congruence. subst X. split; [cbn; intros; lia|]. intros m _. unfold lincomb. cbn [List.length map bsum]. symmetry. apply (Radd_0_l (F_R (fth K))).
    - destruct (characteristic_roots find_roots numbers lcm (inj u1 :: map inj us)) as [[roots d]|] eqn:Er; [|discriminate].
      destruct (roots_right _ _ _ _ _ _ Hrf Hlcm (HneK _ _) Er) as [Ro Rd].
      destruct (not_all_polynomials l) eqn:Ep.
      + destruct us as [|u2 us]; cbn [map] in *.
        * assert (X = order_1_old gos (inj u1) inh f (fun z => inj (x0 (Z.to_nat z)))) by congruence. subst X.
          apply C21_order_1_by_sums; [exact (Hl0 (Hne _ _))|exact Hb'|exact Hg].
        * destruct (C23_solve_old K ls Hls d _ roots f0 (inh_value inh) (Z.of_nat f) (fun z => inj (x0 (Z.to_nat z))) Ro ltac:(cbn; lia) (Hl0 (Hne _ _)) Rd) as (X' & E' & S').
          rewrite E' in E. assert (X' = X) by congruence. now subst X'.
      + destruct (C23_solve_new K ls Hls _ roots (map (fun e => (cbase e, cpoly e)) inh) (Z.of_nat f) (fun z => inj (x0 (Z.to_nat z))) Ro (HneK _ _) (Hl0 (Hne _ _))) as (X' & E' & S').
        * intros e He. apply in_map_iff in He as (c & <- & Hc). exact (Hb' c Hc).
        * lia.
        * cbn [map] in *. rewrite E' in E. assert (X' = X) by congruence. subst X'. refine (solves_ext _ _ _ _ _ _ _ S'). intros z Hz.
          rewrite <- L in D. cbn [List.length] in *. rewrite map_length in Hz. pose (m := Z.to_nat z). assert (Em : z = Z.of_nat m) by (subst m; lia). clearbody m. subst z.
          symmetry. eapply (only_polynomials I rho G s K inj Emb simplify expand); [exact D|lia|exact Ep]. }
  rewrite <- (Nat2Z.id n) at 2. apply (solves_unique _ _ _ _ _ _ SX Sy). lia.
Qed.
