(** Proofs for C82. *)
From Coq Require Import ZArith QArith Qcanon Reals List String Bool Lia Lra.
From Verif Require Import Fld FPoly SeqSpec SeqLemmas Ast ExprModel ExprSpec ExprProofs1 ExprProofs2 ExprProofs3 SeqInterp ElimModel ElimSpec ElimProofs DecompModel DecompSpec DecompProofs NonLinProofs VerifySpec ClassModel ClassSpec ClassProofs3 LinSolve SolverSpec SolverModel SolverProofs2 SolverProps
  OrderRedModel OrderRedSpec OrderRedProofs OrdRwModel OrdRwSpec OrdRwProofs OrdRwProps CSolModel CSolSpec CSolProofs RSolModel RSolSpec.
Import ListNotations.
Local Open Scope list_scope.
Local Open Scope R_scope.

(** * The solver on a recurrence given by its coefficients *)
Section S.
Context {K : Fld}.
Add Field KFrs : (fth K).
Lemma solver_solves ls gos find_roots numbers (lcm : K) (a : list K) others (inh : list comp) f x X :
  lsolve_ok ls -> (let p := build_characteristic_equation lcm (f0 :: a) in forall roots d, find_roots p = Some (roots, d) -> right_roots p roots d) -> lcm <> f0 ->
  (a <> [] -> last a f0 <> f0) -> Forall (fun c => cbase c <> f0) inh -> summation_ok (hd f0 a) f gos ->
  (others = false -> forall m, (f + List.length a <= m)%nat -> inh_value inh (Z.of_nat m) = exp_poly (map (fun e => (cbase e, cpoly e)) inh) (Z.of_nat m)) ->
  solve_linear_finite_order ls gos find_roots numbers lcm a others inh f x = Some X -> solves a (inh_value inh) (Z.of_nat f) x X.
Proof.
  intros Hls Hrf Hlcm Hl0 Hb Hg Hp E.
  assert (HneK : forall (u : K) (l : list K), u :: l <> []) by (intros; discriminate).
  assert (Hb' : forall e, In e inh -> cbase e <> f0) by (apply Forall_forall; exact Hb).
  unfold solve_linear_finite_order in E. destruct a as [|u1 us].
  - assert (X = inh_value inh) by congruence. subst X. split; [cbn; intros; lia|]. intros m _. unfold lincomb. cbn [List.length map bsum]. symmetry. apply (Radd_0_l (F_R (fth K))).
  - destruct (characteristic_roots find_roots numbers lcm (u1 :: us)) as [[roots d]|] eqn:Er; [|discriminate].
    destruct (roots_right _ _ _ _ _ _ Hrf Hlcm (HneK _ _) Er) as [Ro Rd].
    destruct others.
    + destruct us as [|u2 us].
      * assert (X = order_1_old gos u1 inh f x) by congruence. subst X.
        apply C21_order_1_by_sums; [exact (Hl0 (HneK _ _))|exact Hb'|exact Hg].
      * destruct (C23_solve_old K ls Hls d _ roots f0 (inh_value inh) (Z.of_nat f) x Ro ltac:(cbn; lia) (Hl0 (HneK _ _)) Rd) as (X' & E' & S').
        rewrite E' in E. assert (X' = X) by congruence. now subst X'.
    + destruct (C23_solve_new K ls Hls _ roots (map (fun e => (cbase e, cpoly e)) inh) (Z.of_nat f) x Ro (HneK _ _) (Hl0 (HneK _ _))) as (X' & E' & S').
      * intros e He. apply in_map_iff in He as (c & <- & Hc). exact (Hb' c Hc).
      * lia.
      * rewrite E' in E. assert (X' = X) by congruence. subst X'. refine (solves_ext _ _ _ _ _ _ _ S'). intros z Hz.
        pose (m := Z.to_nat z). assert (Em : z = Z.of_nat m) by (subst m; lia). clearbody m. subst z. symmetry. apply (Hp eq_refl). lia.
Qed.

(** Every d-th value of a solution solves the reduced recurrence. *)
Lemma parts_solve (d q f : nat) (c0 : K) (a : list K) (p : Z -> K) (x x' Y : Z -> K) r :
  (1 < d)%nat -> List.length a = (q * d)%nat -> decrements_multiple_of d a -> (0 <= r < Z.of_nat d)%Z -> solves a p (Z.of_nat f) x Y ->
  (forall i, (Z.of_nat (d * f) <= i < Z.of_nat (d * f + q * d))%Z -> Y i = x' i) ->
  solves (tl (reduced_coefficients d (c0 :: a))) (reduced_inhomogeneous d p r) (Z.of_nat f) (fun k => x' (Z.of_nat d * k + r)%Z) (fun m => Y (Z.of_nat d * m + r)%Z).
Proof.
  intros Hd La Ha Hr [_ S2] S1.
  assert (LR : List.length (tl (reduced_coefficients d (c0 :: a))) = q).
  { pose proof (reduced_coefficients_length d c0 a q Hd La) as E. destruct (reduced_coefficients d (c0 :: a)); cbn [tl List.length] in *; lia. }
  split.
  - intros i Hi. rewrite LR in Hi. apply S1. nia.
  - intros n Hn. rewrite LR in Hn. rewrite S2 by (rewrite La; nia). unfold reduced_inhomogeneous. f_equal. unfold lincomb. rewrite LR, La.
    rewrite (bsum_mult d q) by (lia || (intros j Hj1 Hj2; rewrite Ha by (lia || auto); ring)).
    apply bsum_ext. intros t Ht.
    assert (E : nth t (tl (reduced_coefficients d (c0 :: a))) f0 = nth (S t * d - 1) a f0).
    { rewrite <- (reduced_coefficients_nth d c0 a (S t)) by nia. destruct (reduced_coefficients d (c0 :: a)); cbn [tl nth]; auto. destruct t; auto. }
    rewrite E. f_equal. f_equal. nia.
Qed.
Lemma reduced_last (d q : nat) (c0 : K) (a : list K) : (1 < d)%nat -> List.length a = (q * d)%nat -> (0 < q)%nat -> last (tl (reduced_coefficients d (c0 :: a))) f0 = last a f0.
Proof.
  intros Hd La Hq. pose proof (reduced_coefficients_length d c0 a q Hd La) as E.
  assert (N : forall (l : list K) k, List.length l = S k -> last l f0 = nth k l f0).
  { induction l as [|u l IH]; intros k L; [discriminate|]. destruct l as [|v l]; [cbn in *; destruct k; [reflexivity|lia]|]. destruct k; [cbn in L; lia|]. change (last (u :: v :: l) f0) with (last (v :: l) f0). cbn [nth]. apply IH. cbn in *. lia. }
  destruct q as [|q]; [lia|]. rewrite (N a (S q * d - 1)%nat) by lia. rewrite <- (reduced_coefficients_nth d c0 a (S q)) by lia.
  destruct (reduced_coefficients d (c0 :: a)) as [|u l]; [discriminate|]. cbn [tl nth]. apply N. cbn in E. lia.
Qed.
End S.

(** * Values of the reduced recurrence *)
Lemma dots_zero us : forall i x n, (forall k, (i <= k)%nat -> (k < i + List.length us)%nat -> x (n - k)%nat = 0) -> dots i us x n = 0.
Proof.
  induction us as [|u us IH]; intros i x n H; cbn [dots]; [reflexivity|]. cbn [List.length] in H. rewrite H by lia. rewrite IH; [ring|]. intros k H1 H2. apply H; lia.
Qed.
Lemma dots_single us : forall i j n, (j < List.length us)%nat -> (i + List.length us <= S n)%nat -> dots i us (fun k => if Nat.eqb k (n - i - j) then 1 else 0) n = nth j us 0.
Proof.
  induction us as [|u us IH]; intros i j n Hj Hn; cbn [List.length] in *; [lia|]. cbn [dots]. destruct j as [|j].
  - rewrite dots_zero. + rewrite Nat.sub_0_r, Nat.eqb_refl. cbn [nth]. ring. + intros k H1 H2. destruct (Nat.eqb_spec (n - k) (n - i - 0)); [lia|reflexivity].
  - destruct (Nat.eqb_spec (n - i) (n - i - S j)); [lia|]. cbn [nth]. rewrite <- (IH (S i) j n) by lia. replace (n - S i - j)%nat with (n - i - S j)%nat by lia. ring.
Qed.
Lemma has_x_of_n_free e : has_x_function e = false -> has_x_of_n e = false.
Proof.
  assert (L : forall l, Forall (fun e => has_x_function e = false -> has_x_of_n e = false) l -> existsb has_x_function l = false -> existsb has_x_of_n l = false).
  { induction 1 as [|a l Ha _ IH]; [reflexivity|]. cbn [existsb]. intros H. apply orb_false_iff in H as [H1 H2]. now rewrite Ha, IH. }
  induction e as [| | |l IH|l IH|a b IHa IHb|f l IH|k lo up e IHlo IHup IHe|k lo up e IHlo IHup IHe] using expr_ind'; cbn [has_x_function has_x_of_n]; auto.
  - intros H. apply orb_false_iff in H as [H1 H2]. now rewrite IHa, IHb.
  - destruct f; try discriminate; exact (L l IH).
  - intros H. apply orb_false_iff in H as [H H3]. apply orb_false_iff in H as [H1 H2]. now rewrite IHlo, IHup, IHe.
  - intros H. apply orb_false_iff in H as [H H3]. apply orb_false_iff in H as [H1 H2]. now rewrite IHlo, IHup, IHe.
Qed.

Section P.
Context (I : interp) (rho : string -> R) (G : ginac).
Context (HX : forall l, ifun I FX l = None) (HG : forall x, ginac_ok (with_x I x) G).
Notation at_ := (at_n I rho).
Let z0 : nat -> R := fun _ => 0.
(** A multiple of x() vanishes with x(). *)
Lemma x_zero env a v : eval (with_x I z0) env (Fun FX [a]) = Some v -> v = 0.
Proof.
  cbn [eval]. rewrite omap_cons. destruct (eval (with_x I z0) env a) as [u|]; [|discriminate]. cbn [omap olift2 obind]. cbn [with_x ifun]. destruct (as_int u) as [z|]; [|discriminate].
  destruct (0 <=? z)%Z; [|discriminate]. unfold z0. congruence.
Qed.
Lemma linear_zero env t v : linear_term t -> has_x_of_n t = true -> eval (with_x I z0) env t = Some v -> v = 0.
Proof.
  intros [F|(a & [->|(l & -> & Hl)])] H E.
  - rewrite has_x_of_n_free in H by exact F. discriminate.
  - exact (x_zero env a v E).
  - clear H. rewrite eval_Mul in E. revert v E. induction l as [|b l IH]; intros v E; [destruct Hl|]. rewrite eprod_cons in E. apply olift2_some in E as (p & q & Ep & Eq & ->).
    destruct Hl as [->|Hl]; [rewrite (x_zero env a p Ep); ring|rewrite (IH Hl q Eq); ring].
Qed.
Lemma without_x env ts v : Forall linear_term ts -> esum (with_x I z0) env ts = Some v -> esum (with_x I z0) env (filter (fun t => negb (has_x_of_n t)) ts) = Some v.
Proof.
  intros F. revert v. induction F as [|t ts Ht F IH]; intros v E; [exact E|]. rewrite esum_cons in E. apply olift2_some in E as (p & q & Ep & Eq & ->). cbn [filter].
  destruct (has_x_of_n t) eqn:Hx; cbn [negb].
  - rewrite (linear_zero env t p Ht Hx Ep), (IH q Eq). f_equal. ring.
  - rewrite esum_cons, Ep, (IH q Eq). reflexivity.
Qed.
Context (lm ms : Z) (rhs : expr) (s : cls) (Hs : classify G lm ms rhs = inr s) (Ht : c_type s = Some CONST_COEFF).
Context (H0 : hd (Num 0%Qc) (c_coeffs s) = Num 0%Qc) (U : Forall unary_x (terms rhs)) (Fi : x_free (c_inhom s)).
Context (Hgcd : (1 < c_gcd s)%Z).
Let d := Z.to_nat (c_gcd s).
Context (r : string) (Nr : r <> "n"%string) (rhs' inh_e : expr).
Context (Dt : Forall (direct_term r d) (terms rhs)) (Rw : write_reduced_order_recurrence G r d rhs = Some (rhs', inh_e)).
Context (Kp : forall t t', In t (terms rhs) -> rewrite_term G r d t = Some t' -> has_x_of_n t' = has_x_of_n t) (Lin : Forall linear_term (terms rhs)).
Context (f : nat) (us : list R) (Hus : coefficient_values I rho (f + c_order s) (c_coeffs s) us) (Dr : defined_from I rho (f + c_order s) rhs).
Lemma d_pos : (1 < d)%nat. Proof. subst d. lia. Qed.
Lemma order_multiple : exists q, c_order s = (q * d)%nat.
Proof.
  destruct (classify_order G lm ms rhs s U Hs) as (_ & [(_ & (t & Ht1 & Ht2) & _)|(_ & _ & E)] & Dv); [|exists 0%nat; exact E].
  destruct (proj1 (Dv (c_gcd s)) (Z.divide_refl _) t (c_order s) Ht1 Ht2) as (q & Eq). exists (Z.to_nat q). subst d. nia.
Qed.
Lemma multiples j : (j < List.length us)%nat -> (S j mod d <> 0)%nat -> nth j us 0 = 0.
Proof.
  intros Hj Nd. pose proof (length_us I rho G lm ms rhs s Hs H0 U f us Hus) as Lu. pose proof d_pos as Hd.
  pose (n := (f + c_order s)%nat). pose (x := fun k => if Nat.eqb k (n - 1 - j) then 1 else 0).
  destruct (value_at I rho G HX HG lm ms rhs s Hs Ht H0 U f us Hus Dr Fi x n (le_n _)) as (g & Eg & E1).
  destruct (value_at I rho G HX HG lm ms rhs s Hs Ht H0 U f us Hus Dr Fi z0 n (le_n _)) as (g' & Eg' & E2).
  assert (g' = g) by congruence. subst g'.
  pose (r0 := (n mod d)%nat). pose (m := (n / d)%nat). assert (En : (d * m + r0 = n)%nat) by (symmetry; apply Nat.div_mod; lia). assert (Hr0 : (r0 < d)%nat) by (apply Nat.mod_upper_bound; lia).
  pose proof (fun v => C70_rewriting_partial I G HG r Nr d (Nat.lt_trans _ _ _ Nat.lt_0_1 Hd) rhs rhs' inh_e Dt Rw x m r0 rho v Hr0) as A1. pose proof (fun v => C70_rewriting_partial I G HG r Nr d (Nat.lt_trans _ _ _ Nat.lt_0_1 Hd) rhs rhs' inh_e Dt Rw z0 m r0 rho v Hr0) as A2.
  rewrite En in A1, A2. specialize (A1 _ E1). specialize (A2 _ E2).
  assert (X : every d r0 x = every d r0 z0).
  { apply FunctionalExtensionality.functional_extensionality. intros k. unfold every, x, z0. destruct (Nat.eqb_spec (d * k + r0) (n - 1 - j)) as [C|]; [|reflexivity]. exfalso. apply Nd.
    rewrite Lu in Hj. assert (Hn : (c_order s <= n)%nat) by (subst n; lia). assert (Em : (S j = (m - k) * d)%nat) by nia. rewrite Em. apply Nat.mod_mul. lia. }
  rewrite X, A2 in A1. assert (E : dots 1 us x n = dots 1 us z0 n) by (assert (dots 1 us z0 n + g = dots 1 us x n + g) by congruence; lra).
  rewrite (dots_zero us 1 z0 n) in E by reflexivity. etransitivity; [symmetry; exact (dots_single us 1 j n Hj ltac:(rewrite Lu; subst n; lia))|exact E].
Qed.
Lemma reduced_inhom n g : (f + c_order s <= n)%nat -> at_ z0 n (c_inhom s) = Some g -> value_of I (upd rho r (INR (n mod d))) (n / d) inh_e = Some g.
Proof.
  intros Hn Eg. pose proof d_pos as Hd. destruct (value_at I rho G HX HG lm ms rhs s Hs Ht H0 U f us Hus Dr Fi z0 n Hn) as (g' & Eg' & E). assert (g' = g) by (unfold z0 in Eg; congruence). subst g'.
  rewrite dots_zero in E by reflexivity. rewrite Rplus_0_l in E.
  assert (Es : esum (with_x I z0) (upd rho "n" (INR n)) (terms rhs) = Some g).
  { unfold at_n in E. destruct rhs; cbn [terms]; try (rewrite esum_cons, E; cbn; f_equal; ring). rewrite eval_Add in E. exact E. }
  apply without_x in Es; [|exact Lin]. rewrite <- eval_Add in Es.
  pose proof (C70_inhomogeneous_partial I G HG r Nr d (Nat.lt_trans _ _ _ Nat.lt_0_1 Hd) rhs rhs' inh_e Dt Rw Kp z0 (n / d) (n mod d) rho g (Nat.mod_upper_bound n d ltac:(lia))) as A.
  rewrite <- Nat.div_mod in A by lia. exact (A Es).
Qed.
End P.

Theorem reduced_right (I : interp) (rho : string -> R) (G : ginac) (HX : forall l, ifun I FX l = None) (HG : forall x, ginac_ok (with_x I x) G)
    (lm ms : Z) (rhs : expr) (s : cls) (Hs : classify G lm ms rhs = inr s) (Ht : c_type s = Some CONST_COEFF)
    (H0 : hd (Num 0%Qc) (c_coeffs s) = Num 0%Qc) (U : Forall unary_x (terms rhs)) (Fi : x_free (c_inhom s)) (Hgcd : (1 < c_gcd s)%Z)
    (r : string) (Nr : r <> "n"%string) (rhs' inh_e : expr) :
  let d := Z.to_nat (c_gcd s) in
  Forall (direct_term r d) (terms rhs) -> write_reduced_order_recurrence G r d rhs = Some (rhs', inh_e) ->
  (forall t t', In t (terms rhs) -> rewrite_term G r d t = Some t' -> has_x_of_n t' = has_x_of_n t) -> Forall linear_term (terms rhs) ->
  forall (K : Fld) (inj : R -> K), embedding K inj ->
  forall simplify expand : expr -> expr, (forall x e, refines (with_x I x) e (simplify e)) -> (forall x e, refines (with_x I x) e (expand e)) ->
  forall (f : nat) (us : list R) (inh : nat -> list comp) ls gos find_roots numbers lcm x0,
  coefficient_values I rho (f + c_order s) (c_coeffs s) us -> defined_from I rho (f + c_order s) rhs -> last us 1 <> 0 ->
  let l := exp_poly_decomposition G simplify (expand inh_e) "n" in
  let a := tl (reduced_coefficients d (f0 :: map inj us)) in
  (forall r0, (r0 < d)%nat -> decomposition_values I (upd rho r (INR r0)) inj (f + c_order s / d) l (inh r0) /\ Forall (fun c => cbase c <> f0) (inh r0) /\ summation_ok (hd f0 a) f (gos r0)) ->
  lsolve_ok ls -> (let p := build_characteristic_equation lcm (f0 :: a) in forall roots b, find_roots p = Some (roots, b) -> right_roots p roots b) -> lcm <> f0 ->
  (exists y, solution_with I rho rhs f (c_order s) x0 y) /\
  forall y, solution_with I rho rhs f (c_order s) x0 y -> (forall i, (d * f <= i < d * f + c_order s)%nat -> x0 i = y i) -> forall n v, (d * f <= n)%nat ->
  apply_order_reduction ls gos find_roots numbers lcm d (map inj us) (not_all_polynomials l) inh f (fun z => inj (x0 (Z.to_nat z))) (Z.of_nat n) = Some v -> v = inj (y n).
Proof.
  intros d Dt Rw Kp Lin K inj Emb simplify expand Hsi Hex f us inh ls gos find_roots numbers lcm x0 Hus Dr Hlast l a Hinh Hls Hrf Hlcm.
  split; [exact (right_exists I rho G HX HG lm ms rhs s Hs Ht H0 U f us Hus Dr Fi x0)|]. intros y Hy Ag n v Hfn E.
  pose proof (length_us I rho G lm ms rhs s Hs H0 U f us Hus) as Lu.
  assert (Hd : (1 < d)%nat) by (subst d; lia). destruct (order_multiple G lm ms rhs s Hs U Hgcd) as (q & Hq). fold d in Hq.
  assert (Eqd : (c_order s / d = q)%nat) by (rewrite Hq; apply Nat.div_mul; lia).
  pose proof (inhom_defined I rho G HX HG lm ms rhs s Hs Ht H0 U f us Hus Dr Fi) as Di.
  destruct (decomposition_exists I rho G HG s K inj Emb simplify expand Hsi Hex (f + c_order s) Di) as (inh0 & D0).
  pose proof (right_solves I rho G HX HG lm ms rhs s Hs Ht H0 U K inj Emb simplify expand Hsi Hex f us Hus Dr Fi inh0 x0 y D0 Hy) as Sy.
  pose (r0 := (n mod d)%nat). pose (m := (n / d)%nat). assert (En : (n = d * m + r0)%nat) by (apply Nat.div_mod; lia). assert (Hr0 : (r0 < d)%nat) by (apply Nat.mod_upper_bound; lia).
  assert (Dm : decrements_multiple_of d (map inj us)).
  { intros j Hj Nj. rewrite map_length in Hj. rewrite <- (emb_0 _ _ Emb), map_nth. f_equal.
    exact (multiples I rho G HX HG lm ms rhs s Hs Ht H0 U Fi Hgcd r Nr rhs' inh_e Dt Rw f us Hus Dr j Hj Nj). }
  assert (LuK : List.length (map inj us) = (q * d)%nat) by (rewrite map_length; congruence).
  assert (La : List.length a = q). { pose proof (reduced_coefficients_length d f0 (map inj us) q Hd LuK) as L. subst a. destruct (reduced_coefficients d (f0 :: map inj us)); cbn [tl List.length] in *; lia. }
  destruct (Hinh r0 Hr0) as (Dn & Hb & Hg). rewrite Eqd in Dn.
  unfold apply_order_reduction in E. rewrite <- Nat2Z.inj_mod, Nat2Z.id in E. fold r0 in E.
  unfold reduced_solution in E. fold a in E.
  destruct (solve_linear_finite_order ls (gos r0) find_roots numbers lcm a (not_all_polynomials l) (inh r0) f (fun k => inj (x0 (Z.to_nat (Z.of_nat d * k + Z.of_nat r0))))) as [X|] eqn:EX; [|discriminate].
  assert (Ei : ((Z.of_nat n - Z.of_nat r0) / Z.of_nat d = Z.of_nat m)%Z). { replace (Z.of_nat n - Z.of_nat r0)%Z with (Z.of_nat m * Z.of_nat d)%Z by lia. apply Z.div_mul. lia. }
  rewrite Ei in E. assert (v = X (Z.of_nat m)) by congruence. subst v. clear E Ei.
  assert (SX : solves a (inh_value (inh r0)) (Z.of_nat f) (fun k => inj (x0 (Z.to_nat (Z.of_nat d * k + Z.of_nat r0)))) X).
  { apply (solver_solves ls (gos r0) find_roots numbers lcm a (not_all_polynomials l) (inh r0) f _ X Hls Hrf Hlcm); auto.
    - intros Na. assert (0 < q)%nat by (rewrite <- La; destruct a; [congruence|cbn; lia]). unfold a. rewrite (reduced_last d q f0 (map inj us) Hd LuK) by auto.
      assert (Hne : us <> []) by (intros ->; cbn in Lu; nia). destruct (exists_last Hne) as (us' & u & Eu). rewrite Eu, map_app. cbn [map]. rewrite last_last. intros C. apply Hlast. rewrite Eu, last_last.
      apply (emb_inj _ _ Emb). rewrite C. symmetry. apply (emb_0 _ _ Emb).
    - intros Ep k Hk. rewrite La in Hk. exact (only_polynomials I (upd rho r (INR r0)) G (MkC 0 [] 0%Z [] inh_e None) K inj Emb simplify expand (f + q) (inh r0) k Dn Hk Ep). }
  pose proof (parts_solve d q f f0 (map inj us) _ _ (fun z => inj (x0 (Z.to_nat z))) _ (Z.of_nat r0) Hd LuK Dm ltac:(lia) Sy) as SY. fold a in SY.
  lapply SY; [clear SY; intros SY|intros i Hi; cbv beta; f_equal; symmetry; apply Ag; rewrite Hq; lia].
  assert (SY' : solves a (inh_value (inh r0)) (Z.of_nat f) (fun k => inj (x0 (Z.to_nat (Z.of_nat d * k + Z.of_nat r0)))) (fun k => inj (y (Z.to_nat (Z.of_nat d * k + Z.of_nat r0))))).
  { refine (solves_ext _ _ _ _ _ _ _ SY). intros z Hz. rewrite La in Hz. pose (k := Z.to_nat z). assert (Ek : z = Z.of_nat k) by (subst k; lia). clearbody k. subst z.
    unfold reduced_inhomogeneous. replace (Z.of_nat d * Z.of_nat k + Z.of_nat r0)%Z with (Z.of_nat (d * k + r0)) by lia.
    assert (Hk : (f + c_order s <= d * k + r0)%nat) by nia. destruct (Di (fun _ => 0) (d * k + r0)%nat ltac:(lia)) as (g & Eg).
    rewrite <- (inhom_value I rho G HG s K inj Emb simplify expand Hsi Hex (f + c_order s) inh0 (d * k + r0) g D0 Hk Eg).
    pose proof (reduced_inhom I rho G HX HG lm ms rhs s Hs Ht H0 U Fi Hgcd r Nr rhs' inh_e Dt Rw Kp Lin f us Hus Dr (d * k + r0) g Hk Eg) as V. fold d in V.
    replace ((d * k + r0) mod d)%nat with r0 in V by (rewrite Nat.add_comm, Nat.mul_comm, Nat.mod_add, Nat.mod_small; lia).
    replace ((d * k + r0) / d)%nat with k in V by (rewrite Nat.add_comm, Nat.mul_comm, Nat.div_add, Nat.div_small; lia).
    exact (inhom_value I (upd rho r (INR r0)) G HG (MkC 0 [] 0%Z [] inh_e None) K inj Emb simplify expand Hsi Hex (f + q) (inh r0) k g Dn ltac:(lia) V). }
  rewrite (solves_unique _ _ _ _ _ _ SX SY' (Z.of_nat m)) by nia. f_equal. f_equal. lia.
Qed.
(** The values of the parts of the reduced inhomogeneous term exist. *)
Theorem reduced_values (I : interp) (rho : string -> R) (G : ginac) (HX : forall l, ifun I FX l = None) (HG : forall x, ginac_ok (with_x I x) G)
    (lm ms : Z) (rhs : expr) (s : cls) (Hs : classify G lm ms rhs = inr s) (Ht : c_type s = Some CONST_COEFF)
    (H0 : hd (Num 0%Qc) (c_coeffs s) = Num 0%Qc) (U : Forall unary_x (terms rhs)) (Fi : x_free (c_inhom s)) (Hgcd : (1 < c_gcd s)%Z)
    (r : string) (Nr : r <> "n"%string) (rhs' inh_e : expr) :
  let d := Z.to_nat (c_gcd s) in
  Forall (direct_term r d) (terms rhs) -> write_reduced_order_recurrence G r d rhs = Some (rhs', inh_e) ->
  (forall t t', In t (terms rhs) -> rewrite_term G r d t = Some t' -> has_x_of_n t' = has_x_of_n t) -> Forall linear_term (terms rhs) ->
  forall (K : Fld) (inj : R -> K), embedding K inj ->
  forall simplify expand : expr -> expr, (forall x e, refines (with_x I x) e (simplify e)) -> (forall x e, refines (with_x I x) e (expand e)) ->
  forall (f : nat) (us : list R), coefficient_values I rho (f + c_order s) (c_coeffs s) us -> defined_from I rho (f + c_order s) rhs ->
  forall r0, (r0 < d)%nat -> exists inh, decomposition_values I (upd rho r (INR r0)) inj (f + c_order s / d) (exp_poly_decomposition G simplify (expand inh_e) "n") inh.
Proof.
  intros d Dt Rw Kp Lin K inj Emb simplify expand Hsi Hex f us Hus Dr r0 Hr0. assert (Hd : (1 < d)%nat) by (subst d; lia). destruct (order_multiple G lm ms rhs s Hs U Hgcd) as (q & Hq). fold d in Hq.
  assert (Eqd : (c_order s / d = q)%nat) by (rewrite Hq; apply Nat.div_mul; lia). rewrite Eqd.
  apply (decomposition_exists0 I (upd rho r (INR r0)) G HG (MkC 0 [] 0%Z [] inh_e None) K inj Emb simplify expand Hsi Hex (f + q)). intros k Hk.
  assert (Hn : (f + c_order s <= d * k + r0)%nat) by nia.
  destruct (inhom_defined I rho G HX HG lm ms rhs s Hs Ht H0 U f us Hus Dr Fi (fun _ => 0) (d * k + r0)%nat ltac:(lia)) as (g & Eg).
  pose proof (reduced_inhom I rho G HX HG lm ms rhs s Hs Ht H0 U Fi Hgcd r Nr rhs' inh_e Dt Rw Kp Lin f us Hus Dr (d * k + r0) g Hn Eg) as V. fold d in V.
  replace ((d * k + r0) mod d)%nat with r0 in V by (rewrite Nat.add_comm, Nat.mul_comm, Nat.mod_add, Nat.mod_small; lia).
  replace ((d * k + r0) / d)%nat with k in V by (rewrite Nat.add_comm, Nat.mul_comm, Nat.div_add, Nat.div_small; lia).
  exists g. exact V.
Qed.
Theorem reduced_from (I : interp) (rho : string -> R) (G : ginac) (HX : forall l, ifun I FX l = None) (HG : forall x, ginac_ok (with_x I x) G)
    (lm ms : Z) (rhs : expr) (s : cls) (Hs : classify G lm ms rhs = inr s) (Ht : c_type s = Some CONST_COEFF)
    (H0 : hd (Num 0%Qc) (c_coeffs s) = Num 0%Qc) (U : Forall unary_x (terms rhs)) (Fi : x_free (c_inhom s)) (Hgcd : (1 < c_gcd s)%Z)
    (r : string) (Nr : r <> "n"%string) (rhs' inh_e : expr) :
  let d := Z.to_nat (c_gcd s) in
  Forall (direct_term r d) (terms rhs) -> write_reduced_order_recurrence G r d rhs = Some (rhs', inh_e) ->
  (forall t t', In t (terms rhs) -> rewrite_term G r d t = Some t' -> has_x_of_n t' = has_x_of_n t) -> Forall linear_term (terms rhs) ->
  forall (K : Fld) (inj : R -> K), embedding K inj ->
  forall simplify expand : expr -> expr, (forall x e, refines (with_x I x) e (simplify e)) -> (forall x e, refines (with_x I x) e (expand e)) ->
  forall (f : nat) (us : list R) (inh : nat -> list comp) ls gos find_roots numbers lcm others1 inh1 x0,
  coefficient_values I rho (f + c_order s) (c_coeffs s) us -> defined_from I rho (f + c_order s) rhs -> last us 1 <> 0 ->
  let l := exp_poly_decomposition G simplify (expand inh_e) "n" in
  let a := tl (reduced_coefficients d (f0 :: map inj us)) in
  (forall r0, (r0 < d)%nat -> decomposition_values I (upd rho r (INR r0)) inj (f + c_order s / d) l (inh r0) /\ Forall (fun c => cbase c <> f0) (inh r0) /\ summation_ok (hd f0 a) f (gos r0)) ->
  lsolve_ok ls -> (let p := build_characteristic_equation lcm (f0 :: a) in forall roots b, find_roots p = Some (roots, b) -> right_roots p roots b) -> lcm <> f0 ->
  (exists y, solution_with I rho rhs f (c_order s) x0 y) /\
  forall y, solution_with I rho rhs f (c_order s) x0 y -> (forall i, (d * f <= i < d * f + c_order s)%nat -> x0 i = y i) -> forall n v, (d * f <= n)%nat ->
  compute_exact_solution_finite_order ls gos find_roots numbers lcm (c_gcd s) (map inj us) others1 inh1 (not_all_polynomials l) inh f (fun z => inj (x0 (Z.to_nat z))) (Z.of_nat n) = Some v ->
  v = inj (y n).
Proof.
  intros d Dt Rw Kp Lin K inj Emb simplify expand Hsi Hex f us inh ls gos find_roots numbers lcm others1 inh1 x0 Hus Dr Hlast l a Hinh Hls Hrf Hlcm.
  unfold compute_exact_solution_finite_order. replace (1 <? c_gcd s)%Z with true by (symmetry; apply Z.ltb_lt; exact Hgcd).
  exact (reduced_right I rho G HX HG lm ms rhs s Hs Ht H0 U Fi Hgcd r Nr rhs' inh_e Dt Rw Kp Lin K inj Emb simplify expand Hsi Hex f us inh ls gos find_roots numbers lcm x0 Hus Dr Hlast Hinh Hls Hrf Hlcm).
Qed.
Theorem reduced_exact (I : interp) (rho : string -> R) (G : ginac) (HX : forall l, ifun I FX l = None) (HG : forall x, ginac_ok (with_x I x) G)
    (lm ms : Z) (rhs : expr) (s : cls) (Hs : classify G lm ms rhs = inr s) (Ht : c_type s = Some CONST_COEFF)
    (H0 : hd (Num 0%Qc) (c_coeffs s) = Num 0%Qc) (U : Forall unary_x (terms rhs)) (Fi : x_free (c_inhom s)) (Hgcd : (1 < c_gcd s)%Z)
    (r : string) (Nr : r <> "n"%string) (rhs' inh_e : expr) :
  let d := Z.to_nat (c_gcd s) in
  Forall (direct_term r d) (terms rhs) -> write_reduced_order_recurrence G r d rhs = Some (rhs', inh_e) ->
  (forall t t', In t (terms rhs) -> rewrite_term G r d t = Some t' -> has_x_of_n t' = has_x_of_n t) -> Forall linear_term (terms rhs) ->
  forall (K : Fld) (inj : R -> K), embedding K inj ->
  forall simplify expand : expr -> expr, (forall x e, refines (with_x I x) e (simplify e)) -> (forall x e, refines (with_x I x) e (expand e)) ->
  forall (us : list R) (inh : nat -> list comp) ls gos find_roots numbers lcm others1 inh1 x0,
  coefficient_values I rho (c_order s) (c_coeffs s) us -> defined_from I rho (c_order s) rhs -> last us 1 <> 0 ->
  let l := exp_poly_decomposition G simplify (expand inh_e) "n" in
  let a := tl (reduced_coefficients d (f0 :: map inj us)) in
  (forall r0, (r0 < d)%nat -> decomposition_values I (upd rho r (INR r0)) inj (c_order s / d) l (inh r0) /\ Forall (fun c => cbase c <> f0) (inh r0) /\ summation_ok (hd f0 a) 0 (gos r0)) ->
  lsolve_ok ls -> (let p := build_characteristic_equation lcm (f0 :: a) in forall roots b, find_roots p = Some (roots, b) -> right_roots p roots b) -> lcm <> f0 ->
  (exists y, solution_with I rho rhs 0 (c_order s) x0 y) /\
  forall y, solution_with I rho rhs 0 (c_order s) x0 y -> forall n v,
  compute_exact_solution_finite_order ls gos find_roots numbers lcm (c_gcd s) (map inj us) others1 inh1 (not_all_polynomials l) inh 0 (fun z => inj (x0 (Z.to_nat z))) (Z.of_nat n) = Some v ->
  v = inj (y n).
Proof.
  intros d Dt Rw Kp Lin K inj Emb simplify expand Hsi Hex us inh ls gos find_roots numbers lcm others1 inh1 x0 Hus Dr Hlast l a Hinh Hls Hrf Hlcm.
  destruct (reduced_from I rho G HX HG lm ms rhs s Hs Ht H0 U Fi Hgcd r Nr rhs' inh_e Dt Rw Kp Lin K inj Emb simplify expand Hsi Hex 0%nat us inh ls gos find_roots numbers lcm others1 inh1 x0 Hus Dr Hlast Hinh Hls Hrf Hlcm) as [A B].
  split; [exact A|]. intros y Hy n v. apply (B y Hy); [|lia]. intros i Hi. symmetry. apply (proj1 Hy). lia.
Qed.
Theorem not_reduced_exact (I : interp) (rho : string -> R) (G : ginac) (HX : forall l, ifun I FX l = None) (HG : forall x, ginac_ok (with_x I x) G)
    (lm ms : Z) (rhs : expr) (s : cls) (Hs : classify G lm ms rhs = inr s) (Ht : c_type s = Some CONST_COEFF)
    (H0 : hd (Num 0%Qc) (c_coeffs s) = Num 0%Qc) (U : Forall unary_x (terms rhs)) (Fi : x_free (c_inhom s)) (Hgcd : (c_gcd s <= 1)%Z) :
  forall (K : Fld) (inj : R -> K), embedding K inj ->
  forall simplify expand : expr -> expr, (forall x e, refines (with_x I x) e (simplify e)) -> (forall x e, refines (with_x I x) e (expand e)) ->
  forall (f : nat) (us : list R) (inh1 : list comp) ls gos find_roots numbers lcm others inh x0,
  coefficient_values I rho (f + c_order s) (c_coeffs s) us -> defined_from I rho (f + c_order s) rhs -> last us 1 <> 0 ->
  let l := exp_poly_decomposition G simplify (expand (c_inhom s)) "n" in
  decomposition_values I rho inj (f + c_order s) l inh1 -> Forall (fun c => cbase c <> f0) inh1 -> summation_ok (hd f0 (map inj us)) f (gos 0%nat) ->
  lsolve_ok ls -> (let p := build_characteristic_equation lcm (f0 :: map inj us) in forall roots d, find_roots p = Some (roots, d) -> right_roots p roots d) -> lcm <> f0 ->
  (exists y, solution_with I rho rhs f (c_order s) x0 y) /\
  forall y, solution_with I rho rhs f (c_order s) x0 y -> forall n v, (f <= n)%nat ->
  compute_exact_solution_finite_order ls gos find_roots numbers lcm (c_gcd s) (map inj us) (not_all_polynomials l) inh1 others inh f (fun z => inj (x0 (Z.to_nat z))) (Z.of_nat n) = Some v ->
  v = inj (y n).
Proof.
  intros K inj Emb simplify expand Hsi Hex f us inh1 ls gos find_roots numbers lcm others inh x0 Hus Dr Hlast l D Hb Hg Hls Hrf Hlcm.
  split; [exact (right_exists I rho G HX HG lm ms rhs s Hs Ht H0 U f us Hus Dr Fi x0)|]. intros y Hy n v Hn E.
  unfold compute_exact_solution_finite_order in E. destruct (Z.ltb_spec 1 (c_gcd s)) as [C|_]; [lia|].
  destruct (solve_linear_finite_order ls (gos 0%nat) find_roots numbers lcm (map inj us) (not_all_polynomials l) inh1 f (fun z => inj (x0 (Z.to_nat z)))) as [X|] eqn:EX; [|discriminate].
  assert (v = X (Z.of_nat n)) by congruence. subst v.
  exact (proj2 (solution_right I rho G HX HG lm ms rhs s Hs Ht H0 U Fi K inj Emb simplify expand Hsi Hex f us inh1 ls (gos 0%nat) find_roots numbers lcm X x0 Hus Dr D Hb Hlast Hls Hrf Hlcm Hg EX) y Hy n Hn).
Qed.
