(** Proofs on multiplicities. *)
From Coq Require Import ZArith QArith Qcanon Qfield List Bool Lia Reals Lra Field Arith Permutation.
From Coquelicot Require Import Complex.
From Verif Require Import IntUtilModel Ast ExprModel ExprProofs1 Fld FPoly PolyMore CplxF RootModel RootSpec RootProofs RootProofs2 FindRootModel FindRootSpec NestedProofs RatRootProofs SearchProofs FindRootProofs FindRootProofs2 FindRootProofs3.
Import ListNotations.
Local Open Scope list_scope.
Local Open Scope nat_scope.

Lemma same_length (u v : list C) : normal (K:=CF) u -> normal (K:=CF) v -> (forall x, peval (K:=CF) u x = peval (K:=CF) v x) -> length u = length v.
Proof.
  intros [U1 U2] [V1 V2] E. pose proof (nth_peval_ext (K:=CF) u v E) as N.
  rewrite (last_nth (K:=CF)) in U2, V2.
  assert (L1 : length u <= length v).
  { destruct (Nat.le_gt_cases (length u) (length v)) as [|L]; auto. exfalso. apply U2. rewrite N. apply nth_overflow. change (car CF) with C. lia. }
  assert (L2 : length v <= length u).
  { destruct (Nat.le_gt_cases (length v) (length u)) as [|L]; auto. exfalso. apply V2. rewrite <- N. apply nth_overflow. change (car CF) with C. lia. }
  lia.
Qed.
Lemma last_pmul_linear (a : C) (p : list C) : p <> [] -> length (pmul (K:=CF) [(- a)%C; RtoC 1] p) = S (length p) /\ last (pmul (K:=CF) [(- a)%C; RtoC 1] p) (RtoC 0) = last p (RtoC 0).
Proof.
  intros H. assert (L : length (pmul (K:=CF) [(- a)%C; RtoC 1] p) = S (length p)).
  { rewrite (length_pmul (K:=CF)) by (auto; discriminate). cbn [length]. change (car CF) with C in *. lia. }
  split; auto.
  pose proof (last_nth (K:=CF) (pmul (K:=CF) [(- a)%C; RtoC 1] p)) as A. pose proof (last_nth (K:=CF) p) as B.
  change (@f0 CF) with (RtoC 0) in A, B. change (car CF) with C in *. rewrite A, B, L. cbn [Nat.pred pmul].
  pose proof (nth_padd (K:=CF) (pscal (K:=CF) (- a)%C p) ((@f0 CF) :: padd (K:=CF) (pscal (K:=CF) (RtoC 1) p) [@f0 CF]) (length p)) as N.
  refine (eq_trans N _). rewrite (nth_pscal (K:=CF)). rewrite (nth_overflow p) by (change (car CF) with C; lia).
  destruct (length p) as [|l] eqn:LP; [destruct p; cbn in LP; congruence|]. cbn [nth Nat.pred].
  rewrite (nth_padd (K:=CF)), (nth_pscal (K:=CF)). assert (Z : nth l [@f0 CF] (@f0 CF) = @f0 CF) by (destruct l as [|[|l]]; reflexivity). rewrite Z. toC.
  ring.
Qed.
Lemma lin_poly_normal l : length (lin_poly l) = S (length l) /\ last (lin_poly l) (RtoC 0) = RtoC 1.
Proof.
  induction l as [|a l [I1 I2]]; [split; reflexivity|]. cbn [lin_poly length].
  destruct (last_pmul_linear a (lin_poly l)) as [A B]; [intros X; rewrite X in I1; discriminate|]. split; [exact (eq_trans A (f_equal S I1))|exact (eq_trans B I2)].
Qed.
Lemma product_length (p : list Qc) (k : C) (l : list C) : proper p -> k <> RtoC 0 -> (forall x, pval p x = (k * lin_prod (K:=CF) l x)%C) -> length p = S (length l).
Proof.
  intros HP Hk V. destruct (lin_poly_normal l) as [I1 I2].
  rewrite <- (map_length qC p), <- I1, <- (map_length (Cmult k) (lin_poly l)). apply same_length.
  - apply proper_map; auto.
  - split; [intros X; apply (f_equal (@length C)) in X; rewrite map_length, I1 in X; discriminate|].
    rewrite (last_nth (K:=CF)), map_length.
    assert (E : nth (pred (length (lin_poly l))) (map (Cmult k) (lin_poly l)) (@f0 CF) = (k * nth (pred (length (lin_poly l))) (lin_poly l) (RtoC 0))%C) by (apply (nth_pscal (K:=CF) k)).
    change (car CF) with C. rewrite E. pose proof (last_nth (K:=CF) (lin_poly l)) as B. change (@f0 CF) with (RtoC 0) in B. change (car CF) with C in B. rewrite <- B, I2.
    intros X. apply Hk. rewrite <- (Cmult_1_r k). exact X.
  - intros x. refine (eq_trans (V x) _). rewrite <- peval_lin_poly. symmetry. apply (peval_pscal (K:=CF) k).
Qed.

Section Find.
Variable poly_factor : poly -> list poly.
Lemma split_found fuel p roots m l : proper p -> integer_coefficients p -> square_free p -> end_coefficients_below 121 p -> splits_over_Q p l ->
  exists l', Permutation l l' /\ find_roots poly_factor (S fuel) p roots m = Some (true, roots ++ map (rational_root m) l').
Proof.
  intros HP HI HS HE [ND (k & Hk & V)].
  assert (V' : forall x, pval p x = (k * lin_prod (K:=CF) (map qC l) x)%C).
  { intros x. rewrite V, lp_cprod, cprod_map. reflexivity. }
  pose proof (product_length p k (map qC l) HP Hk V') as LP. rewrite map_length in LP.
  assert (RL : forall r, In r l -> pval p (qC r) = RtoC 0).
  { intros r Hr. rewrite V', lp_cprod, cprod_map. apply in_split in Hr. destruct Hr as (u & v & ->). rewrite cprod_app, cprod_cons. ring. }
  assert (FIN : forall q z l', started p q z -> (forall r, In r l -> In r l') -> length l' <= length l -> Permutation l l').
  { intros q z l' _ H1 H2. apply NoDup_Permutation_bis; auto. }
  destruct (start_eq poly_factor (find_roots poly_factor fuel) p roots m HP HI HS) as (q & z & [HST HZ] & HC).
  pose proof (started_small p q z HP HE HST HZ) as [S1 S2].
  assert (IR : forall r, In r l -> In r z \/ peval (K:=QcF) q r = 0%Qc) by (intros r Hr; apply (in_qC_root p q z); auto).
  pose proof HST as (PQ & IQ & SQ & Q0 & LQ & VQ). cbn [find_roots].
  destruct HC as [(D0 & Hz & ->)|(_ & ->)].
  { exists z. split; auto. apply (FIN q z z HST).
    - intros r Hr. destruct (IR r Hr) as [|X]; auto. pose proof (root_length q r PQ X). pose proof (proper_list q 0 PQ D0). tq. lia.
    - pose proof (proper_list q 0 PQ D0). tq. lia. }
  unfold after_start. destruct (Nat.eqb_spec (degree q) 1) as [D1|D1].
  { exists (z ++ [(- coeff q 0 / lcoeff q)%Qc]). rewrite map_app, app_assoc. split; [|reflexivity]. apply (FIN q z _ HST).
    - intros r Hr. apply in_or_app. destruct (IR r Hr) as [X|X]; auto. right. left.
      pose proof (proper_list q 1 PQ D1) as L. pose proof (proper_lcoeff q PQ) as LL.
      assert (NZ : lcoeff q <> 0%Qc) by (rewrite LL; apply PQ). clear - L LL NZ X.
      destruct q as [|c [|d [|? ?]]]; cbn [length] in L; try lia. cbn [last] in LL. unfold coeff. cbn [nth]. rewrite LL in *.
      change (car QcF) with Qc in *. assert (E : (c + r * d)%Qc = (c + r * (d + r * 0))%Qc) by ring.
      assert (X' : (c + r * (d + r * 0))%Qc = 0%Qc) by exact X. rewrite X' in E.
      assert (c = (- (r * d))%Qc) by (replace c with ((c + r * d) - r * d)%Qc by ring; rewrite E; ring). subst c. field. auto.
    - rewrite app_length. cbn [length]. pose proof (proper_list q 1 PQ D1). tq. lia. }
  rewrite S1, S2. cbn [andb].
  assert (CI : forall i, exists zz, coeff q i = zq zz).
  { intros i. unfold coeff. destruct (Nat.lt_ge_cases i (length q)) as [L|L].
    - exact (proj1 (Forall_forall _ _) IQ _ (nth_In q 0%Qc L)).
    - rewrite nth_overflow by auto. exists 0%Z. symmetry. apply zq_0. }
  assert (NL : lcoeff q <> 0%Qc) by (rewrite proper_lcoeff by auto; apply PQ).
  destruct (divisors_defined (lcoeff q) S1 (CI _) NL) as [ls DL]. destruct (divisors_defined (coeff q 0) S2 (CI _) Q0) as [ts DT]. rewrite DL, DT.
  destruct (search m ls ts (q, roots ++ map (rational_root m) z)) as [q' rs'] eqn:SE.
  assert (FOUND : exists new, rs' = (roots ++ map (rational_root m) z) ++ map (rational_root m) new /\ proper q' /\ length q = length q' + length new /\ forall r, peval (K:=QcF) q r = 0%Qc -> In r new).
  { destruct (Nat.eq_dec (degree q) 0) as [D0|D0].
    - rewrite search_tries in SE. destruct (tries_ok _ _ _ _ _ _ SE PQ) as (new & E1 & P1 & L1 & _).
      exists new. split; auto. split; auto. split; auto. intros r X. pose proof (root_length q r PQ X). pose proof (proper_list q 0 PQ D0). tq. lia.
    - assert (L2 : 2 <= length q) by (pose proof (proper_list q _ PQ eq_refl); tq; lia).
      destruct (no_rational_root_after q m ls ts _ q' rs' PQ IQ SQ L2 Q0 S1 S2 DL DT SE) as (new & E1 & P1 & L1 & I1 & SF & V1 & NR & RT).
      exists new. split; auto. split; auto. split; auto. intros r X. apply RT; auto. }
  destruct FOUND as (new & -> & P1 & L1 & RN).
  assert (SUB : forall r, In r l -> In r (z ++ new)) by (intros r Hr; apply in_or_app; destruct (IR r Hr); auto).
  pose proof (NoDup_incl_length ND SUB) as LE. rewrite app_length in LE. pose proof (proper_length q' P1) as LP'.
  assert (D0 : degree q' = 0) by (pose proof (proper_degree q' P1); tq; lia). rewrite D0. cbn [Nat.eqb].
  exists (z ++ new). rewrite map_app, app_assoc. split; [|reflexivity]. apply (FIN q z _ HST); auto. rewrite app_length. tq. lia.
Qed.

Lemma rp_app u v x : root_product (u ++ v) x = (root_product u x * root_product v x)%C.
Proof. apply (cprod_app (fun r => fpow (K:=CF) (x - rvalue r)%C (multiplicity r)) u v). Qed.
Lemma rp_rational m l x : root_product (map (rational_root m) l) x = fpow (K:=CF) (lin_prod (K:=CF) (map qC l) x) m.
Proof.
  induction l as [|a l IH]; [symmetry; apply (fpow_1l (K:=CF))|].
  change (root_product (map (rational_root m) (a :: l)) x) with (fpow (K:=CF) (x - qC a)%C m * root_product (map (rational_root m) l) x)%C.
  rewrite IH. symmetry. apply (fpow_mul_l (K:=CF)).
Qed.
Lemma lin_prod_perm (l l' : list Qc) x : Permutation l l' -> lin_prod (K:=CF) (map qC l) x = lin_prod (K:=CF) (map qC l') x.
Proof.
  rewrite !lp_cprod, !cprod_map. intros H. induction H as [|a l l' H IH|a b l|l1 l2 l3 H1 IH1 H2 IH2].
  - reflexivity.
  - rewrite !cprod_cons, IH. reflexivity.
  - rewrite !cprod_cons. cring.
  - congruence.
Qed.
(** Products of factors that split. *)
Lemma product_split fuel l : forall roots,
  (forall f e, In (f, e) l -> proper f /\ integer_coefficients f /\ square_free f /\ end_coefficients_below 121 f /\ exists rs, splits_over_Q f rs) ->
  exists new, product_roots poly_factor (S fuel) l roots = Some (true, roots ++ new) /\
    exists k : C, k <> RtoC 0 /\ forall x, fold_right (fun fe acc => fpow (K:=CF) (pval (fst fe) x) (snd fe) * acc)%C (RtoC 1) l = (k * root_product new x)%C.
Proof.
  induction l as [|[f e] l IH]; intros roots H.
  - exists []. cbn [product_roots]. rewrite app_nil_r. split; auto. exists (RtoC 1). split; [apply RtoC_neq; lra|]. intros x. cbn. ring.
  - destruct (H f e) as (A1 & A2 & A3 & A4 & rs & A5); [left; auto|].
    destruct (split_found fuel f roots e rs A1 A2 A3 A4 A5) as (l' & PM & E). cbn [product_roots]. rewrite E.
    destruct (IH (roots ++ map (rational_root e) l')) as (new & E2 & k2 & K2 & V2); [intros g d Hg; apply (H g d); right; auto|].
    rewrite E2. exists (map (rational_root e) l' ++ new). rewrite app_assoc. split; auto.
    destruct A5 as [_ (k & Hk & V)]. exists (fpow (K:=CF) k e * k2)%C. split; [apply Cmult_neq_0; auto; apply (fpow_neq0 (K:=CF)); auto|].
    intros x. cbn [fold_right fst snd]. rewrite V2, V, rp_app, rp_rational, <- (lin_prod_perm rs l' x PM).
    assert (LP : fold_right (fun a acc => (x - qC a) * acc)%C (RtoC 1) rs = lin_prod (K:=CF) (map qC rs) x) by (rewrite lp_cprod, cprod_map; reflexivity).
    rewrite LP. pose proof (fpow_mul_l (K:=CF) k (lin_prod (K:=CF) (map qC rs) x) e) as X. toC. rewrite X.
    cgen (fpow (K:=CF) k e). cgen (fpow (K:=CF) (lin_prod (K:=CF) (map qC rs) x) e). ring.
Qed.

Hypothesis HPF : factorizer_ok poly_factor.
Lemma simple_ok fuel p roots d : proper p -> integer_coefficients p -> square_free p -> no_pure_power_factor p ->
  find_roots_top poly_factor fuel (SAdd p) = Some (true, roots, d) ->
  d = true /\ exists k : C, k <> RtoC 0 /\ forall x, pval p x = (k * root_product roots x)%C.
Proof.
  intros HP HI HS HN H. unfold find_roots_top in H. destruct (find_roots poly_factor fuel p [] 1) as [[b l]|] eqn:E; [|discriminate].
  assert (b = true /\ l = roots /\ d = true) as (-> & -> & ->) by (repeat split; congruence).
  destruct (find_roots_ok poly_factor HPF fuel p [] 1 true roots HP HI HS E) as (new & E1 & _ & A2 & A3). cbn [app] in E1. subst new.
  split; auto. destruct (A3 HN eq_refl) as (k & Hk & V). exists k. split; auto. intros x. rewrite V. f_equal.
  specialize (A2 eq_refl). clear - A2. induction roots as [|r l IH]; [reflexivity|]. rewrite lf_cons, IH by (intros; apply A2; right; auto).
  change (root_product (r :: l) x) with (fpow (K:=CF) (x - rvalue r)%C (multiplicity r) * root_product l x)%C. rewrite (A2 r) by (left; auto).
  cbn [fpow]. cring.
Qed.
(** The values, when the multiplicities may be lost. *)
Lemma lf_zero l z : linear_factors l z = RtoC 0 <-> exists r, In r l /\ rvalue r = z.
Proof.
  induction l as [|r l IH].
  - split; [intros H; exfalso; revert H; apply (one_neq_zero (K:=CF))|intros (r & [] & _)].
  - rewrite lf_cons. split.
    + intros H. apply C_eq0 in H. destruct H as [H|H]; [exists r; split; [left; auto|]; symmetry; apply (sub_eq0 (K:=CF)); exact H|].
      apply IH in H. destruct H as (r' & H1 & H2). exists r'. split; [right|]; auto.
    + intros (r' & [<-|H] & E); [rewrite E; ring|]. rewrite (proj2 IH); [ring|]. exists r'. auto.
Qed.
Lemma product_values fuel l : forall roots roots',
  (forall f e, In (f, e) l -> proper f /\ integer_coefficients f /\ square_free f /\ no_pure_power_factor f) ->
  product_roots poly_factor fuel l roots = Some (true, roots') ->
  exists new, roots' = roots ++ new /\ forall z, (exists r, In r new /\ rvalue r = z) <-> exists f e, In (f, e) l /\ pval f z = RtoC 0.
Proof.
  induction l as [|[f e] l IH]; intros roots roots' H E; cbn [product_roots] in E.
  - exists []. rewrite app_nil_r. split; [congruence|]. intros z. split; [intros (r & [] & _)|intros (f & e & [] & _)].
  - destruct (find_roots poly_factor fuel f roots e) as [[[|] l1]|] eqn:E1; try discriminate.
    destruct (H f e) as (A1 & A2 & A3 & A4); [left; auto|].
    destruct (find_roots_ok poly_factor HPF fuel f roots e true l1 A1 A2 A3 E1) as (n1 & -> & _ & _ & B3).
    destruct (IH (roots ++ n1) roots') as (n2 & -> & V2); auto; [intros g d Hg; apply (H g d); right; auto|].
    exists (n1 ++ n2). split; [symmetry; apply app_assoc|]. intros z. destruct (B3 A4 eq_refl) as (k & Hk & V).
    assert (Z1 : (exists r, In r n1 /\ rvalue r = z) <-> pval f z = RtoC 0).
    { rewrite <- lf_zero, V. split; intros X; [rewrite X; ring|]. apply C_eq0 in X. destruct X; [contradiction|auto]. }
    specialize (V2 z). split.
    + intros (r & Hr & Ez). apply in_app_or in Hr. destruct Hr as [Hr|Hr].
      * exists f, e. split; [left; auto|]. apply Z1. eauto.
      * destruct (proj1 V2) as (g & d & Hg & Vg); eauto. exists g, d. split; [right|]; auto.
    + intros (g & d & [X|Hg] & Vg).
      * assert (g = f) by congruence. subst g. destruct (proj2 Z1 Vg) as (r & Hr & Ez). exists r. split; auto. apply in_or_app; auto.
      * destruct (proj2 V2) as (r & Hr & Ez); eauto. exists r. split; auto. apply in_or_app; auto.
Qed.
Lemma power_values fuel p e roots d : proper p -> integer_coefficients p -> square_free p -> no_pure_power_factor p ->
  find_roots_top poly_factor fuel (SPow p e) = Some (true, roots, d) -> forall z, (exists r, In r roots /\ rvalue r = z) <-> pval p z = RtoC 0.
Proof.
  intros HP HI HS HN H z. unfold find_roots_top in H. destruct (find_roots poly_factor fuel p [] e) as [[b l]|] eqn:E; [|discriminate].
  assert (b = true /\ l = roots /\ d = false) as (-> & -> & ->) by (repeat split; congruence).
  destruct (find_roots_ok poly_factor HPF fuel p [] e true roots HP HI HS E) as (new & E1 & _ & _ & A3). cbn [app] in E1. subst new.
  destruct (A3 HN eq_refl) as (k & Hk & V). rewrite <- lf_zero, V. split; intros X; [rewrite X; ring|]. apply C_eq0 in X. destruct X; [contradiction|auto].
Qed.
End Find.
