(** Proofs of the statements on rational roots, multiplicities and pure powers. *)
From Coq Require Import ZArith QArith Qcanon Qfield List Bool Lia Reals Lra Field Arith.
From Coquelicot Require Import Complex.
From Verif Require Import IntUtilModel Ast ExprModel ExprProofs1 Fld FPoly PolyMore CplxF RootModel RootSpec RootProofs RootProofs2 FindRootModel FindRootSpec NestedProofs RatRootProofs SearchProofs FindRootProofs FindRootProofs2.
Import ListNotations.
Local Open Scope list_scope.
Local Open Scope nat_scope.

Lemma small_zq z : (Z.abs z < 121)%Z -> small (zq z) = true.
Proof.
  intros H. unfold small. apply q_lt_spec.
  assert (A : qabs (zq z) = zq (Z.abs z)).
  { unfold qabs. destruct (q_lt (zq z) 0) eqn:E.
    - apply q_lt_spec in E. rewrite rv_zq, rv_0 in E. apply lt_IZR in E. rewrite Z.abs_neq by lia. symmetry. apply zq_opp.
    - apply q_lt_false in E. rewrite rv_zq, rv_0 in E. apply le_IZR in E. rewrite Z.abs_eq by lia. reflexivity. }
  rewrite A, !rv_zq. apply IZR_lt. unfold FIND_DIVISORS_THRESHOLD, FIND_DIVISORS_MAX. lia.
Qed.
Lemma last_cons_ne (c : Qc) (p : list Qc) d : p <> [] -> last (c :: p) d = last p d.
Proof. destruct p; [congruence|reflexivity]. Qed.

Section Find.
Variable poly_factor : poly -> list poly.

(** The ends of q, once the root 0 has been removed. *)
Lemma started_small p q z : proper p -> end_coefficients_below 121 p -> started p q z -> z = [] /\ q = p \/ z = [0%Qc] /\ p = 0%Qc :: q ->
  small (lcoeff q) = true /\ small (coeff q 0) = true.
Proof.
  intros HP (lc & tc & E1 & E2 & E3 & E4 & E5) (PQ & IQ & SQ & Q0 & LQ & VQ) HT. rewrite proper_lcoeff by auto.
  destruct HT as [[-> ->]|[-> ->]].
  - rewrite E1. split; [apply small_zq; auto|]. destruct E5 as [E5|[E5 _]]; [|contradiction]. assert (E6 : coeff p 0 = zq tc) by exact E5. rewrite E6. apply small_zq; auto.
  - rewrite last_cons_ne in E1 by apply PQ. rewrite E1. split; [apply small_zq; auto|]. cbn [nth] in E5. destruct E5 as [E5|[_ E5]].
    + exfalso. apply E2. apply zq_inj. rewrite <- E5. symmetry. apply zq_0.
    + assert (E6 : coeff q 0 = zq tc) by exact E5. rewrite E6. apply small_zq; auto.
Qed.

Hypothesis HPF : factorizer_ok poly_factor.
Lemma in_qC_root p q z r : started p q z -> pval p (qC r) = RtoC 0 -> In r z \/ peval (K:=QcF) q r = 0%Qc.
Proof.
  intros (PQ & IQ & SQ & Q0 & LQ & VQ) H. rewrite VQ in H. apply C_eq0 in H. destruct H as [H|H]; [right; apply peval_of_pval; auto|left].
  clear - H. induction z as [|a z IH]; cbn [map lin_prod fold_right] in H.
  - exfalso. revert H. apply (one_neq_zero (K:=CF)).
  - apply C_eq0 in H. destruct H as [H|H]; [left|right; auto]. apply qC_inj. symmetry. apply (sub_eq0 (K:=CF)). exact H.
Qed.
Lemma complete fuel p roots m b roots' : proper p -> integer_coefficients p -> square_free p -> end_coefficients_below 121 p ->
  find_roots poly_factor fuel p roots m = Some (b, roots') ->
  exists new, roots' = roots ++ new /\ forall r, pval p (qC r) = RtoC 0 -> In (MkRoot (Rational r) m) new.
Proof.
  intros HP HI HS HE H. destruct fuel as [|fuel]; [discriminate|]. cbn [find_roots] in H.
  destruct (start_ok poly_factor _ p roots m b roots' HP HI HS H) as (q & z & [HST HZ] & HC). clear H.
  pose proof (started_small p q z HP HE HST HZ) as [S1 S2]. pose proof (in_qC_root p q z) as IR.
  assert (ZR : forall r, In r z -> In (MkRoot (Rational r) m) (map (rational_root m) z)) by (intros r Hr; apply in_map_iff; exists r; auto).
  pose proof HST as (PQ & IQ & SQ & Q0 & LQ & VQ).
  destruct HC as [(D0 & Hz & -> & ->)|(_ & H)].
  { exists (map (rational_root m) z). split; auto. intros r Hr. destruct (IR r HST Hr) as [X|X]; auto.
    pose proof (root_length q r PQ X). pose proof (proper_list q 0 PQ D0). tq. lia. }
  enough (X : exists new, roots' = (roots ++ map (rational_root m) z) ++ new /\ forall r, peval (K:=QcF) q r = 0%Qc -> In (MkRoot (Rational r) m) new).
  { destruct X as (new & -> & X). exists (map (rational_root m) z ++ new). split; [symmetry; apply app_assoc|]. intros r Hr. apply in_or_app. destruct (IR r HST Hr); auto. }
  set (rs := roots ++ map (rational_root m) z) in *. clearbody rs. unfold after_start in H.
  destruct (Nat.eqb_spec (degree q) 1) as [D1|D1].
  { match type of H with Some (true, ?a) = _ => assert (a = roots' /\ b = true) as [<- ->] by (split; congruence) end. eexists. split; [reflexivity|].
    intros r Hr. pose proof (proper_list q 1 PQ D1) as L. pose proof (proper_lcoeff q PQ) as LL.
    assert (NZ : lcoeff q <> 0%Qc) by (rewrite LL; apply PQ). clear - L LL NZ Hr.
    destruct q as [|c [|d [|? ?]]]; cbn [length] in L; try lia. cbn [last] in LL. unfold coeff. cbn [nth]. rewrite LL in *. left. f_equal. f_equal.
    change (car QcF) with Qc in *. assert (E : (c + r * d)%Qc = (c + r * (d + r * 0))%Qc) by ring.
    assert (Hr' : (c + r * (d + r * 0))%Qc = 0%Qc) by exact Hr. rewrite Hr' in E.
    assert (c = (- (r * d))%Qc) by (replace c with ((c + r * d) - r * d)%Qc by ring; rewrite E; ring). subst c. change (car QcF) with Qc in *. field. auto. }
  rewrite S1, S2 in H. cbn [andb] in H.
  destruct (divisors (lcoeff q)) as [ls|] eqn:DL; [|discriminate]. destruct (divisors (coeff q 0)) as [ts|] eqn:DT; [|discriminate].
  destruct (search m ls ts (q, rs)) as [q' rs'] eqn:SE.
  destruct (Nat.eq_dec (degree q) 0) as [D0|D0].
  { assert (NR : forall r, peval (K:=QcF) q r <> 0%Qc).
    { intros r X. pose proof (root_length q r PQ X). pose proof (proper_list q 0 PQ D0). tq. lia. }
    rewrite search_tries in SE. destruct (tries_ok _ _ _ _ _ _ SE PQ) as (new & -> & P1 & L1 & _ & _ & V1 & _).
    pose proof (proper_list q 0 PQ D0). pose proof (proper_length q' P1). tq.
    assert (DQ : degree q' = 0) by (pose proof (proper_degree q' P1); tq; lia). rewrite DQ in H. cbn [Nat.eqb] in H.
    exists (map (rational_root m) new). split; [congruence|]. intros r Hr. destruct (NR r Hr). }
  assert (L2 : 2 <= length q) by (pose proof (proper_list q _ PQ eq_refl); tq; lia).
  destruct (no_rational_root_after q m ls ts rs q' rs' PQ IQ SQ L2 Q0 S1 S2 DL DT SE) as (new & -> & P1 & L1 & I1 & SF & V1 & NR & RT).
  assert (RN : forall r, peval (K:=QcF) q r = 0%Qc -> In (MkRoot (Rational r) m) (map (rational_root m) new)).
  { intros r Hr. apply in_map_iff. exists r. split; auto. apply RT; auto. }
  enough (X : exists nn, roots' = (rs ++ map (rational_root m) new) ++ nn).
  { destruct X as (nn & ->). exists (map (rational_root m) new ++ nn). split; [symmetry; apply app_assoc|]. intros r Hr. apply in_or_app. left. auto. }
  destruct (degree q' =? 0); [exists []; rewrite app_nil_r; congruence|].
  destruct (is_monomial q).
  - destruct (solve_monomial_irrational _ _ _ _) as [l|] eqn:SMI; [|discriminate].
    assert (l = roots' /\ b = true) as [-> ->] by (split; congruence). unfold solve_monomial_irrational in SMI.
    destruct (2 <? _); [discriminate|]. destruct (signs _ _ _) as [[pos neg]|]; [|discriminate]. eexists. assert (X : forall a : list root, Some a = Some roots' -> roots' = a) by congruence. exact (X _ SMI).
  - destruct (rest_ok poly_factor HPF (find_roots poly_factor fuel) q' (rs ++ map (rational_root m) new) m b roots') as (nn & -> & A); auto.
    + apply find_roots_ok. exact HPF.
    + intros D1'. pose proof (adds_linear q' m P1 D1') as (AL & _). apply (NR (- coeff q' 0 / lcoeff q')%Qc). eapply AL; [left; reflexivity|reflexivity].
    + exists nn. auto.
Qed.
End Find.
