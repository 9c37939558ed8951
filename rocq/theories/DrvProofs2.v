From Coq Require Import ZArith QArith Qcanon Reals List String Bool Lia Lra.
From Verif Require Import Ast ExprModel ExprSpec ExprProofs1 SeqInterp ElimModel ElimSpec ClassModel DomModel DomSpec DomProofs DrvModel DrvSpec.
Import ListNotations.
Local Open Scope list_scope.
Local Open Scope R_scope.

Section Proofs.
Context (G : ginac) (numerator denominator expand : expr -> expr) (roots : string -> expr -> list Qc) (fuel : nat) (I : interp) (rho : string -> R).
Notation fvi := (first_valid_index G numerator denominator expand roots fuel).
Notation tame := (tame I rho "n" G numerator denominator expand roots).
Hypothesis Std : standard I.
Hypothesis Hsub : forall p, is_polynomial "n" p = true -> has "n" p = true -> is_polynomial "n" (gsub G p (Num 1)) = true /\ has "n" (gsub G p (Num 1)) = true.
Lemma raise_ge_n e z z' : raise_index G numerator denominator expand roots fuel e z = Some z' -> (z <= z')%Z.
Proof.
  unfold raise_index. destruct (find_domain_in_N _ _ _ _ _ _ _ _ _) as [[[|] z1]|] eqn:E; try discriminate. intros [= <-]. eapply find_domain_ge; eauto.
Qed.
Lemma raise_sound nz e z z' Z0 : raise_index G numerator denominator expand roots fuel e z = Some z' -> (z' <= Z0)%Z ->
  quotient I e (expand (numerator e)) (expand (denominator e)) -> tame Z0 nz (expand (numerator e)) -> tame Z0 true (expand (denominator e)) -> defined_after I rho "n" nz Z0 e.
Proof using Std Hsub.
  unfold raise_index. destruct (find_domain_in_N _ _ _ _ _ _ _ _ _) as [[[|] z1]|] eqn:E; try discriminate. intros [= <-] Hz Q Tn Td n Hn.
  unfold find_domain_in_N, find_domain_with in E. destruct (on_expanded G numerator denominator expand roots fuel "n" (expand (numerator e)) z) as [[[|] z2]|] eqn:E1; try easy.
  assert (Hz1 : (z2 <= z1)%Z) by (eapply on_expanded_ge; eauto).
  assert (Hz2 : (z2 <= Z0)%Z) by lia.
  destruct (on_expanded_sound G numerator denominator expand roots "n" I rho Std Hsub fuel _ _ _ _ _ E1 Hz2 Tn n Hn) as (u & Hu & Nu).
  destruct (on_expanded_sound G numerator denominator expand roots "n" I rho Std Hsub fuel _ _ _ _ _ E Hz Td n Hn) as (w & Hw & Nw).
  exists (u / w). split; [exact (Q _ u w Hu Hw (Nw eq_refl))|]. intros N. specialize (Nu N). specialize (Nw eq_refl). unfold Rdiv. apply Rmult_integral_contrapositive_currified; [exact Nu|]. now apply Rinv_neq_0_compat.
Qed.
Lemma homogeneous_ge l : forall z z', check_homogeneous G numerator denominator expand roots fuel l z = Some z' -> (z <= z')%Z.
Proof.
  induction l as [|[d a] l IH]; intros z z' H; cbn in H; [assert (z = z') by congruence; lia|]. destruct (raise_index _ _ _ _ _ _ a z) as [z1|] eqn:E; [|discriminate]. apply raise_ge_n in E. apply IH in H. lia.
Qed.
Theorem index_range s z : fvi s = Some z -> (0 <= z)%Z /\ (c_type s = Some FUNCTIONAL -> (1 <= z)%Z) /\ (c_type s <> Some FUNCTIONAL -> c_order s = 0%nat -> z = 0%Z).
Proof using.
  unfold first_valid_index. destruct (c_type s) as [[]|] eqn:T; intros H.
  4:{ destruct (check_homogeneous _ _ _ _ _ _ _ _) as [z0|] eqn:E; [|discriminate]. assert (z = Z.max z0 1) by congruence. split; [lia|]. split; [lia|]. intros C. now elim C. }
  all: (assert (P : (0 <= z)%Z /\ (c_order s = 0%nat -> z = 0%Z))); [|split; [tauto|]; split; [discriminate|tauto]].
  all: destruct (Nat.ltb 0 (c_order s)) eqn:O; [|assert (z = 0%Z) by congruence; split; [lia|auto]].
  all: apply Nat.ltb_lt in O; split; [|lia].
  all: destruct (check_inhomogeneous _ _ _ _ _ _ _ _) as [z0|] eqn:E; [|discriminate].
  all: assert (Z0 : (0 <= z0)%Z) by (unfold check_inhomogeneous in E; destruct (is_num 0 _); [assert (0 = z0)%Z by congruence; lia|]; cbv zeta in E; destruct (has_parameters _); [discriminate|]; now apply raise_ge_n in E).
  all: unfold check_coefficient in H; rewrite T in H; cbv zeta in H.
  all: try (assert (z = z0) by congruence; lia).
  destruct (Nat.eqb (c_order s) 1); [|assert (z = z0) by congruence; lia]. destruct (has_parameters _); [discriminate|]. apply raise_ge_n in H. lia.
Qed.
Lemma linear_split s z : fvi s = Some z -> c_type s <> Some FUNCTIONAL -> (0 < c_order s)%nat -> exists z0, check_inhomogeneous G numerator denominator expand roots fuel (c_inhom s) 0 = Some z0 /\
  check_coefficient G numerator denominator expand roots fuel s z0 = Some z.
Proof using.
  unfold first_valid_index. intros H N O. apply Nat.ltb_lt in O. rewrite O in H. destruct (c_type s) as [[]|]; try contradiction; (destruct (check_inhomogeneous _ _ _ _ _ _ _ _) as [z0|] eqn:E; [eauto|discriminate]).
Qed.
Lemma coefficient_ge s z z' : check_coefficient G numerator denominator expand roots fuel s z = Some z' -> (z <= z')%Z.
Proof using.
  unfold check_coefficient. destruct (c_type s) as [[]|]; try (intros H; assert (z = z') by congruence; lia). destruct (Nat.eqb (c_order s) 1); [|intros H; assert (z = z') by congruence; lia].
  cbv zeta. destruct (has_parameters _); [discriminate|]. apply raise_ge_n.
Qed.
Theorem inhomogeneous_defined s z : fvi s = Some z -> c_type s <> Some FUNCTIONAL -> (0 < c_order s)%nat ->
  let g := c_inhom s in let d := denominator g in
  quotient I g (numerator g) d -> quotient I d (expand (numerator d)) (expand (denominator d)) -> tame z true (expand (numerator d)) -> tame z true (expand (denominator d)) ->
  forall n, (z + Z.of_nat (c_order s) <= n)%Z -> eval I (upd rho "n" (IZR n)) (numerator g) <> None -> exists v, eval I (upd rho "n" (IZR n)) g = Some v.
Proof using Std Hsub.
  intros H N O g d Qg Qd Tn Td n Hn Num. destruct (linear_split _ _ H N O) as (z0 & Hi & Hc). apply coefficient_ge in Hc.
  unfold check_inhomogeneous in Hi. fold g in Hi. destruct (is_num 0 g) eqn:Z.
  - apply is_num_eq in Z. rewrite Z. cbn. eauto.
  - cbv zeta in Hi. fold d in Hi. destruct (has_parameters d); [discriminate|].
    destruct (raise_sound true d 0 z0 z Hi Hc Qd Tn Td n) as (w & Hw & Nw); [lia|]. unfold at_x in Hw.
    destruct (eval I (upd rho "n" (IZR n)) (numerator g)) as [u|] eqn:U; [|contradiction]. exists (u / w). apply Qg; auto.
Qed.
Theorem coefficient_defined s z : fvi s = Some z -> c_type s = Some VAR_COEFF -> c_order s = 1%nat ->
  let c := nth 1 (c_coeffs s) (Num 0%Qc) in
  quotient I c (expand (numerator c)) (expand (denominator c)) -> tame z true (expand (numerator c)) -> tame z true (expand (denominator c)) ->
  forall n, (z + 1 <= n)%Z -> exists v, eval I (upd rho "n" (IZR n)) c = Some v /\ v <> 0.
Proof using Std Hsub.
  intros H T O c Q Tn Td n Hn. destruct (linear_split _ _ H) as (z0 & Hi & Hc); [congruence|lia|]. unfold check_coefficient in Hc. rewrite T, O in Hc. cbn [Nat.eqb] in Hc. cbv zeta in Hc. fold c in Hc.
  destruct (has_parameters c); [discriminate|]. destruct (raise_sound true c z0 z z Hc (Z.le_refl _) Q Tn Td n) as (w & Hw & Nw); [lia|]. exists w. split; [exact Hw|]. auto.
Qed.
Lemma homogeneous_sound l : forall z z' Z0, check_homogeneous G numerator denominator expand roots fuel l z = Some z' -> (z' <= Z0)%Z -> forall p, In p l ->
  quotient I (snd p) (expand (numerator (snd p))) (expand (denominator (snd p))) -> tame Z0 false (expand (numerator (snd p))) -> tame Z0 true (expand (denominator (snd p))) -> defined_after I rho "n" false Z0 (snd p).
Proof using Std Hsub.
  induction l as [|[d a] l IH]; intros z z' Z0 H Hz p Hp Q Tn Td; [destruct Hp|]. cbn [check_homogeneous] in H. destruct (raise_index _ _ _ _ _ _ a z) as [z1|] eqn:E; [|discriminate].
  destruct Hp as [<-|Hp]; [|exact (IH _ _ _ H Hz p Hp Q Tn Td)]. cbn [snd] in *. apply homogeneous_ge in H. apply (raise_sound false a z z1 Z0 E); auto. lia.
Qed.
Theorem functional_defined s z : fvi s = Some z -> c_type s = Some FUNCTIONAL -> forall b a, In (b, a) (c_hom s) ->
  quotient I a (expand (numerator a)) (expand (denominator a)) -> tame z false (expand (numerator a)) -> tame z true (expand (denominator a)) ->
  forall n, (z < n)%Z -> exists v, eval I (upd rho "n" (IZR n)) a = Some v.
Proof using Std Hsub.
  intros H T b a Hin Q Tn Td n Hn. unfold first_valid_index in H. rewrite T in H. destruct (check_homogeneous _ _ _ _ _ _ _ _) as [z0|] eqn:E; [|discriminate]. assert (z = Z.max z0 1) by congruence.
  destruct (homogeneous_sound _ _ _ z E ltac:(lia) (b, a) Hin Q Tn Td n Hn) as (v & Hv & _). eauto.
Qed.
End Proofs.
