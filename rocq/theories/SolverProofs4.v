(** Corollaries and concrete cases for SolverProps.v. *)
From Coq Require Import ZArith QArith Qcanon List Lia Field.
From Verif Require Import Fld FPoly SeqSpec SeqLemmas SolverSpec LinSolve SumPolyModel SolverModel SolverProofs1 SolverProofs2 SolverProofs3.
Import ListNotations.
Local Open Scope fld_scope.
Section S.
Context {K : Fld}.
Add Field KFs4 : (fth K).
Lemma order_1_complete (a : K) (inh : list (K * list K)) (f : Z) (x : Z -> K) :
  a <> 0 -> (forall e, In e inh -> fst e <> 0) -> (0 <= f)%Z ->
  exists X, solve_new gauss [a] [(a, 1%nat)] inh f x = Some X /\ solves [a] (exp_poly inh) f x X.
Proof.
  intros Ha Hb Hf. apply solve_new_correct; auto using gauss_ok; [|discriminate].
  split; [|split].
  - repeat constructor; auto.
  - repeat constructor.
  - intros y. unfold char_value. cbn. ring.
Qed.
End S.
Add Field QF4 : (fth QcF).
Lemma c22_hypotheses :
  let pf := fun n => zprod (K:=QcF) 1 n (fun k => ofz k) in
  (forall n, (0 < n)%Z -> (ofz n : QcF) <> 0) /\
  forall n, (0 < n)%Z -> inh_value [MkComp (K:=QcF) 1 [] (fun n => 1 / pf n)] n = 1 / pf n.
Proof.
  cbv zeta. split.
  - intros n Hn. replace n with (Z.of_nat (Z.to_nat n)) by lia. rewrite ofz_ofnat. apply ofn_neq0'. lia.
  - intros n Hn. unfold inh_value. cbn [fold_right cpoly cnopoly cbase peval].
    replace n with (Z.of_nat (Z.to_nat n)) by lia. rewrite zpow_ofnat, fpow_1l.
    generalize (1 / zprod (K:=QcF) 1 (Z.of_nat (Z.to_nat n)) (fun k : Z => ofz k)). intros z. ring.
Qed.
Lemma c23_roots : roots_of (K:=QcF) [Q2Qc 4; Q2Qc (-4)] [(Q2Qc 2, 2%nat)] /\
  roots_of (K:=QcF) [Q2Qc 5; Q2Qc (-6)] [(Q2Qc 2, 1%nat); (Q2Qc 3, 1%nat)].
Proof.
  assert (E2 : (Q2Qc 2 : QcF) = 1 + 1) by (apply Qc_is_canon; reflexivity).
  assert (E3 : (Q2Qc 3 : QcF) = 1 + 1 + 1) by (apply Qc_is_canon; reflexivity).
  assert (E4 : (Q2Qc 4 : QcF) = (1 + 1) * (1 + 1)) by (apply Qc_is_canon; reflexivity).
  assert (E4' : (Q2Qc (-4) : QcF) = - ((1 + 1) * (1 + 1))) by (apply Qc_is_canon; reflexivity).
  assert (E5 : (Q2Qc 5 : QcF) = 1 + 1 + 1 + 1 + 1) by (apply Qc_is_canon; reflexivity).
  assert (E6 : (Q2Qc (-6) : QcF) = - ((1 + 1) * (1 + 1 + 1))) by (apply Qc_is_canon; reflexivity).
  split; (split; [repeat constructor; cbn; intros H; repeat destruct H as [H|H]; try discriminate; auto|]);
   (split; [repeat constructor|]); intros y; unfold char_value; cbn [length bsum nth fold_right fst snd fpow Nat.sub];
   rewrite ?E4, ?E4', ?E5, ?E6, ?E2, ?E3; ring.
Qed.
