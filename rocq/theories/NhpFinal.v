From Coq Require Import ZArith List Lia Field Arith Bool Permutation QArith Qcanon.
From Verif Require Import Fld FPoly SeqSpec SeqLemmas SumPolyModel LinSolve SolverModel SolverSpec SolverProofs1 SolverProofs2 SolverProofs3 NhpModel NhpProofs NhpProofs2.
Import ListNotations.
Set Bullet Behavior "Strict Subproofs".
Local Close Scope Q_scope.
Local Close Scope Qc_scope.

Section S.
Context {K : Fld}.
Add Field KFnhpf : (fth K).
Local Open Scope fld_scope.

Lemma solves_ext (a : list K) p f x (X Y : Z -> K) : (forall n, (f <= n)%Z -> X n = Y n) -> solves a p f x X -> solves a p f x Y.
Proof.
  intros E (H1 & H2). split.
  - intros i Hi. rewrite <- E by lia. now apply H1.
  - intros n Hn. rewrite <- E by lia. rewrite H2 by auto. f_equal. apply lincomb_ext. intros m Hm. apply E. lia.
Qed.
Lemma D_conv (g p : Z -> K) (k f : nat) n : (0 < k)%nat -> (forall j, (- Z.of_nat k < j < 0)%Z -> g j = 0) -> (Z.of_nat f <= n)%Z ->
  D (k + f) n (fun h => g (n - h)%Z * p h) = non_homogeneous_sum g k p (Z.of_nat f) n.
Proof.
  intros Hk Hg Hn. rewrite D_zsum by (try lia; intros h Hh; rewrite Hg by lia; ring).
  unfold non_homogeneous_sum. f_equal. lia.
Qed.

Theorem order_2_final (a : list K) (l1 l2 : K) : roots_of a [(l1, 1%nat); (l2, 1%nat)] -> a <> [] -> last a 0 <> 0 ->
  forall (c0 : K) (inh : list (K * list K)) (f : nat) (x : Z -> K),
  (forall e, In e inh -> fst e <> 0 /\ ~ allzero (snd e)) ->
  exists P, (forall n, (Z.of_nat f <= n)%Z -> order_2_poly [(l1, 1%nat); (l2, 1%nat)] inh f n = Some (P n)) /\
  solves a (exp_poly inh) (Z.of_nat f) x
    (fun n => compute_term_about_initial_conditions (g_order_2 l1 l2) (c0 :: a) (Z.of_nat f) x n + P n).
Proof.
  intros HR Ha Hl c0 inh f x HI. pose proof (roots_nonzero a _ HR Ha Hl) as NZ.
  assert (N1 : l1 <> 0) by (apply (NZ (l1, 1%nat)); left; auto).
  assert (N2 : l2 <> 0) by (apply (NZ (l2, 1%nat)); right; left; auto).
  assert (N12 : l1 <> l2).
  { destruct HR as (ND & _). inversion ND as [|? ? M1 M2]; subst. intros ->. apply M1. left; auto. }
  assert (EL : length a = 2%nat) by (rewrite <- (roots_count a _ HR); reflexivity).
  destruct (g_order_2_correct a l1 l2 HR Ha Hl) as (G0 & G1 & G2).
  exists (fun n => D (2 + f) n (fun h => g_order_2 l1 l2 (n - h)%Z * exp_poly inh h)). split.
  - intros n Hn. apply (order_2_poly_value l1 l2 (2 + f)); auto. lia.
  - pose proof (fundamental_solution a (g_order_2 l1 l2) G0) as FS. rewrite EL in FS.
    specialize (FS G1 (fun n _ => G2 n) c0 (exp_poly inh) (Z.of_nat f) x).
    eapply solves_ext; [|exact FS]. intros n Hn. cbv beta. rewrite D_conv; auto.
Qed.

Theorem order_k_final (ls : nat -> list (list K * K) -> option (list K)) : lsolve_ok ls ->
  forall (a : list K) (roots : list (K * nat)) (c0 : K), roots_of a roots -> (2 < length a)%nat -> last a 0 <> 0 ->
  Forall (fun r => snd r = 1%nat) roots ->
  exists sol, solve_system ls true (c0 :: a) roots = Some sol /\
  forall (gd : list (K * K)) (inh : list (K * list K)) (f : nat) (x : Z -> K),
  Permutation (map fst gd) (map fst roots) ->
  (forall n, find_g_n true sol roots n = fold_right (fun e acc => snd e * zpow (fst e) n + acc) 0 gd) ->
  (forall e, In e inh -> fst e <> 0) ->
  exists P, (forall n, (Z.of_nat f <= n)%Z -> order_k_poly gd roots inh (length a) f n = Some (P n)) /\
  solves a (exp_poly inh) (Z.of_nat f) x
    (fun n => compute_term_about_initial_conditions (find_g_n true sol roots) (c0 :: a) (Z.of_nat f) x n + P n).
Proof.
  intros LS a roots c0 HR HL Hl HM. assert (Ha : a <> []) by (intros ->; cbn in HL; lia).
  pose proof (roots_nonzero a _ HR Ha Hl) as NZ.
  destruct (solve_system_correct ls LS true a roots c0 HR Ha Hl (fun _ => HM)) as (sol & ES & G0 & G1 & G2).
  exists sol. split; auto. intros gd inh f x PM HG NB.
  exists (fun n => D (length a + f) n (fun h => lsum gd (fun r => snd r * zpow (fst r) (n - h)) * exp_poly inh h)). split.
  - intros n Hn. apply order_k_poly_value; auto; [| |lia].
    + enough (order_of roots = length a) by lia. rewrite <- (roots_count a roots HR). clear. unfold order_of, rlist.
      induction roots as [|r roots IH]; auto. cbn [fold_right flat_map]. now rewrite app_length, repeat_length, IH.
    + apply (Permutation_NoDup (Permutation_sym PM)). apply HR.
  - eapply solves_ext; [|apply (fundamental_solution a (find_g_n true sol roots) G0 G1 (fun n _ => G2 n))].
    intros n Hn. cbv beta. f_equal. rewrite <- D_conv; auto; [|lia]. apply D_ext. intros h. f_equal. apply HG.
Qed.

Theorem multiple_roots_final (a : list K) (gd : list (K * list K)) : a <> [] ->
  (forall e, In e gd -> fst e <> 0) -> exp_poly gd 0 = 1 ->
  (forall j, (- Z.of_nat (length a) < j < 0)%Z -> exp_poly gd j = 0) ->
  (forall n, (1 <= n)%Z -> exp_poly gd n = lincomb a (exp_poly gd) n) ->
  forall (c0 : K) (inh : list (K * list K)) (x : Z -> K), (forall e, In e inh -> fst e <> 0) ->
  solves a (exp_poly inh) 0 x
    (fun n => compute_term_about_initial_conditions (exp_poly gd) (c0 :: a) 0 x n
              + compute_non_homogeneous_part gd (length a) inh n).
Proof.
  intros Ha NG G0 G1 G2 c0 inh x NB. assert (HL : (0 < length a)%nat) by (destruct a; [congruence|cbn; lia]).
  eapply solves_ext; [|apply (fundamental_solution a (exp_poly gd) G0 G1 G2)].
  intros n Hn. cbv beta. f_equal. rewrite nhp_value by auto.
  change 0%Z with (Z.of_nat 0). rewrite <- D_conv by (auto; lia). now rewrite Nat.add_0_r.
Qed.
End S.

Add Field QFnhp : (fth QcF).
Local Open Scope fld_scope.
Definition two : QcF := Q2Qc 2.
Definition gd2 : list (QcF * list QcF) := [(two, [1; 1])].
Definition a2 : list QcF := [Q2Qc 4; Q2Qc (-4)].
Lemma gd2_value n : exp_poly gd2 n = (1 + ofz n) * zpow two n.
Proof. unfold exp_poly, gd2. cbn [fold_right snd fst peval]. ring. Qed.
Lemma two_eq : two = 1 + 1. Proof. apply Qc_is_canon; reflexivity. Qed.
Lemma gd2_fundamental : exp_poly gd2 0 = 1 /\ (forall j, (- 2 < j < 0)%Z -> exp_poly gd2 j = 0) /\
  forall n, exp_poly gd2 n = lincomb a2 (exp_poly gd2) n.
Proof.
  split; [|split].
  - apply Qc_is_canon; vm_compute; reflexivity.
  - intros j Hj. replace j with (-1)%Z by lia. apply Qc_is_canon; vm_compute; reflexivity.
  - intros n. unfold lincomb, a2. cbn [length bsum nth]. rewrite !gd2_value.
    replace (n - 1 - Z.of_nat 0)%Z with (n - 2 + 1)%Z by lia. replace (n - 1 - Z.of_nat 1)%Z with (n - 2)%Z by lia.
    replace n with (n - 2 + 1 + 1)%Z at 1 2 by lia.
    rewrite !zpow_succ by (rewrite two_eq; discriminate). rewrite !ofz_add, ofz_1.
    generalize (zpow two (n - 2)) (ofz (K:=QcF) (n - 2)). intros z m.
    assert (E4 : (Q2Qc 4 : QcF) = (1 + 1) * (1 + 1)) by (apply Qc_is_canon; reflexivity).
    assert (E4' : (Q2Qc (-4) : QcF) = - ((1 + 1) * (1 + 1))) by (apply Qc_is_canon; reflexivity).
    rewrite E4, E4', two_eq. ring.
Qed.
Theorem shifted_refuted : ~ (forall (a : list QcF) (gd : list (QcF * list QcF)), a <> [] ->
  (forall e, In e gd -> fst e <> 0) -> exp_poly gd 0 = 1 ->
  (forall j, (- Z.of_nat (length a) < j < 0)%Z -> exp_poly gd j = 0) ->
  (forall n, (1 <= n)%Z -> exp_poly gd n = lincomb a (exp_poly gd) n) ->
  forall (c0 : QcF) (inh : list (QcF * list QcF)) (f : nat) (x : Z -> QcF), (forall e, In e inh -> fst e <> 0) ->
  solves a (exp_poly inh) (Z.of_nat f) x
    (fun n => compute_term_about_initial_conditions (exp_poly gd) (c0 :: a) (Z.of_nat f) x n
              + compute_non_homogeneous_part gd (length a) inh n)).
Proof.
  intros H. destruct gd2_fundamental as (G0 & G1 & G2).
  specialize (H a2 gd2 ltac:(discriminate)). 
  assert (NG : forall e, In e gd2 -> fst e <> 0) by (intros e [<- |[]]; discriminate).
  specialize (H NG G0 G1 (fun n _ => G2 n) 0 [(1, [1])] 1%nat (fun _ => 0)).
  assert (NB : forall e, In e [(1 : QcF, [1 : QcF])] -> fst e <> 0) by (intros e [<- |[]]; discriminate).
  destruct (H NB) as (H1 & _). specialize (H1 2%Z ltac:(cbn; lia)). vm_compute in H1. discriminate.
Qed.
Definition roots3 : list (QcF * nat) := [(1, 1%nat); (two, 1%nat); (Q2Qc 3, 1%nat)].
Definition a3 : list QcF := [Q2Qc 6; Q2Qc (-11); Q2Qc 6].
Lemma roots3_ok : roots_of a3 roots3 /\ roots_of [Q2Qc 5 : QcF; Q2Qc (-6)] [(two, 1%nat); (Q2Qc 3, 1%nat)].
Proof.
  assert (E3 : (Q2Qc 3 : QcF) = 1 + 1 + 1) by (apply Qc_is_canon; reflexivity).
  assert (E5 : (Q2Qc 5 : QcF) = 1 + 1 + 1 + 1 + 1) by (apply Qc_is_canon; reflexivity).
  assert (E6 : (Q2Qc 6 : QcF) = (1 + 1) * (1 + 1 + 1)) by (apply Qc_is_canon; reflexivity).
  assert (E6' : (Q2Qc (-6) : QcF) = - ((1 + 1) * (1 + 1 + 1))) by (apply Qc_is_canon; reflexivity).
  assert (E11 : (Q2Qc (-11) : QcF) = - (1 + (1 + 1) * (1 + 1 + 1 + 1 + 1))) by (apply Qc_is_canon; reflexivity).
  split; (split; [repeat constructor; cbn; intros H; repeat destruct H as [H|H]; try discriminate; auto|]);
   (split; [repeat constructor|]); intros y; unfold char_value, a3, roots3; cbn [length bsum nth fold_right fst snd fpow Nat.sub];
   rewrite ?E3, ?E5, ?E6, ?E6', ?E11, ?two_eq; ring.
Qed.
