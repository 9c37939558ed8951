From Coq Require Import ZArith QArith Qcanon Reals List String Bool Lia Lra.
From Verif Require Import VerifyProofs2 Ast ExprModel ExprSpec ExprProofs1 ExprProofs2 ExprCases SeqInterp ElimModel ElimSpec ElimProofs NonLinModel VerifySpec WClassModel WClassSpec WClassProofs WClassProofs2 CSolSpec WSolModel WSolSpec WSolProofs.
Import ListNotations.
Local Open Scope R_scope.
Local Open Scope list_scope.

Section Both.
Context (I : interp) (rho : string -> R) (G : ginac) (HG : forall x, ginac_ok (with_x I x) G).
Context (si sa ex : expr -> expr) (dom : expr -> expr -> option nat).
Context (Hsi : forall x e, refines (with_x I x) e (si e)) (Hsa : forall x e, refines (with_x I x) e (sa e)).
Notation at_ := (at_n I rho).
Notation S_ k lo up := (SumE k (Num (zq (Z.of_nat lo))) up (Fun FX [Sym k])).
Notation classify rhs addend k lo up := (classify_weighted G si sa ex dom rhs addend k (Num (zq (Z.of_nat lo))) up (Fun FX [Sym k])).

Section Below.
Context (rhs addend : expr) (k : string) (lo : nat) (w' h' w h rfo : expr) (rew : bool) (F H : nat -> R).
Context (Hin : input_ok G si k lo (n_plus (-1)) rhs addend) (E : classify rhs addend k lo (n_plus (-1)) = Weighted w' h' w h rfo rew).
Context (P : parts_from I rho (S_ k lo (n_plus (-1))) (si rhs) lo F H) (D : defined_from I rho (S lo) rhs).
Lemma below_values x n : (lo < n)%nat -> at_ x n w = Some (F n) /\ at_ x n h = Some (H n) /\ at_ x n rhs = Some (F n * sum_below x lo n + H n).
Proof using HG Hsi Hin E P D.
  intros L. destruct (D x n L) as (v & V). destruct (faithful_below I rho G HG si sa ex dom rhs addend k lo w' h' w h rfo rew x n _ _ v Hin E (P x n L) (Hsi x) V) as (A & B & C). subst v. auto.
Qed.
Lemma below_follows x0 y : solution_with I rho rhs lo 1 x0 y <-> (y lo = x0 lo /\ follows F H lo y).
Proof using HG Hsi Hin E P D.
  split.
  - intros [A B]. split; [apply A; lia|]. intros n Hn. pose proof (B n ltac:(lia)) as Q. unfold holds_at in Q. destruct (below_values y n Hn) as (_ & _ & V). unfold at_n in V. rewrite V in Q. congruence.
  - intros [A B]. split; [intros i Hi; replace i with lo by lia; exact A|]. intros n Hn. unfold holds_at. destruct (below_values y n ltac:(lia)) as (_ & _ & V). rewrite (B n) by lia. exact V.
Qed.
Theorem answer_below expand sol : (forall n, (lo < n)%nat -> F n <> 0) -> is_num (-(1))%Qc w' = false -> n_free G sa sol w' h' w h lo -> general_solution I rho rfo 0 sol ->
  x_only_as (Fun FX [Num 0%Qc]) (initial_term G w h lo) (shifted G (-1 - Z.of_nat lo) sol) ->
  forall x0, (exists y, solution_with I rho rhs lo 1 x0 y) /\
  forall y, solution_with I rho rhs lo 1 x0 y -> forall n, (lo < n)%nat -> at_ y n (weighted_answer G expand sol w' h' w h rew lo) = Some (y n).
Proof using HG Hsi Hsa Hin E P D.
  intros NZ Nm Nf Gs Xo x0. split.
  - destruct (follows_exists F H lo (x0 lo)) as (y & Y). exists y. now apply below_follows.
  - intros y Y n Hn. apply below_follows in Y as [_ Y]. apply (answer_ok I rho G HG si sa ex dom Hsa rhs addend k lo (n_plus (-1)) w' h' w h rfo rew expand sol F H y); auto.
    intros x m Hm. destruct (below_values x m Hm) as (A & B & _). auto.
Qed.
(** Weight -1, lower limit 0. *)
Theorem answer_minus_one expand sol : (forall x e, refines (with_x I x) e (expand e)) -> lo = 0%nat -> is_num (-(1))%Qc w' = true -> not_bound "n" h -> forall x0 y, solution_with I rho rhs lo 1 x0 y -> forall n, (1 < n)%nat -> at_ y n (weighted_answer G expand sol w' h' w h rew lo) = Some (y n).
Proof using HG Hsi Hin E P D.
  intros Hex L0 Nm NB x0 y Y n Hn. apply below_follows in Y as [_ Y]. unfold weighted_answer. rewrite Nm.
  destruct (classify_inv G si sa ex dom _ _ _ _ _ _ _ _ _ _ _ E) as (_ & _ & _ & _ & NF & Ew & Eh & _).
  replace (expr_eqb (n_plus (-1)) (Sym "n")) with false in * by reflexivity. cbn [normal_form snd] in *. replace (0 <? Z.of_nat lo)%Z with false in * by (rewrite L0; reflexivity). rewrite Ew in Nm. rewrite Eh.
  apply is_num_eq in Nm. assert (Fm : forall m, (lo < m)%nat -> F m = -1).
  { intros m Hm. destruct (below_values y m Hm) as (A & _). rewrite Nm in A. unfold at_n in A. cbn [eval] in A. rewrite rv_opp, rv_1 in A. assert (F m = - (1)) by congruence. lra. }
  assert (V : y n = H n - H (n - 1)%nat).
  { rewrite (Y n) by lia. replace n with (S (n - 1)) at 2 by lia. rewrite sum_below_S by lia. rewrite (Y (n - 1)%nat) by lia. rewrite !Fm by lia. ring. }
  rewrite V. apply (gsub_val _ G (HG y)); [apply below_values; lia|]. apply Hex. apply (shifted_v I rho G HG y n (n - 1)); [exact NB|lia|]. apply below_values. lia.
Qed.
End Below.

Section At.
Context (rhs addend : expr) (k : string) (lo : nat) (w' h' w h rfo : expr) (rew : bool) (c r : nat -> R).
Context (Hin : input_ok G si k lo (Sym "n") rhs addend) (E : classify rhs addend k lo (Sym "n") = Weighted w' h' w h rfo rew).
Context (NU : is_num 1%Qc (used_weight G (S_ k lo (Sym "n")) si rhs addend) = false).
Context (P : parts_from I rho (S_ k lo (Sym "n")) (si rhs) lo c r) (D : defined_from I rho (S lo) rhs) (N1 : forall n, (lo < n)%nat -> c n <> 1).
Notation F := (fun n => c n / (1 - c n)). Notation H := (fun n => r n / (1 - c n)).
Lemma at_values x n : (lo < n)%nat -> at_ x n w = Some (F n) /\ at_ x n h = Some (H n) /\ (holds_at I rho rhs x n <-> x n = F n * sum_below x lo n + H n).
Proof using HG Hsi Hin E P D N1 NU.
  intros L. destruct (D x n L) as (v & V). destruct (faithful_at I rho G HG si sa ex dom rhs addend k lo w' h' w h rfo rew x n _ _ v ltac:(lia) Hin E NU (N1 n L) (P x n L) (Hsi x) V) as (A & B & C).
  split; [exact A|]. split; [exact B|]. rewrite <- C. unfold holds_at. unfold at_n in V. rewrite V. split; [intros Q; congruence|now intros ->].
Qed.
Lemma at_follows x0 y : solution_with I rho rhs lo 1 x0 y <-> (y lo = x0 lo /\ follows F H lo y).
Proof using HG Hsi Hin E P D N1 NU.
  split.
  - intros [A B]. split; [apply A; lia|]. intros n Hn. exact (proj1 (proj2 (proj2 (at_values y n Hn))) (B n ltac:(lia))).
  - intros [A B]. split; [intros i Hi; replace i with lo by lia; exact A|]. intros n Hn. exact (proj2 (proj2 (proj2 (at_values y n ltac:(lia)))) (B n ltac:(lia))).
Qed.
Theorem answer_at expand sol : (forall n, (lo < n)%nat -> c n <> 0) -> is_num (-(1))%Qc w' = false -> n_free G sa sol w' h' w h lo -> general_solution I rho rfo 0 sol ->
  x_only_as (Fun FX [Num 0%Qc]) (initial_term G w h lo) (shifted G (-1 - Z.of_nat lo) sol) ->
  forall x0, (exists y, solution_with I rho rhs lo 1 x0 y) /\
  forall y, solution_with I rho rhs lo 1 x0 y -> forall n, (lo < n)%nat -> at_ y n (weighted_answer G expand sol w' h' w h rew lo) = Some (y n).
Proof using HG Hsi Hsa Hin E P D N1 NU.
  intros NZ Nm Nf Gs Xo x0. split.
  - destruct (follows_exists F H lo (x0 lo)) as (y & Y). exists y. now apply at_follows.
  - intros y Y n Hn. apply at_follows in Y as [_ Y]. apply (answer_ok I rho G HG si sa ex dom Hsa rhs addend k lo (Sym "n") w' h' w h rfo rew expand sol F H y); auto.
    + intros x m Hm. destruct (at_values x m Hm) as (A & B & _). auto.
    + intros m Hm Q. pose proof (N1 m Hm). apply (NZ m Hm). apply Rmult_eq_reg_r with (/ (1 - c m)); [|apply Rinv_neq_0_compat; lra]. unfold Rdiv in Q. rewrite Q. ring.
Qed.
End At.
End Both.
