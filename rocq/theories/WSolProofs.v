From Coq Require Import ZArith QArith Qcanon Reals List String Bool Lia Lra.
From Verif Require Import VerifyProofs2 Ast ExprModel ExprSpec ExprProofs1 ExprProofs2 ExprCases SeqInterp ElimModel ElimSpec ElimProofs NonLinModel VerifySpec WClassModel WClassSpec WClassProofs WClassProofs2 CSolSpec WSolModel WSolSpec.
Import ListNotations.
Local Open Scope R_scope.
Local Open Scope list_scope.

Lemma x_only_all t r l : fold_right (fun a P => x_only_as t r a /\ P) True l <-> Forall (x_only_as t r) l.
Proof. induction l as [|a l IH]; cbn [fold_right]; [split; auto|]. rewrite IH. split; [intros []; now constructor|intros H; now inversion H]. Qed.

(** * Replacing x(0) *)
Section Replace.
Context (I : interp) (G : ginac) (X X' : nat -> R) (HG : ginac_ok (with_x I X) G) (r : expr).
Notation J := (with_x I X). Notation J' := (with_x I X').
Let t : expr := Fun FX [Num 0%Qc].
Lemma omap_two (f g : expr -> option R) h l vs : Forall (fun a => forall u, f a = Some u -> g (h a) = Some u) l -> omap f l = Some vs -> omap g (map h l) = Some vs.
Proof.
  intros F. revert vs. induction F as [|a l Ha Hl IH]; intros vs E; [exact E|]. cbn [omap map] in *. destruct (f a) as [u|] eqn:Fa; [|discriminate]. rewrite (Ha u eq_refl). cbn [obind] in *.
  destruct (omap f l) as [us|]; [|discriminate]. rewrite (IH us eq_refl). exact E.
Qed.
Lemma esum_two l rho h v : Forall (fun a => forall u, eval J' rho a = Some u -> eval J rho (h a) = Some u) l -> esum J' rho l = Some v -> esum J rho (map h l) = Some v.
Proof.
  intros F. revert v. induction F as [|a l Ha Hl IH]; intros v E; [exact E|]. cbn [map]. rewrite esum_cons in *. apply olift2_some in E as (p & q & Ep & Eq & ->). now rewrite (Ha p Ep), (IH q Eq).
Qed.
Lemma eprod_two l rho h v : Forall (fun a => forall u, eval J' rho a = Some u -> eval J rho (h a) = Some u) l -> eprod J' rho l = Some v -> eprod J rho (map h l) = Some v.
Proof.
  intros F. revert v. induction F as [|a l Ha Hl IH]; intros v E; [exact E|]. cbn [map]. rewrite eprod_cons in *. apply olift2_some in E as (p & q & Ep & Eq & ->). now rewrite (Ha p Ep), (IH q Eq).
Qed.
Theorem replace_x0 e : x_only_as t r e -> forall rho v, eval J rho r = Some (X' 0%nat) -> eval J' rho e = Some v -> eval J rho (substitute G t r e) = Some v.
Proof.
  unfold t. induction e using expr_ind'; intros NC rho v Hr H'; cbn [substitute].
  - exact H'.
  - exact H'.
  - exact H'.
  - cbn [expr_eqb]. apply (add_all_ok _ _ HG). cbn in NC. rewrite x_only_all in NC. rewrite eval_Add in *.
    apply (esum_two l rho _ v); [|exact H']. rewrite Forall_forall in *. intros a Ha u Hu. exact (H a Ha (NC a Ha) rho u Hr Hu).
  - cbn [expr_eqb]. apply (mul_all_ok _ _ HG). cbn in NC. rewrite x_only_all in NC. rewrite eval_Mul in *.
    apply (eprod_two l rho _ v); [|exact H']. rewrite Forall_forall in *. intros a Ha u Hu. exact (H a Ha (NC a Ha) rho u Hr Hu).
  - cbn [expr_eqb]. destruct NC as [NC1 NC2]. apply (gpow_ok _ _ HG). cbn [eval] in *.
    destruct (eval J' rho e1) as [x|] eqn:E1; [|discriminate]. cbn [obind] in *.
    destruct (eval J' rho e2) as [y|] eqn:E2; [|discriminate]. cbn [obind] in *.
    rewrite (IHe1 NC1 rho x Hr E1), (IHe2 NC2 rho y Hr E2). exact H'.
  - assert (D : f = FX \/ f <> FX) by (destruct f; (left; reflexivity) || (right; discriminate)). destruct D as [->|D].
    + cbn [x_only_as] in NC. rewrite NC. replace (expr_eqb (Fun FX [Num 0%Qc]) (Fun FX [Num 0%Qc])) with true by reflexivity.
      rewrite NC in H'. cbn [eval omap obind with_x ifun] in H'. rewrite rv_0 in H'. change 0 with (IZR 0) in H'. rewrite as_int_IZR in H'. cbn in H'. congruence.
    + replace (expr_eqb (Fun f l) (Fun FX [Num 0%Qc])) with false by (symmetry; apply not_true_is_false; intros E; apply expr_eqb_eq in E; congruence).
      apply (gfun_ok _ _ HG). assert (NC' : Forall (x_only_as (Fun FX [Num 0%Qc]) r) l) by (apply x_only_all; destruct f; try exact NC; now elim D).
      cbn [eval] in *. destruct (omap (eval J' rho) l) as [vs|] eqn:E; [|discriminate].
      rewrite (omap_two (eval J' rho) (eval J rho) _ l vs); auto.
      * cbn [obind] in *. rewrite <- H'. destruct f; try reflexivity. now elim D.
      * rewrite Forall_forall in *. intros a Ha u Hu. exact (H a Ha (NC' a Ha) rho u Hr Hu).
  - cbn [expr_eqb]. destruct NC as (N1 & N3 & N4 & N5). cbn [apply_sum].
    apply (gsum_ok _ _ HG). apply eval_sum_inv in H' as (a & b & Ea & Eb & Es).
    apply (eval_sum_intro _ _ _ _ _ _ _ a b); eauto. eapply osum_mono; [|exact Es].
    intros i Hi u Hu. cbv beta in Hu |- *. apply (IHe3 N5 _ u); [rewrite eval_upd_fresh; auto|exact Hu].
  - cbn [expr_eqb]. destruct NC as (N1 & N3 & N4 & N5). cbn [apply_prod].
    apply (gprod_ok _ _ HG). apply eval_prod_inv in H' as (a & b & Ea & Eb & Es).
    apply (eval_prod_intro _ _ _ _ _ _ _ a b); eauto. eapply oprod_mono; [|exact Es].
    intros i Hi u Hu. cbv beta in Hu |- *. apply (IHe3 N5 _ u); [rewrite eval_upd_fresh; auto|exact Hu].
Qed.
End Replace.

(** * The sequences *)
Section Seq.
Context (F H : nat -> R) (lo : nat) (NZ : forall n, (lo < n)%nat -> F n <> 0).
Definition follows (y : nat -> R) : Prop := forall n, (lo < n)%nat -> y n = F n * sum_below y lo n + H n.
Lemma sum_below_S (y : nat -> R) n : (lo <= n)%nat -> sum_below y lo (S n) = sum_below y lo n + y n.
Proof. intros L. unfold sum_below. replace (S n - lo)%nat with (S (n - lo)) by lia. rewrite range_sum_S. do 2 f_equal. lia. Qed.
Lemma sum_below_1 (y : nat -> R) : sum_below y lo (S lo) = y lo.
Proof. rewrite sum_below_S by lia. unfold sum_below. rewrite Nat.sub_diag. cbn [range_sum]. lra. Qed.
Lemma sum_below_ext (y z : nat -> R) n : (forall i, (lo <= i < n)%nat -> y i = z i) -> sum_below y lo n = sum_below z lo n.
Proof. intros E. apply range_sum_ext. intros i Hi. apply E. lia. Qed.
Lemma follows_first y : follows y -> y (lo + 1)%nat = F (lo + 1)%nat * y lo + H (lo + 1)%nat.
Proof. intros Y. rewrite (Y (lo + 1)%nat) by lia. replace (lo + 1)%nat with (S lo) by lia. now rewrite sum_below_1. Qed.
Lemma follows_step y n : follows y -> (1 <= n)%nat -> let m := (n + lo)%nat in
  y (S m) = F (S m) / F m * (1 + F m) * y m + F (S m) * (H (S m) / F (S m) - H m / F m).
Proof.
  intros Y Hn m. assert (Lm : (lo < m)%nat) by (unfold m; lia). pose proof (NZ m Lm) as Z1. pose proof (NZ (S m) ltac:(lia)) as Z2. rewrite (Y (S m)) by lia. rewrite sum_below_S by lia.
  pose proof (Y m Lm) as E. assert (Es : sum_below y lo m = (y m - H m) / F m) by (rewrite E; field; exact Z1). rewrite Es. field. now split.
Qed.
Lemma follows_exists v : exists y, y lo = v /\ follows y.
Proof.
  assert (U : forall d d' y y', y lo = v -> y' lo = v -> (forall n, (lo < n <= lo + d)%nat -> y n = F n * sum_below y lo n + H n) -> (forall n, (lo < n <= lo + d')%nat -> y' n = F n * sum_below y' lo n + H n) ->
     forall n, (lo <= n <= lo + Nat.min d d')%nat -> y n = y' n).
  { intros d d' y y' A B Y Y'. assert (Q : forall m n, (lo <= n)%nat -> (n < m)%nat -> (n <= lo + Nat.min d d')%nat -> y n = y' n).
    { induction m as [|m IH]; intros n L1 L2 L3; [lia|]. destruct (Nat.eq_dec n lo) as [->|Ne]; [congruence|].
      rewrite (Y n), (Y' n) by lia. do 2 f_equal. apply sum_below_ext. intros i Hi. apply IH; lia. }
    intros n Hn. apply (Q (S n)); lia. }
  (* the value at n computed by a sequence defined up to n *)
  assert (C : exists g : nat -> nat -> R, forall d, g d lo = v /\ forall n, (lo < n <= lo + d)%nat -> g d n = F n * sum_below (g d) lo n + H n).
  { clear U. pose (fix g (d : nat) : nat -> R := match d with O => fun _ => v | S d => fun n => if Nat.eqb n (lo + S d) then F n * sum_below (g d) lo n + H n else g d n end) as g. exists g.
    induction d as [|d [Y0 Y]]; [split; [reflexivity|intros; lia]|]. split.
    - cbn [g]. replace (Nat.eqb lo (lo + S d)) with false by (symmetry; apply Nat.eqb_neq; lia). exact Y0.
    - intros n Hn. rewrite (sum_below_ext (g (S d)) (g d) n) by (intros i Hi; cbn [g]; replace (Nat.eqb i (lo + S d)) with false by (symmetry; apply Nat.eqb_neq; lia); reflexivity).
      cbn [g]. destruct (Nat.eqb_spec n (lo + S d)) as [->|N]; [reflexivity|]. apply Y. lia. }
  destruct C as (g & Cg). exists (fun n => g n n). split; [apply Cg|]. intros n Hn. rewrite (proj2 (Cg n) n) by lia. do 2 f_equal. apply sum_below_ext. intros i Hi.
  apply (U n i (g n) (g i)); try apply Cg. lia.
Qed.
Lemma follows_unique y y' : y lo = y' lo -> follows y -> follows y' -> forall n, (lo <= n)%nat -> y n = y' n.
Proof.
  intros E Y Y'. assert (Q : forall m n, (lo <= n)%nat -> (n < m)%nat -> y n = y' n).
  { induction m as [|m IH]; intros n L1 L2; [lia|]. destruct (Nat.eq_dec n lo) as [->|Ne]; [exact E|]. rewrite (Y n), (Y' n) by lia. do 2 f_equal. apply sum_below_ext. intros i Hi. apply IH; lia. }
  intros n Hn. apply (Q (S n)); lia.
Qed.
End Seq.

(** * The answer *)
Section Answer.
Context (I : interp) (rho : string -> R) (G : ginac) (HG : forall x, ginac_ok (with_x I x) G).
Context (si sa ex : expr -> expr) (dom : expr -> expr -> option nat).
Context (Hsa : forall x e, refines (with_x I x) e (sa e)).
Notation at_ := (at_n I rho).
Notation S_ k lo up := (SumE k (Num (zq (Z.of_nat lo))) up (Fun FX [Sym k])).
Notation classify rhs addend k lo up := (classify_weighted G si sa ex dom rhs addend k (Num (zq (Z.of_nat lo))) up (Fun FX [Sym k])).

Lemma initial_value w h lo (y : nat -> R) n a b : not_bound "n" (gadd G (gmul G w (Fun FX [Num (zq (Z.of_nat lo))])) h) ->
  at_ y (lo + 1) w = Some a -> at_ y (lo + 1) h = Some b -> at_ y n (initial_term G w h lo) = Some (a * y lo + b).
Proof using HG.
  intros NB A B. unfold initial_term, at_n in *.
  apply (substitute_ok (with_x I y) G (HG y) "n" (Num (zq (Z.of_nat lo + 1))) _) with (w := INR (lo + 1)).
  - apply no_capture_only; [|exact NB]. intros k Hk. discriminate.
  - cbn [eval]. rewrite rv_zq. f_equal. rewrite INR_IZR_INZ. f_equal. lia.
  - apply (gadd_val _ G (HG y)).
    + apply (gmul_val _ G (HG y)).
      * rewrite <- A. apply eval_ext. intros t. apply upd_upd.
      * cbn [eval omap obind with_x ifun]. rewrite rv_zq, as_int_IZR. replace (0 <=? Z.of_nat lo)%Z with true by (symmetry; apply Z.leb_le; lia). now rewrite Nat2Z.id.
    + rewrite <- B. apply eval_ext. intros t. apply upd_upd.
Qed.

(** No sum or product over the symbol n in the expressions built. *)
Record n_free (sol w' h' w h : expr) (lo : nat) : Prop := MkFree {
  nf_sol : not_bound "n" sol; nf_w : not_bound "n" w; nf_h : not_bound "n" h; nf_w' : not_bound "n" w'; nf_h' : not_bound "n" h';
  nf_first : not_bound "n" (gadd G (gmul G w (Fun FX [Num (zq (Z.of_nat lo))])) h);
  nf_coeff : not_bound "n" (sa (gmul G (gdiv G w' (shifted G (-1) w')) (gadd G (Num 1%Qc) (shifted G (-1) w'))));
  nf_inhom : not_bound "n" (sa (gmul G w' (gsub G (gdiv G h' w') (gdiv G (shifted G (-1) h') (shifted G (-1) w'))))) }.

Theorem answer_ok rhs addend k lo up w' h' w h rfo rew expand sol F H y : classify rhs addend k lo up = Weighted w' h' w h rfo rew ->
  (expr_eqb up (Sym "n") && is_num 1%Qc (used_weight G (S_ k lo up) si rhs addend))%bool = false ->
  (forall x n, (lo < n)%nat -> at_ x n w = Some (F n) /\ at_ x n h = Some (H n)) -> (forall n, (lo < n)%nat -> F n <> 0) ->
  is_num (-(1))%Qc w' = false -> n_free sol w' h' w h lo -> general_solution I rho rfo 0 sol ->
  x_only_as (Fun FX [Num 0%Qc]) (initial_term G w h lo) (shifted G (-1 - Z.of_nat lo) sol) ->
  follows F H lo y -> forall n, (lo < n)%nat -> at_ y n (weighted_answer G expand sol w' h' w h rew lo) = Some (y n).
Proof using HG Hsa.
  intros E NU Vals NZ Nm [B0 B1 B2 B3 B4 B5 B6 B7] [_ Gs] Xo Y n Hn.
  assert (A : weighted_answer G expand sol w' h' w h rew lo = substitute G (Fun FX [Num 0%Qc]) (initial_term G w h lo) (shifted G (-1 - Z.of_nat lo) sol)).
  { unfold weighted_answer. rewrite Nm. destruct rew; [reflexivity|]. destruct (classify_inv G si sa ex dom _ _ _ _ _ _ _ _ _ _ _ E) as (_ & _ & _ & _ & _ & Ew & Eh & _ & _ & Er).
    symmetry in Er. apply orb_false_iff in Er as [Er1 Er2]. rewrite Er2 in Ew, Eh. subst w' h'. rewrite Er1 in Er2. cbn [normal_form snd] in Er2. apply Z.ltb_ge in Er2. replace lo with 0%nat by lia. reflexivity. }
  rewrite A. clear A. set (z := fun i => y (i + lo + 1)%nat).
  assert (W' : forall x i, (1 <= i)%nat -> at_ x i w' = Some (F (i + lo)%nat) /\ at_ x i h' = Some (H (i + lo)%nat)).
  { intros x i Hi. pose proof (shifts_ok I rho G HG si sa ex dom rhs addend k lo up w' h' w h rfo rew x i (F (i + lo)%nat) (H (i + lo)%nat) E B1 B2) as Sh. rewrite NU in Sh.
    cbv zeta in Sh. destruct Sh as (S1 & S2 & _). destruct (Vals x (i + lo)%nat ltac:(lia)). split; auto. }
  assert (Zs : solution_with I rho rfo 0 1 z z).
  { split; [reflexivity|]. intros i Hi. assert (Hi' : (1 <= i)%nat) by lia. destruct (W' z i Hi') as [a1 a2]. destruct (W' z (S i) ltac:(lia)) as [b1 b2].
    pose proof (first_order_ok I rho G HG si sa ex dom Hsa rhs addend k lo up w' h' w h rfo rew z i _ _ _ _ E Hi' B3 B4 B6 B7 a1 b1 a2 b2 (NZ (i + lo)%nat ltac:(lia)) (NZ (S i + lo)%nat ltac:(lia))) as Fo.
    unfold holds_at. etransitivity; [exact Fo|]. f_equal. pose proof (follows_step F H lo NZ y i Y Hi') as St. cbv zeta in St.
    unfold z. replace (i + lo + 1)%nat with (S (i + lo)) by lia. replace (i - 1 + lo + 1)%nat with (i + lo)%nat by lia. replace (S i + lo)%nat with (S (i + lo)) by lia. symmetry. exact St. }
  assert (Zv : at_ z n (shifted G (-1 - Z.of_nat lo) sol) = Some (y n)).
  { apply (shifted_v I rho G HG z n (n - 1 - lo)); [exact B0|lia|]. rewrite (Gs z z Zs (n - 1 - lo)%nat) by lia. f_equal. unfold z. f_equal. lia. }
  unfold at_n. apply (replace_x0 I G y z (HG y) (initial_term G w h lo) _ Xo); [|exact Zv].
  destruct (Vals y (lo + 1)%nat ltac:(lia)) as [V1 V2]. rewrite (initial_value w h lo y n (F (lo + 1)%nat) (H (lo + 1)%nat) B5 V1 V2 : eval _ _ _ = _). f_equal. symmetry. unfold z. cbn [Nat.add]. exact (follows_first F H lo y Y).
Qed.
End Answer.
