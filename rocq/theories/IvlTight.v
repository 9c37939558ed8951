(** Sums and differences of intervals are not wider than necessary when the arithmetic is exact. *)
From Coq Require Import ZArith QArith Qcanon Reals Lra Lia Bool.
From Verif Require Import Bool3Model Ast IvlModel IvlSpec IvlProofs IvlProofs2 IvlProofs3 IvlProofs4 IvlProofs5 RatRootProofs IvlTightSpec.
Local Open Scope R_scope.
Set Bullet Behavior "Strict Subproofs".

Lemma four_points (Lx Ux Lz Uz : R -> Prop) a0 a1 a2 a3 :
  (forall s t, s <= t -> Lx s -> Lx t) -> (forall s t, s <= t -> Lz s -> Lz t) -> (forall s t, s <= t -> Ux t -> Ux s) -> (forall s t, s <= t -> Uz t -> Uz s) ->
  Lx a0 -> Ux a0 -> Lz a1 -> Uz a1 -> Lx a2 -> Uz a2 -> Ux a3 -> Lz a3 ->
  exists p, Lx p /\ Ux p /\ Lz p /\ Uz p /\ (p = a0 \/ p = a1 \/ p = a2 \/ p = a3).
Proof.
  intros MLx MLz MUx MUz X0 Y0 X1 Y1 X2 Y2 X3 Y3.
  assert (exists p, Lx p /\ Ux p /\ Uz p /\ (p = a0 \/ p = a2)) as (p & P1 & P2 & P3 & P4).
  { destruct (Rle_dec a0 a2) as [K|K]; [exists a0|exists a2]; repeat split; auto; [apply (MUz a0 a2)|apply (MUx a2 a0)]; auto; lra. }
  assert (exists q, Lz q /\ Ux q /\ Uz q /\ (q = a1 \/ q = a3)) as (q & Q1 & Q2 & Q3 & Q4).
  { destruct (Rle_dec a1 a3) as [K|K]; [exists a1|exists a3]; repeat split; auto; [apply (MUx a1 a3)|apply (MUz a3 a1)]; auto; lra. }
  destruct (Rle_dec p q) as [K|K].
  - exists q. repeat split; auto; [apply (MLx p q); auto|tauto].
  - exists p. repeat split; auto; [apply (MLz q p); auto; lra|tauto].
Qed.
Lemma holds_mono dir v c s t : sle dir s t -> holds dir v c s -> holds dir v c t.
Proof. unfold holds, sle, slt. destruct v as [|i|w q]; [tauto|tauto|]. destruct dir; intros K [H1 H2]; (split; [lra|intros E; specialize (H2 E); lra]). Qed.

Section Arith.
Variable A : arith.
Lemma split_side dir b v cl (m : bool) c a0 b0 r t :
  (m = true -> is_closed c = cl) -> (m = false -> cl = true) -> exact_sum A dir (bv b) v ->
  (t = INTEGER -> integer a0 /\ integer b0 /\ integer r /\ (forall s q, bv b = Fin s q -> is_closed b = true /\ integer (rv q)) /\ (forall s q, v = Fin s q -> cl = true)) ->
  side dir b a0 -> holds dir v cl b0 ->
  side dir (if m then meet dir (compute dir b (vadd A dir (bv b) v)) c else compute dir b (vadd A dir (bv b) v)) r ->
  exists a, side dir b a /\ holds dir v cl (r - a) /\ (t = INTEGER -> integer a).
Proof.
  intros M1 M2 X T H0 H1 H. destruct (bv b) as [|i|s q] eqn:EB.
  - apply side_holds in H0. rewrite EB in H0. destruct H0.
  - exists (r - b0). split; [apply side_holds; rewrite EB; apply side_holds in H0; rewrite EB in H0; exact H0|]. split; [replace (r - (r - b0)) with b0 by ring; exact H1|].
    intros E. destruct (T E) as (_ & K2 & K3 & _). apply integer_add; [exact K3|apply integer_opp, K2].
  - destruct v as [|j|t' p]; [destruct H1| |].
    + exists a0. split; [exact H0|]. split; [exact H1|]. intros E. apply (T E).
    + destruct (X s q t' p eq_refl eq_refl) as [w W].
      assert (V : exists w', vadd A dir (Fin s q) (Fin t' p) = (Fin w' (q + p)%Qc, false)) by (cbn [vadd]; rewrite W; cbn [with_zero]; eexists; reflexivity).
      destruct V as [w' V]. rewrite V in H.
      assert (K : sle dir (rv q + rv p) r /\ (is_closed b && cl = false -> slt dir (rv q + rv p) r)).
      { rewrite <- rv_add. destruct m.
        - specialize (M1 eq_refl). subst cl. unfold meet, compute in H. cbn [fst snd] in H. rewrite Bool.andb_false_r in H. change (is_closed (mkB (Fin w' (q + p)%Qc) (bf b))) with (is_closed b) in H.
          destruct (is_closed b) eqn:CB; cbn [andb].
          + apply side_holds in H. unfold set_oc in H. cbn [bv] in H. destruct (is_closed c), dir; exact H.
          + apply side_holds in H. cbn [bv] in H. change (is_closed (mkB (Fin w' (q + p)%Qc) (bf b))) with (is_closed b) in H. rewrite CB in H. exact H.
        - rewrite (M2 eq_refl), Bool.andb_true_r. unfold compute in H. cbn [fst snd] in H. rewrite Bool.andb_false_r in H. apply side_holds in H. exact H. }
      assert (S : forall a, sle dir (rv q) a -> (is_closed b = false -> slt dir (rv q) a) -> side dir b a) by (intros a S1 S2; apply side_holds; rewrite EB; split; assumption).
      destruct K as [K1 K2]. destruct (is_closed b) eqn:CB; [|destruct cl]; cbn [andb] in K2.
      * exists (rv q). split; [apply S; [unfold sle; destruct dir; lra|discriminate]|]. split.
        -- split; [unfold sle in *; destruct dir; lra|]. intros E. specialize (K2 E). unfold slt in *. destruct dir; lra.
        -- intros E. destruct (T E) as (_ & _ & _ & K & _). apply (K s q eq_refl).
      * exists (r - rv p). specialize (K2 eq_refl). split; [apply S; [|intros _]; unfold sle, slt in *; destruct dir; lra|]. split.
        -- split; [unfold sle; destruct dir; lra|discriminate].
        -- intros E. destruct (T E) as (_ & _ & _ & K & _). destruct (K s q eq_refl). congruence.
      * exists ((r + rv q - rv p) / 2). specialize (K2 eq_refl). split; [apply S; [|intros _]; unfold sle, slt in *; destruct dir; lra|]. split.
        -- split; [|intros _]; unfold sle, slt in *; destruct dir; lra.
        -- intros E. destruct (T E) as (_ & _ & _ & K & _). destruct (K s q eq_refl). congruence.
Qed.
(** Both sides of a sum: v1 and v2 with the flags c1 and c2 bound the second operand. *)
Lemma split_both x v1 v2 c1 c2 (m : bool) d1 d2 a0 b0 r t :
  (m = true -> is_closed d1 = c1 /\ is_closed d2 = c2) -> (m = false -> c1 = true /\ c2 = true) -> exact_sum A false (bv (lo x)) v1 -> exact_sum A true (bv (up x)) v2 ->
  (t = INTEGER -> integer a0 /\ integer b0 /\ integer r /\ integral (lo x) /\ integral (up x) /\ (forall s q, v1 = Fin s q -> c1 = true) /\ (forall s q, v2 = Fin s q -> c2 = true)) ->
  hull x a0 -> holds false v1 c1 b0 -> holds true v2 c2 b0 ->
  side false (if m then meet false (compute false (lo x) (vadd A false (bv (lo x)) v1)) d1 else compute false (lo x) (vadd A false (bv (lo x)) v1)) r ->
  side true (if m then meet true (compute true (up x) (vadd A true (bv (up x)) v2)) d2 else compute true (up x) (vadd A true (bv (up x)) v2)) r ->
  exists a, hull x a /\ holds false v1 c1 (r - a) /\ holds true v2 c2 (r - a) /\ (t = INTEGER -> integer a).
Proof.
  intros M1 M2 X1 X2 T [H1 H2] B1 B2 R1 R2.
  assert (II : forall b, integral b -> forall s q, bv b = Fin s q -> is_closed b = true /\ integer (rv q)).
  { intros b I s q E. destruct (I s q E) as [F [z Ez]]. unfold is_closed. rewrite F. split; [reflexivity|]. exists z. rewrite Ez. apply rv_zq. }
  destruct (split_side false (lo x) v1 c1 m d1 a0 b0 r t) as (a2 & P1 & P2 & P3); auto; try (intros E; apply M1, E); try (intros E; apply M2, E).
  { intros E. destruct (T E) as (T1 & T2 & T3 & T4 & T5 & T6 & T7). repeat split; auto; apply (II _ T4 s q); auto. }
  destruct (split_side true (up x) v2 c2 m d2 a0 b0 r t) as (a3 & Q1 & Q2 & Q3); auto; try (intros E; apply M1, E); try (intros E; apply M2, E).
  { intros E. destruct (T E) as (T1 & T2 & T3 & T4 & T5 & T6 & T7). repeat split; auto; apply (II _ T5 s q); auto. }
  destruct (four_points (side false (lo x)) (side true (up x)) (fun a => holds true v2 c2 (r - a)) (fun a => holds false v1 c1 (r - a)) a0 (r - b0) a2 a3) as (p & U1 & U2 & U3 & U4 & U5); auto.
  - intros s u L K. apply side_holds. apply side_holds in K. apply (holds_mono false _ _ s u); [exact L|exact K].
  - intros s u L K. apply (holds_mono true _ _ (r - s) (r - u)); [cbn; lra|exact K].
  - intros s u L K. apply side_holds. apply side_holds in K. apply (holds_mono true _ _ u s); [exact L|exact K].
  - intros s u L K. apply (holds_mono false _ _ (r - u) (r - s)); [cbn; lra|exact K].
  - replace (r - (r - b0)) with b0 by ring. exact B2.
  - replace (r - (r - b0)) with b0 by ring. exact B1.
  - exists p. split; [split; assumption|]. split; [exact U4|]. split; [exact U3|]. intros E. destruct (T E) as (T1 & T2 & T3 & _).
    destruct U5 as [-> | [-> | [-> | ->]]]; auto. apply integer_add; [exact T3|apply integer_opp, T2].
Qed.
End Arith.

Ltac sp := repeat match goal with |- _ /\ _ => split end.
Section Sums.
Variables (A : arith) (rep : Qc -> Prop).
Hypothesis Hd : directed A rep.
Lemma type_hull (b : bool) x r : formed rep x -> member r (set_type A b x) -> hull x r /\ (b = true -> integer r).
Proof.
  intros W H. destruct b; cbn [set_type] in H.
  - apply (set_integer_iff A rep) in H; [tauto|exact W].
  - apply (set_maybe_real_iff A rep Hd) in H; [split; [exact H|discriminate]|exact W].
Qed.
Lemma point_hull y b : formed rep y -> is_one_point y = true -> hull y b -> exists s q s', bv (lo y) = Fin s q /\ b = rv q /\ bv (up y) = Fin s' q.
Proof.
  intros W P H. destruct (one_point_val y b P H) as (s & q & E & ->). exists s, q. unfold is_one_point, b_eq in P. rewrite E in P. destruct (bv (up y)) as [|i|s' q']; cbn in P; try discriminate.
  apply Bool.andb_true_iff in P. destruct P as [P _]. apply qeq_iff in P. apply rv_inj in P. subst q'. exists s'. auto.
Qed.
Lemma exact_value v v' w w' dir : exact_sum A dir v w -> (forall s q, v' = Fin s q -> exists t, v = Fin t q) -> (forall s q, w' = Fin s q -> exists t, w = Fin t q) -> exact_sum A dir v' w'.
Proof. intros X H1 H2 s q t p E1 E2. destruct (H1 _ _ E1) as [s1 K1]. destruct (H2 _ _ E2) as [t1 K2]. apply (X s1 q t1 p K1 K2). Qed.
Lemma integral_closed b : integral b -> forall s q, bv b = Fin s q -> is_closed b = true.
Proof. intros I s q E. destruct (I s q E) as [F _]. unfold is_closed. rewrite F. reflexivity. Qed.
Lemma vneg_fin_inv v s q : vneg v = Fin s q -> v = Fin (negb s) (- q)%Qc.
Proof. destruct v as [|i|t p]; cbn; try discriminate. intros E. injection E as <- <-. rewrite Bool.negb_involutive. f_equal. ring. Qed.
Lemma holds_vneg dir v c t : holds dir (vneg v) c t -> holds (negb dir) v c (- t).
Proof.
  destruct v as [|i|s q]; cbn [holds vneg]; [tauto|intros <-; destruct i; reflexivity|]. rewrite rv_opp. unfold sle, slt. destruct dir; cbn [negb]; intros [H1 H2]; (split; [lra|intros E; specialize (H2 E); lra]).
Qed.

Lemma add_tight x y a0 b0 r : formed rep x -> formed rep y -> typed x -> typed y -> fl x = fl y ->
  (fl x = INTEGER -> integral (lo x) /\ integral (up x) /\ integral (lo y) /\ integral (up y)) ->
  exact_sum A false (bv (lo x)) (bv (lo y)) -> exact_sum A true (bv (up x)) (bv (up y)) -> member a0 x -> member b0 y ->
  member r (i_add A x y) -> exists a b, member a x /\ member b y /\ r = a + b.
Proof.
  intros W W' T T' F I X1 X2 Ha Hb H. destruct Ha as [HA IA], Hb as [HB IB]. destruct (hull_flags x a0 T HA) as [G1 G2]. pose proof HA as [A1 A2]. pose proof HB as [B1 B2].
  unfold i_add in H. destruct (is_one_point y) eqn:P.
  - destruct (point_hull y b0 W' P HB) as (s & q & s' & E1 & E0 & E2). subst b0. rewrite E1 in H, X1. rewrite E2 in X2.
    assert (V1 : holds false (Fin s q) true (rv q)) by (split; [cbn; lra|discriminate]). assert (V2 : holds true (Fin s q) true (rv q)) by (split; [cbn; lra|discriminate]).
    unfold i_add_v in H. apply type_hull in H.
    2: { split; [apply (add_bound A rep Hd false (lo x) _ false (lo x) a0 (rv q) true); assumption|apply (add_bound A rep Hd true (up x) _ false (up x) a0 (rv q) true); assumption]. }
    destruct H as [[R1 R2] IR].
    destruct (split_both A x (Fin s q) (Fin s q) true true false (lo x) (up x) a0 (rv q) r (fl x)) as (a & HAa & K1 & K2 & K3); auto; try discriminate.
    { apply (exact_value _ _ _ _ true X2); [eauto|]. intros u z E. injection E as <- <-. eauto. }
    { intros E. destruct (I E) as (I1 & I2 & I3 & I4). assert (QI : integer (rv q)) by (apply IB; congruence). sp; auto.
      apply IR. rewrite E. cbn. apply (is_integer_iff A rep Hd s q); [apply (proj1 W' _ _ E1)|exact QI]. }
    assert (EQ : r - a = rv q) by (destruct K1 as [K1 _], K2 as [K2 _]; cbn in K1, K2; lra).
    exists a, (rv q). split; [split; assumption|]. split; [split; assumption|]. lra.
  - assert (V1 : holds false (bv (lo y)) (is_closed (lo y)) b0) by (apply side_holds; exact B1). assert (V2 : holds true (bv (up y)) (is_closed (up y)) b0) by (apply side_holds; exact B2).
    apply type_hull in H.
    2: { split; [apply (add_bound A rep Hd false (lo x) _ true (lo y) a0 b0 (is_closed (lo y))); assumption|apply (add_bound A rep Hd true (up x) _ true (up y) a0 b0 (is_closed (up y))); assumption]. }
    destruct H as [[R1 R2] IR].
    destruct (split_both A x (bv (lo y)) (bv (up y)) (is_closed (lo y)) (is_closed (up y)) true (lo y) (up y) a0 b0 r (fl x)) as (a & HAa & K1 & K2 & K3); auto; try discriminate.
    { intros E. destruct (I E) as (I1 & I2 & I3 & I4). rewrite <- F, E in IR. specialize (IR eq_refl). specialize (IB (eq_trans (eq_sym F) E)). sp; auto; apply integral_closed; assumption. }
    exists a, (r - a). split; [split; assumption|]. split; [|ring]. split; [split; [apply (side_holds false); assumption|apply (side_holds true); assumption]|].
    intros E. rewrite <- F in E. apply integer_add; [|apply integer_opp, K3, E]. apply IR. rewrite <- F, E. reflexivity.
Qed.
Lemma sub_tight x y a0 b0 r : formed rep x -> formed rep y -> typed x -> typed y -> fl x = fl y ->
  (fl x = INTEGER -> integral (lo x) /\ integral (up x) /\ integral (lo y) /\ integral (up y)) ->
  exact_sum A false (bv (lo x)) (vneg (bv (up y))) -> exact_sum A true (bv (up x)) (vneg (bv (lo y))) -> member a0 x -> member b0 y ->
  member r (i_sub A x y) -> exists a b, member a x /\ member b y /\ r = a - b.
Proof.
  intros W W' T T' F I X1 X2 Ha Hb H. destruct Ha as [HA IA], Hb as [HB IB]. destruct (hull_flags x a0 T HA) as [G1 G2]. pose proof HA as [A1 A2]. pose proof HB as [B1 B2].
  unfold i_sub in H. destruct (is_one_point y) eqn:P.
  - destruct (point_hull y b0 W' P HB) as (s & q & s' & E1 & E0 & E2). subst b0. rewrite E1 in H, X2. rewrite E2 in X1. cbn [vneg] in X1, X2.
    assert (V1 : holds false (Fin (negb s) (- q)%Qc) true (- rv q)) by (split; [cbn; rewrite rv_opp; lra|discriminate]). assert (V2 : holds true (Fin (negb s) (- q)%Qc) true (- rv q)) by (split; [cbn; rewrite rv_opp; lra|discriminate]).
    unfold i_sub_v, sub_v, vsub in H. cbn [vneg] in H. apply type_hull in H.
    2: { split; [apply (add_bound A rep Hd false (lo x) _ false (lo x) a0 (- rv q) true); assumption|apply (add_bound A rep Hd true (up x) _ false (up x) a0 (- rv q) true); assumption]. }
    destruct H as [[R1 R2] IR].
    destruct (split_both A x (Fin (negb s) (- q)%Qc) (Fin (negb s) (- q)%Qc) true true false (lo x) (up x) a0 (- rv q) r (fl x)) as (a & HAa & K1 & K2 & K3); auto; try discriminate.
    { apply (exact_value _ _ _ _ false X1); [eauto|]. intros u z E. injection E as <- <-. eauto. }
    { intros E. destruct (I E) as (I1 & I2 & I3 & I4). assert (QI : integer (rv q)) by (apply IB; congruence). sp; auto; [apply integer_opp, QI|].
      apply IR. rewrite E. cbn. apply (is_integer_iff A rep Hd s q); [apply (proj1 W' _ _ E1)|exact QI]. }
    assert (EQ : r - a = - rv q) by (destruct K1 as [K1 _], K2 as [K2 _]; cbn in K1, K2; rewrite rv_opp in *; lra).
    exists a, (rv q). split; [split; assumption|]. split; [split; assumption|]. lra.
  - assert (V1 : holds true (vneg (bv (lo y))) (is_closed (lo y)) (- b0)) by (apply (holds_neg false), side_holds; exact B1). assert (V2 : holds false (vneg (bv (up y))) (is_closed (up y)) (- b0)) by (apply (holds_neg true), side_holds; exact B2).
    unfold sub_b, vsub in H. apply type_hull in H.
    2: { split; [apply (add_bound A rep Hd false (lo x) _ true (up y) a0 (- b0) (is_closed (up y))); assumption|apply (add_bound A rep Hd true (up x) _ true (lo y) a0 (- b0) (is_closed (lo y))); assumption]. }
    destruct H as [[R1 R2] IR].
    destruct (split_both A x (vneg (bv (up y))) (vneg (bv (lo y))) (is_closed (up y)) (is_closed (lo y)) true (up y) (lo y) a0 (- b0) r (fl x)) as (a & HAa & K1 & K2 & K3); auto; try discriminate.
    { intros E. destruct (I E) as (I1 & I2 & I3 & I4). rewrite <- F, E in IR. specialize (IR eq_refl). specialize (IB (eq_trans (eq_sym F) E)).
      sp; auto; [apply integer_opp, IB| |]; intros s q Q; apply vneg_fin_inv in Q; eapply integral_closed; eauto. }
    apply holds_vneg in K1. apply holds_vneg in K2. replace (- (r - a)) with (a - r) in K1, K2 by ring.
    exists a, (a - r). split; [split; assumption|]. split; [|ring]. split; [split; [apply (side_holds false); assumption|apply (side_holds true); assumption]|].
    intros E. rewrite <- F in E. apply integer_add; [apply K3, E|]. apply integer_opp, IR. rewrite <- F, E. reflexivity.
Qed.
End Sums.
