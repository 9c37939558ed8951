(** Proofs for C77. *)
From Coq Require Import ZArith QArith Qcanon Reals List String Bool Lia Lra.
From Verif Require Import Ast ExprModel ExprSpec ExprProofs1 ExprProofs2 ExprProofs3 SeqInterp ElimModel ElimSpec ElimProofs DecompModel NonLinModel NonLinSpec NonLinProofs NonLinProofs2 VerifyModel VerifySpec VerifyProofs VerifyProofs2 VerifyProofs3 PowProofs NLVerModel NLVerSpec.
Import ListNotations.
Local Open Scope R_scope.
Local Open Scope list_scope.

(** * Expressions with the conditions only *)
Section Agree.
Context (I : interp) (f k : nat) (c y : nat -> R).
Context (HX : forall l, ifun I FX l = None).
Context (E : forall j, (f <= j < f + k)%nat -> c j = y j).
Lemma only_all l : fold_right (fun a P => only_conditions f k a /\ P) True l <-> Forall (only_conditions f k) l.
Proof. induction l as [|a l IH]; cbn [fold_right]; [split; auto|]. rewrite IH. split; [intros [? ?]; constructor; auto|intros H; inversion H; auto]. Qed.
Lemma only_agree e : forall rho, only_conditions f k e -> eval (with_x I c) rho e = eval (with_x I y) rho e.
Proof.
  induction e using expr_ind'; intros rho O; cbn [only_conditions] in O; auto.
  - rewrite !eval_Add. apply only_all in O. induction H as [|a l Ha Hl IH]; auto. inversion O; subst. rewrite !esum_cons, Ha, IH; auto.
  - rewrite !eval_Mul. apply only_all in O. induction H as [|a l Ha Hl IH]; auto. inversion O; subst. rewrite !eprod_cons, Ha, IH; auto.
  - destruct O as [O1 O2]. cbn [eval]. now rewrite IHe1, IHe2.
  - assert (M : f0 <> FX -> Forall (only_conditions f k) l -> eval (with_x I c) rho (Fun f0 l) = eval (with_x I y) rho (Fun f0 l)).
    { intros Nf F. cbn [eval]. rewrite (omap_ext _ (eval (with_x I y) rho)).
      - destruct (omap _ l); cbn [obind]; auto. unfold with_x. cbn [ifun]. destruct f0; auto. contradiction.
      - rewrite Forall_forall in *. intros a Ha. now apply H, F. }
    destruct f0; try (apply M; [discriminate|now apply only_all]).
    destruct O as (j & Hj & ->). cbn [eval omap obind]. rewrite rv_zq. cbn [with_x ifun]. rewrite as_int_IZR.
    replace (0 <=? Z.of_nat j)%Z with true by (symmetry; apply Z.leb_le; lia). rewrite Nat2Z.id. f_equal. now apply E.
  - destruct O as (O1 & O2 & O3). cbn [eval]. rewrite (IHe1 rho), (IHe2 rho) by auto.
    destruct (eval (with_x I y) rho e1); cbn; auto. destruct (eval (with_x I y) rho e2); cbn; auto. destruct (as_int r); cbn; auto. destruct (as_int r0); cbn; auto.
    apply osum_ext. intros i _. apply IHe3. auto.
  - destruct O as (O1 & O2 & O3). cbn [eval]. rewrite (IHe1 rho), (IHe2 rho) by auto.
    destruct (eval (with_x I y) rho e1); cbn; auto. destruct (eval (with_x I y) rho e2); cbn; auto. destruct (as_int r); cbn; auto. destruct (as_int r0); cbn; auto.
    apply oprod_ext. intros i _. apply IHe3. auto.
Qed.
End Agree.

(** * Substitution *)
Section V.
Context (I : interp) (rho : string -> R) (G : ginac).
Context (HG : forall x, ginac_ok (with_x I x) G) (HK : x_kept G) (NBG : n_not_bound G).
Notation at_ := (at_n I rho).

Lemma sub_x_out a r e x r0 : x_outside e = true -> x_outside r = true ->
  (forall w, eval (with_x I x) r0 (Fun FX a) = Some w -> eval (with_x I x) r0 r = Some w) ->
  x_outside (substitute G (Fun FX a) r e) = true /\ forall v, eval (with_x I x) r0 e = Some v -> eval (with_x I x) r0 (substitute G (Fun FX a) r e) = Some v.
Proof.
  intros O Or Hr.
  induction e using expr_ind'; cbn [x_outside] in O; cbn [substitute].
  - cbn [expr_eqb]. split; auto.
  - cbn [expr_eqb]. split; auto.
  - cbn [expr_eqb]. split; auto.
  - cbn [expr_eqb]. apply forallb_out in O. rewrite Forall_forall in H, O. split.
    + apply (add_all_out G HK). rewrite Forall_forall. intros b Hb. apply in_map_iff in Hb as (c & <- & Hc). now apply H, O.
    + intros v E. apply (add_all_ok (with_x I x) G (HG x)). rewrite eval_Add in *. eapply esum_map; [|exact E]. rewrite Forall_forall. intros b Hb u Hu. apply H; auto.
  - cbn [expr_eqb]. apply forallb_out in O. rewrite Forall_forall in H, O. split.
    + apply (mul_all_out G HK). rewrite Forall_forall. intros b Hb. apply in_map_iff in Hb as (c & <- & Hc). now apply H, O.
    + intros v E. apply (mul_all_ok (with_x I x) G (HG x)). rewrite eval_Mul in *. eapply eprod_map; [|exact E]. rewrite Forall_forall. intros b Hb u Hu. apply H; auto.
  - cbn [expr_eqb]. apply andb_true_iff in O as [O1 O2]. destruct (IHe1 O1) as [A1 B1], (IHe2 O2) as [A2 B2]. split; [now apply (xo_pow _ HK)|].
    intros v E. apply (gpow_ok _ _ (HG x)). cbn [eval] in *.
    destruct (eval (with_x I x) r0 e1) as [u|] eqn:E1; [|discriminate]. cbn [obind] in *.
    destruct (eval (with_x I x) r0 e2) as [w|] eqn:E2; [|discriminate]. cbn [obind] in *.
    rewrite (B1 _ eq_refl), (B2 _ eq_refl). exact E.
  - destruct (expr_eqb (Fun f l) (Fun FX a)) eqn:E.
    + apply expr_eqb_eq in E. injection E as -> ->. split; auto.
    + apply forallb_out in O. rewrite Forall_forall in H, O. split.
      * apply (xo_fun _ HK). rewrite Forall_forall. intros b Hb. apply in_map_iff in Hb as (c & <- & Hc). now apply H, O.
      * intros v Hv. apply (gfun_ok _ _ (HG x)). cbn [eval] in *.
        destruct (omap (eval (with_x I x) r0) l) as [vs|] eqn:Ev; [|discriminate].
        rewrite (omap_map (with_x I x) r0 r0 _ l vs); auto. rewrite Forall_forall. intros b Hb u Hu. apply H; auto.
  - apply negb_true_iff in O. assert (F : x_free (SumE k e1 e2 e3)) by exact O.
    destruct (sub_free I G HG HK a r (SumE k e1 e2 e3) F) as [A B]. split; [now apply free_outside|]. intros v E. apply B, E.
  - apply negb_true_iff in O. assert (F : x_free (ProdE k e1 e2 e3)) by exact O.
    destruct (sub_free I G HG HK a r (ProdE k e1 e2 e3) F) as [A B]. split; [now apply free_outside|]. intros v E. apply B, E.
Qed.
Lemma sub_n_out r e : x_free r -> x_outside e = true -> x_outside (substitute G (Sym "n") r e) = true.
Proof.
  intros Fr. induction e using expr_ind'; cbn [x_outside]; intros O; cbn [substitute]; cbn [expr_eqb]; auto.
  - destruct (String.eqb s "n"); [now apply free_outside|reflexivity].
  - apply (add_all_out G HK). apply forallb_out in O. rewrite Forall_forall in *. intros b Hb. apply in_map_iff in Hb as (c & <- & Hc). now apply H, O.
  - apply (mul_all_out G HK). apply forallb_out in O. rewrite Forall_forall in *. intros b Hb. apply in_map_iff in Hb as (c & <- & Hc). now apply H, O.
  - apply andb_true_iff in O as [O1 O2]. apply (xo_pow _ HK); auto.
  - apply (xo_fun _ HK). apply forallb_out in O. rewrite Forall_forall in *. intros b Hb. apply in_map_iff in Hb as (c & <- & Hc). now apply H, O.
  - apply negb_true_iff in O. apply free_outside. exact (sub_n_free G HK r (SumE k e1 e2 e3) Fr O).
  - apply negb_true_iff in O. apply free_outside. exact (sub_n_free G HK r (ProdE k e1 e2 e3) Fr O).
Qed.
Lemma plug_out shifted ds : forall rhs y n w, x_outside rhs = true ->
  (forall d, In d ds -> (d <= n)%nat /\ x_outside (shifted d) = true /\ at_ y n (shifted d) = Some (y (n - d)%nat)) ->
  at_ y n rhs = Some w -> at_ y n (fold_left (plug G shifted) ds rhs) = Some w.
Proof.
  induction ds as [|d ds IH]; intros rhs y n w O H E; cbn [fold_left]; auto.
  destruct (H d (or_introl eq_refl)) as (Hd & F & V).
  assert (P : x_outside (plug G shifted rhs d) = true /\ at_ y n (plug G shifted rhs d) = Some w).
  { unfold plug. destruct (occurs (x_n_plus (- Z.of_nat d)) rhs); auto.
    assert (exists a, x_n_plus (- Z.of_nat d) = Fun FX a) as (a & Ea) by (unfold x_n_plus, x_n; destruct (- Z.of_nat d =? 0)%Z; eauto).
    assert (X : at_ y n (Fun FX a) = Some (y (n - d)%nat)) by (rewrite <- Ea; apply x_n_plus_val; lia).
    rewrite Ea. unfold at_n in *.
    destruct (sub_x_out a (shifted d) rhs y (upd rho "n" (INR n)) O F) as [A B]; [|split; auto].
    intros u Hu. congruence. }
  destruct P as [P1 P2]. apply IH; auto. intros d' Hd'. apply H. now right.
Qed.

Context (simplify_all simplify_sum rewrite : expr -> expr).
Context (Hsa : sound_simplification I simplify_all) (Hss : sound_simplification I simplify_sum) (Hrw : sound_simplification I rewrite).
Context (Osa : keeps_outside simplify_all) (Oss : keeps_outside simplify_sum).
Notation direct := (verify_directly G simplify_all simplify_sum rewrite).

Lemma residual_out order e rhs y f n w : not_bound "n" e -> x_outside e = true -> x_outside rhs = true -> has_values I rho f e y ->
  (f + order <= n)%nat -> at_ y n rhs = Some w -> at_ y n (traditional_residual G simplify_all simplify_sum order e rhs) = Some (y n - w).
Proof.
  intros NB F O V Hn E. unfold traditional_residual. apply (gsub_at I rho G HG); [apply V; lia|]. apply plug_out; auto.
  intros d Hd. apply in_seq1 in Hd. split; [lia|]. split.
  - apply Oss, Osa. apply sub_n_out; [apply n_shift_free|exact F].
  - apply (proj1 Hss). apply (proj1 Hsa). apply (shift_by_val I rho G HG); auto; [lia|]. apply V. lia.
Qed.

Lemma good_accepted (b : bool) v : (if b then Partially_correct else Provably_correct) = v -> accepted v.
Proof. intros <-. destruct b; [right|left]; reflexivity. Qed.

(** * Numeric conditions *)
Theorem direct_numeric partial p y : (1 <= p_order p)%nat -> p_ics p <> [] ->
  x_outside (p_rhs p) = true -> x_free (p_solution p) -> not_bound "n" (p_solution p) ->
  forall F, conditions_from (p_fvi p) (p_order p) (p_ics p) F -> has_values I rho F (p_solution p) y ->
  accepted (direct partial p) ->
  (forall i e, (F <= i < F + p_order p)%nat -> In (i, e) (p_ics p) -> (forall e', In (i, e') (p_ics p) -> e' = e) -> forall m, at_ y m e = Some (y i)) /\
  (forall n w, (F + p_order p <= n)%nat -> at_ y n (p_rhs p) = Some w -> y n = w).
Proof.
  intros Ho Hi O F0 NB F HF V Acc. assert (F = first_index p) by (eapply from_unique; eauto; now apply first_index_from). subst F.
  unfold verify_directly in Acc. replace (Nat.eqb (p_order p) 0) with false in Acc by (symmetry; apply Nat.eqb_neq; lia).
  assert (Sy : symbolic p = false) by (unfold symbolic; destruct (p_ics p); congruence).
  rewrite Sy in Acc. cbn [andb split_solution] in Acc.
  destruct (validate_numeric G simplify_all rewrite p (p_solution p)) eqn:Va; [|destruct Acc as [A|A]; discriminate A].
  destruct (traditional_step_3 _ _ _ _ _ _ _ _); [|destruct Acc as [A|A]; discriminate A].
  destruct (is_num 0 (simplify_all (rewrite (traditional_residual G simplify_all simplify_sum (p_order p) (p_solution p) (p_rhs p))))) eqn:Z0; [|destruct Acc as [A|A]; discriminate A].
  split.
  - intros i e Hi' Hin U m. rewrite <- (get_ic_in _ _ _ Hin U). unfold validate_numeric in Va. rewrite forallb_forall in Va.
    specialize (Va (i - first_index p)%nat ltac:(apply in_seq; lia)). replace (first_index p + (i - first_index p))%nat with i in Va by lia.
    apply expr_eqb_eq in Va. rewrite <- Va. apply (value_at_index_val I rho G HG simplify_all rewrite Hsa Hrw); auto. apply V. lia.
  - intros n w Hn E. pose proof (traditional_residual_val I rho G HG HK simplify_all simplify_sum Hsa Hss (p_order p) (p_solution p) (p_rhs p) y (first_index p) n w NB F0 O V Hn E) as D.
    apply (proj1 Hrw), (proj1 Hsa) in D. apply (zero_val I rho _ y n _ D) in Z0. lra.
Qed.

(** * Symbolic conditions *)
Lemma split_parts sol c n v : at_ c n sol = Some v -> not_bound "n" sol -> x_outside sol = true ->
  let st := split_solution G true sol in
  not_bound "n" (fst st) /\ x_outside (fst st) = true /\ not_bound "n" (snd st) /\
  exists u w, at_ c n (fst st) = Some u /\ at_ c n (snd st) = Some w /\ v = u + w.
Proof.
  intros E NB O.
  assert (D : (exists l, sol = Add l) \/ forall l, sol <> Add l) by (destruct sol; eauto; right; intros; discriminate).
  destruct D as [(l & ->)|NA].
  2:{ assert (S : split_solution G true sol = (sol, Num 0) \/ split_solution G true sol = (Num 0, sol)).
      { unfold split_solution. destruct sol; try (match goal with |- context [if ?c then _ else _] => destruct c end; auto). now elim (NA l). }
      cbv zeta. destruct S as [-> | ->]; cbn [fst snd].
      - split; auto. split; auto. split; [exact Logic.I|]. exists v, 0. split; auto. split; [cbn; f_equal; apply rv_0|ring].
      - split; [exact Logic.I|]. split; auto. split; auto. exists 0, v. split; [cbn; f_equal; apply rv_0|]. split; auto. ring. }
  cbn [split_solution]. cbn [not_bound] in NB. rewrite not_bound_all in NB. cbn [x_outside] in O. apply forallb_out in O. unfold at_n in *. rewrite eval_Add in E.
  revert v E. induction l as [|t l IH]; intros v E; cbn [fold_right].
  - cbn in E. injection E as <-. cbn [fst snd]. split; [exact Logic.I|]. split; [reflexivity|]. split; [exact Logic.I|]. exists 0, 0. cbn. rewrite !rv_0. split; auto. split; auto. ring.
  - rewrite esum_cons in E. apply olift2_some in E as (a & b & Ea & Eb & ->). inversion NB; subst. inversion O; subst. destruct (IH H4 H2 b Eb) as (P1 & P2 & P3 & u & w & Eu & Ew & ->).
    destruct (has_at_least_a_symbolic_initial_condition t) eqn:Hs; cbn [fst snd].
    + split; [apply NBG; auto|]. split; [apply (xo_add _ HK); auto|]. split; auto. exists (u + a), w. split; [apply (gadd_val _ G (HG c)); auto|]. split; auto. ring.
    + split; auto. split; auto. split; [apply NBG; auto|]. exists u, (w + a). split; auto. split; [apply (gadd_val _ G (HG c)); auto|ring].
Qed.

Theorem direct_symbolic partial p c y : (1 <= p_order p)%nat -> p_ics p = [] -> p_inhom p = Num 0%Qc -> (forall l, ifun I FX l = None) ->
  x_outside (p_rhs p) = true -> x_outside (p_solution p) = true -> not_bound "n" (p_solution p) -> only_conditions (p_fvi p) (p_order p) (p_solution p) ->
  (forall n, (p_fvi p <= n)%nat -> at_ c n (p_solution p) = Some (y n)) ->
  accepted (direct partial p) ->
  (forall i, (p_fvi p <= i < p_fvi p + p_order p)%nat -> y i = c i) /\
  (forall n w, (p_fvi p + p_order p <= n)%nat -> at_ y n (p_rhs p) = Some w -> y n = w).
Proof.
  intros Ho Hi Hh HX O Os NB OC V Acc. unfold verify_directly in Acc.
  replace (Nat.eqb (p_order p) 0) with false in Acc by (symmetry; apply Nat.eqb_neq; lia).
  assert (Sy : symbolic p = true) by (unfold symbolic; now rewrite Hi). rewrite Sy in Acc.
  destruct (split_solution G true (p_solution p)) as [wi part] eqn:Sp.
  destruct (validate_non_linear G simplify_all rewrite p wi part) eqn:Va; [|destruct Acc as [A|A]; discriminate A].
  destruct (traditional_step_3 _ _ _ _ _ _ _ _) eqn:T3; [|destruct Acc as [A|A]; discriminate A].
  rewrite Hh in Acc. change (is_num 0 (Num 0%Qc)) with true in Acc. cbn [andb] in Acc.
  destruct (is_num 0 part) eqn:Z0; [|destruct Acc as [A|A]; discriminate A].
  assert (P : forall s n v, at_ s n (p_solution p) = Some v -> not_bound "n" wi /\ x_outside wi = true /\ at_ s n wi = Some v).
  { intros s n v E. pose proof (split_parts _ s n v E NB Os) as D. cbv zeta in D. rewrite Sp in D. cbn [fst snd] in D.
    destruct D as (D1 & D2 & D3 & u & w & Eu & Ew & ->). split; auto. split; auto. apply (zero_val I rho _ s n w) in Z0; auto. rewrite Eu. f_equal. lra. }
  assert (IC : forall i, (p_fvi p <= i < p_fvi p + p_order p)%nat -> y i = c i).
  { intros i Hlt. unfold validate_non_linear in Va. rewrite forallb_forall in Va. specialize (Va (i - p_fvi p)%nat ltac:(apply in_seq; lia)).
    replace (p_fvi p + (i - p_fvi p))%nat with i in Va by lia. apply andb_true_iff in Va as [Va _]. apply expr_eqb_eq in Va.
    destruct (P c i (y i) (V i ltac:(lia))) as (N & _ & E). pose proof (value_at_index_val I rho G HG simplify_all rewrite Hsa Hrw wi c i (y i) N E 0) as X.
    rewrite Va in X. unfold at_n, nq in X. cbn [eval omap obind] in X. rewrite rv_zq in X. cbn [with_x ifun] in X. rewrite as_int_IZR in X.
    replace (0 <=? Z.of_nat i)%Z with true in X by (symmetry; apply Z.leb_le; lia). rewrite Nat2Z.id in X. congruence. }
  split; auto. intros n w Hn E.
  assert (HV : has_values I rho (p_fvi p) (p_solution p) y).
  { intros m Hm. rewrite <- (V m Hm). unfold at_n. apply (only_agree I (p_fvi p) (p_order p)); auto. }
  assert (HW : has_values I rho (p_fvi p) wi y) by (intros m Hm; exact (proj2 (proj2 (P y m (y m) (HV m Hm))))).
  destruct (P y n (y n) (HV n ltac:(lia))) as (N & Ow & _).
  unfold traditional_step_3 in T3. rewrite Hh in T3.
  assert (Og : x_outside (gsub G (p_rhs p) (Num 0%Qc)) = true) by (unfold gsub; apply (xo_add _ HK); auto; apply (xo_mul _ HK); auto).
  assert (Eg : at_ y n (gsub G (p_rhs p) (Num 0%Qc)) = Some (w - 0)) by (apply (gsub_at I rho G HG); auto; cbn; now rewrite rv_0).
  pose proof (residual_out (p_order p) wi _ y (p_fvi p) n _ N Ow Og HW Hn Eg) as D.
  apply (simplifies_to_zero_val I rho simplify_all rewrite Hsa Hrw _ _ _ _ T3) in D. lra.
Qed.
End V.

(** * The associated linear recurrence is never declared provably correct *)
Lemma partial_never G sa ss rw ex dsi dg p : (1 <= p_order p)%nat -> p_ics p = [] -> (forall r, p_reduced p = Some r -> p_const p = true /\ r true <> Provably_correct) ->
  verify_finite_order G sa ss rw ex dsi dg true p <> Provably_correct.
Proof.
  intros Ho Hi Hr. unfold verify_finite_order. replace (Nat.eqb (p_order p) 0) with false by (symmetry; apply Nat.eqb_neq; lia).
  assert (Sy : symbolic p = true) by (unfold symbolic; now rewrite Hi). rewrite Sy. cbn [andb].
  destruct (p_reduced p) as [r|] eqn:Er.
  - destruct (Hr r eq_refl) as [-> N]. exact N.
  - replace (if p_const p then @None (bool -> verdict) else None) with (@None (bool -> verdict)) by (destruct (p_const p); reflexivity).
    destruct (split_solution G true (p_solution p)) as [wi part]. destruct (fill_coefficients _ _ _ _ _); [|discriminate].
    destruct (validate_symbolic _ _ _ _ _ _); [|discriminate]. destruct (step_3 _ _ _ _ _ _ _ _ _) as [[|]|]; try discriminate.
    unfold step_4. rewrite Er. destruct (symbolic p && is_num 0 (p_inhom p))%bool; [destruct (is_num 0 part); discriminate|].
    cbv zeta. destruct (p_const p).
    + destruct (new_method _ _ _ _ _ _ _ _ _ _ _ _) as [[|]|]; try discriminate. destruct (is_num 0 _); try discriminate. destruct (is_num 0 _); discriminate.
    + destruct (is_num 0 _); try discriminate. destruct (is_num 0 _); discriminate.
Qed.

(** * c x(n-1)^a with an integer exponent *)
Section Simple.
Context (I : interp) (G : ginac) (HG : forall x, ginac_ok (with_x I x) G).
Fixpoint geoz (a : Z) (n : nat) : Z := match n with O => 0%Z | S n => (a * geoz a n + 1)%Z end.
Lemma geoz_val a n : IZR a <> 1 -> (IZR a ^ n - 1) * / (IZR a - 1) = IZR (geoz a n).
Proof. intros Ha. induction n; cbn [geoz pow]; [lra|]. rewrite plus_IZR, mult_IZR, <- IHn. field. lra. Qed.
Lemma pow_IZR' a n : IZR a ^ n = IZR (a ^ Z.of_nat n).
Proof. now rewrite pow_IZR. Qed.
Theorem simple_general_int rho c (m : Z) : rv c <> 0 -> m <> 1%Z ->
  general_solution I rho 1 (simple_rhs c (zq m)) (simple_solution G c (zq m)) positive_start.
Proof.
  intros Hc Hm X HX. set (a := zq m). assert (Ea : rv a = IZR m) by (unfold a; now rewrite rv_zq).
  assert (Ha : rv a <> 1). { rewrite Ea. intros E. apply eq_IZR in E. lia. }
  assert (X0 : X O <> 0) by (unfold positive_start in HX; lra).
  set (y := fun n => powerRZ (rv c) (geoz m n) * powerRZ (X O) (m ^ Z.of_nat n)).
  assert (Y0 : forall n, y n <> 0) by (intros n; apply Rmult_integral_contrapositive_currified; now apply powerRZ_NOR).
  assert (YS : y O = X O) by (unfold y; cbn [geoz Z.of_nat Z.pow]; rewrite powerRZ_O, powerRZ_1; ring).
  exists y. split; [|split; [|split]].
  - intros n. apply simple_val; auto.
    + rewrite Ea, geoz_val by (now rewrite <- Ea). now apply rpow_int.
    + rewrite Ea, pow_IZR'. now apply rpow_int.
  - intros i Hi. assert (i = O) by lia. now subst i.
  - unfold positive_start in *. now rewrite YS.
  - intros n Hn. destruct n; [lia|]. unfold holds_at. rewrite (simple_rhs_val I rho c a y n (powerRZ (y n) m)).
    + f_equal. unfold y. rewrite powerRZ_mult. rewrite !powerRZ_powerRZ by auto. cbn [geoz].
      rewrite powerRZ_add, powerRZ_1 by auto. rewrite (Z.mul_comm (geoz m n)). rewrite Nat2Z.inj_succ, Z.pow_succ_r by lia. rewrite (Z.mul_comm m (m ^ _)). ring.
    + rewrite Ea. now apply rpow_int.
Qed.
Theorem simple_general_pos rho c a : 0 < rv c -> rv a <> 1 ->
  general_solution I rho 1 (simple_rhs c a) (simple_solution G c a) positive_start.
Proof.
  intros Hc Ha X HX. set (X' := fun n : nat => X O).
  destruct (simple_general I G HG rho c a Hc Ha X') as (y & Y1 & Y2 & Y3 & Y4); [intros n; exact HX|].
  exists y. assert (YS : y O = X O) by (rewrite Y2 by lia; reflexivity). split; [|split; [|split]]; auto.
  - intros n. assert (P0 : 0 < X O) by exact HX.
    pose proof (simple_val I G HG rho c a X' n _ _ Ha (rpow_pos _ _ Hc) (rpow_pos _ _ P0)) as E1.
    pose proof (simple_val I G HG rho c a X n _ _ Ha (rpow_pos _ _ Hc) (rpow_pos _ _ P0)) as E2.
    rewrite E2, <- E1. apply Y1.
  - intros i Hi. assert (i = O) by lia. now subst i.
  - unfold positive_start. now rewrite YS.
Qed.
Theorem simple_accepted qlcm si sl dom rho rhs c a : rewrite_non_linear G qlcm si sl dom rhs = NL_simple c a -> c <> 0%Qc -> a <> 1%Qc ->
  general_solution I rho 1 rhs (simple_solution G c a) positive_start.
Proof.
  intros H Hc Ha.
  assert (A : rv a <> 1) by (intros E; apply Ha; apply rv_inj; rewrite E, rv_1; auto).
  assert (C : rv c <> 0) by (intros E; apply Hc; apply rv_inj; rewrite E, rv_0; auto).
  assert (S : general_solution I rho 1 (simple_rhs c a) (simple_solution G c a) positive_start).
  { destruct (Rlt_dec 0 (rv c)) as [P|N]; [now apply simple_general_pos|].
    assert (Z : q_is_int a = true).
    { assert (Q : q_lt c 0 = true) by (apply q_lt_spec; rewrite rv_0; lra).
      unfold rewrite_non_linear in H. destruct rhs as [| | | |l|r1 r2| | |]; try discriminate.
      - destruct (scan _ _ _ _ _) as [[[|] ce]|]; try discriminate. destruct (simple_pair l) as [[c' a']|]; [|destruct (Qc_eqb ce 1); discriminate].
        destruct (q_lt c' 0 && negb (q_is_int a'))%bool eqn:D; [discriminate|]. injection H as -> ->. rewrite Q in D. cbn [andb] in D. now apply negb_false_iff.
      - destruct r1 as [| | | | | |g l| |]; try discriminate. destruct g; try discriminate. destruct l as [|arg [|]]; try discriminate. destruct r2 as [a'| | | | | | | |]; try discriminate.
        destruct (constant_decrement arg); [|discriminate]. destruct (Qc_eqb q 1); [|discriminate]. assert (c = 1%Qc) by congruence. subst c. rewrite rv_1 in N. lra. }
    apply q_is_int_spec in Z. assert (Ea : a = zq (q_int a)) by (apply rv_inj; now rewrite rv_zq).
    rewrite Ea. apply simple_general_int; auto. intros E. apply A. now rewrite Z, E. }
  intros z Hz. destruct (S z Hz) as (y & Y1 & Y2 & Y3 & Y4). exists y. split; auto. split; auto. split; auto.
  intros n Hn. unfold holds_at. rewrite (simple_faithful I G qlcm si sl dom rhs c a H). now apply Y4.
Qed.
End Simple.

(** * The choice of the method *)
Lemma direct_not_partial G sa ss rw p : verify_directly G sa ss rw false p <> Partially_correct.
Proof.
  unfold verify_directly. destruct (Nat.eqb (p_order p) 0); [discriminate|]. destruct (split_solution _ _ _) as [wi part].
  match goal with |- context [if ?c then (if _ then _ else _) else _] => destruct c end; [|discriminate].
  destruct (traditional_step_3 _ _ _ _ _ _ _ _); [|discriminate].
  match goal with |- context [if ?c then (if _ then _ else _) else _] => destruct c end; match goal with |- context [if ?c then _ else _] => destruct c end; discriminate.
Qed.
Lemma non_linear_answer finite weighted associated v : verify_exact_solution Non_linear true finite weighted associated false = Some v ->
  (finite false = v /\ v <> Inconclusive) \/ (finite false = Inconclusive /\ associated true = v).
Proof. cbn [verify_exact_solution negb]. destruct (finite false); intros E; [left|left|right|left]; split; congruence. Qed.
Lemma provably_direct G sa ss rw p G' sa' ss' rw' ex dsi dg q weighted : (1 <= p_order q)%nat -> p_ics q = [] ->
  (forall r, p_reduced q = Some r -> p_const q = true /\ r true <> Provably_correct) ->
  verify_exact_solution Non_linear true (fun b => verify_directly G sa ss rw b p) weighted (fun b => verify_finite_order G' sa' ss' rw' ex dsi dg b q) false = Some Provably_correct ->
  accepted (verify_directly G sa ss rw false p).
Proof.
  intros Ho Hi Hr E. apply non_linear_answer in E as [[E _]|[_ E]]; [left; exact E|]. exfalso. revert E. now apply partial_never.
Qed.
Lemma partially_associated G sa ss rw p G' sa' ss' rw' ex dsi dg q weighted :
  verify_exact_solution Non_linear true (fun b => verify_directly G sa ss rw b p) weighted (fun b => verify_finite_order G' sa' ss' rw' ex dsi dg b q) false = Some Partially_correct ->
  accepted (verify_finite_order G' sa' ss' rw' ex dsi dg true q).
Proof. intros E. apply non_linear_answer in E as [[E _]|[_ E]]; [now apply direct_not_partial in E|right; exact E]. Qed.

Section Partially.
Context (I : interp) (rho : string -> R) (G : ginac) (HG : forall x, ginac_ok (with_x I x) G) (HK : x_kept G) (NBG : n_not_bound G).
Context (simplify_all simplify_sum rewrite expand decomp_simplify : expr -> expr) (degree : expr -> nat).
Context (Hsa : sound_simplification I simplify_all) (Hss : sound_simplification I simplify_sum) (Hrw : sound_simplification I rewrite) (Hex : sound_simplification I expand).
Theorem partially_sound qlcm simp_in simp_log domain_ok rhs base b p q weighted :
  log_exp_interp I -> preserves_x I simp_in -> preserves_x I simp_log ->
  rewrite_non_linear G qlcm simp_in simp_log domain_ok rhs = NL_log base (p_rhs q) -> base_value I base b ->
  not_nested rhs -> defined_on_positive I rho (p_order q) rhs ->
  (match rhs with Mul _ => positive_product I rho (p_order q) (simp_in (substitute_x_function G base EXPONENT rhs)) | _ => True end) ->
  not_nested (gpow G base (p_solution q)) ->
  (1 <= p_order q)%nat -> p_fvi q = 0%nat -> p_ics q = [] -> p_gcd q = 1%nat -> p_reduced q = None ->
  linear_rhs I rho (p_order q) (p_order q) (p_rhs q) (p_inhom q) ->
  x_outside (p_rhs q) = true -> x_outside (p_inhom q) = true -> not_bound "n" (p_solution q) ->
  ic_summands (p_solution q) -> ic_sum 0 (p_order q) (fst (split_solution G true (p_solution q))) ->
  (p_const q = true ->
     let '(with_ic, part) := split_solution G true (p_solution q) in
     (forall coeffs e, fill_coefficients G 1 0 (p_order q) with_ic = Some coeffs -> In e coeffs ->
        few_exponentials I rho (seq_of I rho e) (p_order q) (new_residual G rewrite expand (p_order q) e (gsub G (p_rhs q) (p_inhom q)))) /\
     few_exponentials I rho (seq_of I rho part) (List.length (exp_poly_decomposition G decomp_simplify (expand (p_inhom q)) "n") + p_order q)
       (new_residual G rewrite expand (p_order q) part (p_rhs q))) ->
  (forall c n, exists v, at_n I rho c n (p_solution q) = Some v) ->
  verify_exact_solution Non_linear true (fun b => verify_directly G simplify_all simplify_sum rewrite b p) weighted
    (fun b => verify_finite_order G simplify_all simplify_sum rewrite expand decomp_simplify degree b q) false = Some Partially_correct ->
  general_solution I rho (p_order q) rhs (log_solution G simp_in simp_log base (p_solution q)) positive.
Proof.
  intros HI P1 P2 RW BV NN DP PP NS Ho Hf Hi Hg Hr L O1 O2 NB IS IC FE TOT E. apply partially_associated in E.
  apply (log_general I G HG HI qlcm simp_in simp_log domain_ok P1 P2 rho rhs base (p_rhs q) b); auto.
  intros z _. set (y := fun n => match at_n I rho z n (p_solution q) with Some v => v | None => 0 end).
  assert (Y : forall n, at_n I rho z n (p_solution q) = Some (y n)) by (intros n; unfold y; destruct (TOT z n) as (v & ->); reflexivity).
  exists y. split; [exact Y|].
  pose proof (symbolic_sound I rho G HG HK NBG simplify_all simplify_sum rewrite expand decomp_simplify degree Hsa Hss Hrw Hex true q z y) as S.
  rewrite Hf, Hg in S. cbn [Nat.add] in S. specialize (S Ho Hi eq_refl Hr L O1 O2 NB IS IC FE (fun n _ => Y n) E). destruct S as [S1 S2].
  split; [exact S1|]. split; [exact Logic.I|]. intros n Hn. apply S2. lia.
Qed.
End Partially.
