From Coq Require Import ZArith QArith Qcanon Reals List String Bool Lia Lra.
From Verif Require Import Ast ExprModel ExprSpec ExprProofs1 ExprProofs2 ExprCases SeqInterp ElimModel ElimSpec ElimProofs NonLinProofs VerifyModel BoundVModel BoundVSpec.
Import ListNotations.
Local Open Scope R_scope.
Local Open Scope list_scope.

Lemma q_lt_rv p q : q_lt p q = true <-> rv p < rv q.
Proof. unfold q_lt. rewrite rv_lt. destruct (Qclt_le_dec p q) as [H|H]; split; auto; [discriminate|]. intros H2. exfalso. now apply (Qcle_not_lt _ _ H). Qed.
Lemma q_le_rv p q : q_le p q = true <-> rv p <= rv q.
Proof. unfold q_le. rewrite negb_true_iff. split; intros H. - destruct (Rle_or_lt (rv p) (rv q)); auto. apply q_lt_rv in H0. congruence. - destruct (q_lt q p) eqn:E; auto. apply q_lt_rv in E. lra. Qed.

Section B.
Context (G : ginac).

(** Step 2 keeps nothing. *)
Lemma partial_bound_nil bound : has_only_symbolic_initial_conditions bound = true -> partial_bound G bound = Num 0.
Proof.
  intros H. destruct bound as [q|c|s|l|l|a b|f l|k lo up e|k lo up e]; cbn [partial_bound]; try (rewrite H; reflexivity).
  cbn [has_only_symbolic_initial_conditions] in H. induction l as [|a l IH]; [reflexivity|]. cbn [forallb] in H. apply andb_true_iff in H as [H1 H2].
  cbn [fold_right]. rewrite H1. now apply IH.
Qed.
Lemma always_correct ss si sl kind arg rhs bound cond : has_only_symbolic_initial_conditions (ss bound) = true ->
  verify_bound G ss si sl kind arg rhs bound cond = Provably_correct.
Proof. intros H. unfold verify_bound. now rewrite partial_bound_nil. Qed.

Context (I : interp) (HG : ginac_ok I G) (rho : string -> R).
Notation at_ n e := (eval I (upd rho "n" (INR n)) e).

Lemma n_factor_power f : is_n_factor f = true -> power_of_n f.
Proof.
  unfold is_n_factor, is_n. intros H. apply orb_true_iff in H as [H|H]; [left; now apply expr_eqb_eq|].
  destruct f as [| | | | |a b| | |]; try discriminate. destruct b as [q| | | | | | | |]; try discriminate.
  apply andb_true_iff in H as [H H3]. apply andb_true_iff in H as [H1 H2]. apply expr_eqb_eq in H1. subst a.
  right. exists (Z.to_nat (q_int q)). apply Z.ltb_lt in H3. split; [lia|]. f_equal. f_equal. rewrite Z2Nat.id by lia. apply q_is_int_spec in H2. apply rv_inj. now rewrite rv_zq.
Qed.
Lemma power_of_n_val f n v : power_of_n f -> at_ n f = Some v -> exists k, (0 < k)%nat /\ v = INR n ^ k.
Proof.
  intros [->|(k & Hk & ->)] E.
  - exists 1%nat. split; [lia|]. cbn in E. change (upd rho "n" (INR n) "n") with (INR n) in E. injection E as <-. cbn. ring.
  - exists k. split; auto. cbn [eval obind] in E. unfold upd in E. rewrite String.eqb_refl in E. rewrite rv_zq, <- INR_IZR_INZ, rpow_nat in E. congruence.
Qed.
(** Mul l is coeff_n l times a power of n. *)
Lemma coeff_n_val l n v c : eprod I (upd rho "n" (INR n)) l = Some v -> at_ n (coeff_n G l) = Some c ->
  exists k, v = c * INR n ^ k /\ (existsb is_n_factor l = true -> (0 < k)%nat).
Proof.
  intros E C.
  assert (A : forall l v, eprod I (upd rho "n" (INR n)) l = Some v -> exists k u, v = u * INR n ^ k /\ (existsb is_n_factor l = true -> (0 < k)%nat)
               /\ eprod I (upd rho "n" (INR n)) (filter (fun f => negb (is_n_factor f)) l) = Some u).
  { clear l v E C. induction l as [|a l IH]; intros v E.
    - exists 0%nat, v. cbn in *. injection E as <-. repeat split; [ring|discriminate].
    - rewrite eprod_cons in E. apply olift2_some in E as (x & y & Ex & Ey & ->). destruct (IH y Ey) as (k & u & -> & K & U).
      cbn [existsb filter]. destruct (is_n_factor a) eqn:Na; cbn [negb orb].
      + destruct (power_of_n_val a n x (n_factor_power a Na) Ex) as (j & Hj & ->). exists (j + k)%nat, u. rewrite pow_add. repeat split; [ring|lia|exact U].
      + exists k, (x * u). repeat split; [ring|exact K|]. rewrite eprod_cons, Ex, U. reflexivity. }
  destruct (A l v E) as (k & u & -> & K & U). exists k. split; auto. f_equal. unfold coeff_n in C. rewrite (mul_all_ok I G HG _ _ u) in C; [congruence|]. now rewrite eval_Mul.
Qed.
Lemma split_val l n v : esum I (upd rho "n" (INR n)) l = Some v ->
  exists a b, at_ n (fst (split G l)) = Some a /\ at_ n (snd (split G l)) = Some b /\ v = a + b.
Proof.
  revert v. induction l as [|t l IH]; intros v E.
  - cbn in *. injection E as <-. exists 0, 0. rewrite rv_0. repeat split; ring.
  - rewrite esum_cons in E. apply olift2_some in E as (x & y & Ex & Ey & ->). destruct (IH y Ey) as (a & b & A & B & ->).
    unfold split. cbn [fold_right]. fold (split G l). destruct (has "n" t); cbn [fst snd].
    + exists (a + x), b. repeat split; auto; [now apply (gadd_val I G HG)|ring].
    + exists a, (b + x). repeat split; auto; [now apply (gadd_val I G HG)|ring].
Qed.
Lemma above_val c o cond n cv ov : above c o cond = true -> at_ n c = Some cv -> at_ n o = Some ov -> (cond <= n)%nat ->
  forall k, (0 < k)%nat -> 0 <= cv * INR n ^ k + ov.
Proof.
  intros H C O Hn k Hk. destruct c as [d| | | | | | | |], o as [m| | | | | | | |]; try discriminate. cbn in H, C, O. injection C as <-. injection O as <-.
  apply andb_true_iff in H as [H H3]. apply andb_true_iff in H as [H1 H2]. apply q_lt_rv in H1, H2. apply q_le_rv in H3. rewrite rv_0 in *.
  unfold Qcdiv in H3. rewrite rv_mul, rv_opp in H3. unfold nq in H3. rewrite rv_zq, <- INR_IZR_INZ in H3.
  assert (D : rv (/ d)%Qc = / rv d).
  { apply (Rmult_eq_reg_l (rv d)); [|lra]. rewrite <- rv_mul, Rinv_r by lra. rewrite Qcmult_inv_r; [apply rv_1|]. intros ->. rewrite rv_0 in H1. lra. }
  rewrite D in H3. assert (P : - rv m <= rv d * INR cond).
  { apply (Rmult_le_compat_r (rv d)) in H3; [|lra]. rewrite Rmult_assoc, Rinv_l, Rmult_1_r in H3 by lra. lra. }
  assert (N : INR cond <= INR n) by now apply le_INR.
  assert (C0 : (0 < cond)%nat). { destruct cond; [|lia]. cbn in P. lra. }
  assert (N1 : 1 <= INR n) by (change 1 with (INR 1); apply le_INR; lia).
  assert (Pw : INR n <= INR n ^ k). { destruct k; [lia|]. cbn [pow]. rewrite <- (Rmult_1_r (INR n)) at 1. apply Rmult_le_compat_l; [lra|]. now apply pow_R1_Rle. }
  assert (rv d * INR cond <= rv d * INR n ^ k) by (apply Rmult_le_compat_l; lra). lra.
Qed.
Lemma power_factor f : power_of_n f -> is_n_factor f = true.
Proof.
  intros [->|(k & Hk & ->)]; [reflexivity|]. unfold is_n_factor. cbn [is_n expr_eqb]. rewrite q_is_int_zq, q_int_zq. apply orb_true_iff. right.
  replace (is_n (Sym "n")) with true by reflexivity. cbn [andb]. apply Z.ltb_lt. lia.
Qed.
Lemma ok_inequalities_sound l cond n v : ok_inequalities G l cond = true -> n_survives G l -> (cond <= n)%nat -> at_ n (Add l) = Some v -> 0 <= v.
Proof.
  intros H NS Hn E. rewrite eval_Add in E. destruct (split_val l n v E) as (a & b & A & B & ->). unfold ok_inequalities in H. unfold n_survives in NS. destruct (split G l) as [wn ot]. cbn [fst snd] in *.
  unfold is_n in H. destruct (expr_eqb wn (Sym "n")) eqn:W.
  - apply expr_eqb_eq in W. subst wn. cbn [eval] in A. change (upd rho "n" (INR n) "n"%string) with (INR n) in A. injection A as <-.
    pose proof (above_val (Num 1) ot cond n 1 b H ltac:(cbn; f_equal; apply rv_1) B Hn 1 ltac:(lia)) as R. cbn in R. lra.
  - destruct wn as [| | | |fs| | | |]; try discriminate. rewrite eval_Mul in A.
    assert (Q : exists q, coeff_n G fs = Num q) by (unfold above in H; destruct (coeff_n G fs); try discriminate; eauto). destruct Q as [q Q].
    destruct (NS fs q eq_refl Q) as (f & Hf & Pf).
    destruct (coeff_n_val fs n a (rv q) A) as (k & -> & K); [rewrite Q; reflexivity|].
    apply (above_val (coeff_n G fs) ot cond n (rv q) b H); auto; [rewrite Q; reflexivity|]. apply K. apply existsb_exists. exists f. split; auto. now apply power_factor.
Qed.
Lemma non_negative_sound diff cond n v : non_negative_diff G diff cond = true -> (forall l, diff = Add l -> n_survives G l) -> (cond <= n)%nat ->
  at_ n diff = Some v -> 0 <= v.
Proof.
  intros H NS Hn E. destruct diff as [q|c|s|l|l|a b|f l|k lo up e|k lo up e]; try discriminate.
  - cbn in *. apply q_le_rv in H. rewrite rv_0 in H. injection E as <-. exact H.
  - cbn [non_negative_diff] in H. eapply ok_inequalities_sound; eauto.
  - cbn [non_negative_diff] in H. destruct (coeff_n G l) as [q| | | | | | | |] eqn:C; try discriminate. apply q_lt_rv in H. rewrite rv_0 in H.
    rewrite eval_Mul in E. destruct (coeff_n_val l n v (rv q) E) as (k & -> & _); [rewrite C; reflexivity|].
    apply Rmult_le_pos; [lra|]. apply pow_le, pos_INR.
Qed.
(** The inductive step. *)
Context (si sl : expr -> expr) (Hsi : forall e, refines I e (si e)) (Hsl : forall e, refines I e (sl e)).
Lemma induction_sound kind arg rhs e cond n v w : verify_induction G si sl kind arg rhs e cond = Provably_correct ->
  (forall l, (gsub G e (approximation G si sl arg e rhs) = Add l \/ gsub G (approximation G si sl arg e rhs) e = Add l) -> n_survives G l) -> (cond <= n)%nat ->
  at_ n e = Some v -> at_ n (substitute G (Fun FX [arg]) (substitute G (Sym "n") arg e) rhs) = Some w ->
  match kind with Upper => w <= v | Lower => v <= w end.
Proof.
  intros H NS Hn V W. unfold verify_induction in H. destruct (base_refused G kind e cond); [discriminate|].
  assert (A : at_ n (approximation G si sl arg e rhs) = Some w) by (unfold approximation; apply Hsl, Hsi, W).
  destruct kind; destruct (non_negative_diff G _ cond) eqn:N in H; try discriminate.
  - pose proof (non_negative_sound _ cond n (v - w) N (fun l E => NS l (or_introl E)) Hn (gsub_val I G HG _ _ _ _ _ V A)). lra.
  - pose proof (non_negative_sound _ cond n (w - v) N (fun l E => NS l (or_intror E)) Hn (gsub_val I G HG _ _ _ _ _ A V)). lra.
Qed.
(** The base case. *)
Lemma base_sound kind arg rhs e cond v : verify_induction G si sl kind arg rhs e cond = Provably_correct -> not_bound "n" e ->
  (exists q, substitute G (Sym "n") (Num (nq cond)) e = Num q) -> at_ cond e = Some v -> match kind with Upper => 0 <= v | Lower => v <= 0 end.
Proof.
  intros H NB [q Q] E. unfold verify_induction in H. destruct (base_refused G kind e cond) eqn:B; [discriminate|]. unfold base_refused in B. rewrite Q in B.
  assert (X : eval I rho (substitute G (Sym "n") (Num (nq cond)) e) = Some v).
  { apply (substitute_ok I G HG "n" (Num (nq cond)) e (no_capture_num _ _ _ NB) rho v (INR cond)); auto. cbn. f_equal. unfold nq. now rewrite rv_zq, <- INR_IZR_INZ. }
  rewrite Q in X. cbn in X. injection X as <-. destruct kind.
  - destruct (Rle_or_lt 0 (rv q)) as [|L]; auto. rewrite <- rv_0 in L. apply q_lt_rv in L. unfold q_neg in B. congruence.
  - destruct (Rle_or_lt (rv q) 0) as [|L]; auto. rewrite <- rv_0 in L. apply q_lt_rv in L. unfold q_pos in B. congruence.
Qed.
End B.
