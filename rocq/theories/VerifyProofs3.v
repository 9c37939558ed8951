(** Proofs for C31: verify_finite_order. *)
From Coq Require Import ZArith QArith Qcanon Reals List String Bool Lia Lra.
From Verif Require Import Ast ExprModel ExprSpec ExprProofs1 ExprProofs2 ExprProofs3 SeqInterp ElimModel ElimSpec ElimProofs DecompModel NonLinProofs VerifyModel VerifySpec VerifyProofs VerifyProofs2.
Import ListNotations.
Local Open Scope R_scope.
Local Open Scope list_scope.

Lemma wsum_ext k f g : (forall d, (1 <= d <= k)%nat -> f d = g d) -> wsum k f = wsum k g.
Proof. induction k as [|k IH]; cbn [wsum]; intros H; auto. rewrite IH by (intros; apply H; lia). rewrite H by lia. auto. Qed.
Lemma wsum_add k f g : wsum k (fun d => f d + g d) = wsum k f + wsum k g.
Proof. induction k as [|k IH]; cbn [wsum]; [ring|]. rewrite IH. ring. Qed.
Lemma wsum_scal k c f : wsum k (fun d => c * f d) = c * wsum k f.
Proof. induction k as [|k IH]; cbn [wsum]; [ring|]. rewrite IH. ring. Qed.
Lemma wsum_rs k m f : wsum k (fun d => rs m (fun j => f d j)) = rs m (fun j => wsum k (fun d => f d j)).
Proof.
  induction m as [|m IH]; cbn [rs].
  - induction k as [|k IHk]; cbn [wsum]; auto. rewrite IHk. ring.
  - now rewrite wsum_add, IH.
Qed.
Lemma rs_add m f g : rs m (fun j => f j + g j) = rs m f + rs m g.
Proof. induction m as [|m IH]; cbn [rs]; [ring|]. rewrite IH. ring. Qed.
Lemma rs_delta m f i : (i < m)%nat -> rs m (fun j => f j * (if Nat.eqb i j then 1 else 0)) = f i.
Proof.
  induction m as [|m IH]; intros H; [lia|]. cbn [rs]. destruct (Nat.eqb_spec i m) as [->|Ne].
  - rewrite (rs_ext m _ (fun _ => 0)).
    + rewrite rs_const. ring.
    + intros j Hj. replace (Nat.eqb m j) with false by (symmetry; apply Nat.eqb_neq; lia). ring.
  - rewrite IH by lia. ring.
Qed.

Section V.
Context (I : interp) (rho : string -> R) (G : ginac).
Context (HG : forall x, ginac_ok (with_x I x) G) (HK : x_kept G) (NBG : n_not_bound G).
Context (simplify_all simplify_sum rewrite expand decomp_simplify : expr -> expr) (degree : expr -> nat).
Context (Hsa : sound_simplification I simplify_all) (Hss : sound_simplification I simplify_sum)
        (Hrw : sound_simplification I rewrite) (Hex : sound_simplification I expand).
Notation at_ := (at_n I rho).
Notation new_method_ := (new_method G simplify_all rewrite expand decomp_simplify degree).
Notation verify := (verify_finite_order G simplify_all simplify_sum rewrite expand decomp_simplify degree).
Notation num_exponentials inhom := (List.length (exp_poly_decomposition G decomp_simplify (expand inhom) "n")).
Notation residual := (new_residual G rewrite expand).

Lemma new_method_sound order rhs inhom e mults (part : bool) y f n w : (1 <= order)%nat ->
  new_method_ order rhs inhom e mults part = Some true ->
  let rhs' := if part then rhs else gsub G rhs inhom in
  few_exponentials I rho y ((if part then num_exponentials inhom else 0) + order) (residual order e rhs') ->
  not_bound "n" e -> x_free e -> x_outside rhs' = true -> has_values I rho f e y ->
  (f + order <= n)%nat -> at_ y n rhs' = Some w -> y n = w.
Proof.
  intros Ho H rhs' (NBd & ds & L & EP & Bn) NB F O V Hn E.
  pose proof (new_residual_val I rho G HG HK rewrite expand Hrw Hex order e rhs' y f n w NB F O V Hn E) as D.
  unfold new_method in H.
  assert (exists num deg, (if part then exponentials G expand decomp_simplify degree inhom else Some (0, 0)%nat) = Some (num, deg) /\
            num = (if part then num_exponentials inhom else 0%nat)) as (num & deg & Es & En).
  { destruct part; [|eauto]. destruct (exponentials G expand decomp_simplify degree inhom) as [[num deg]|] eqn:Ex; [|discriminate].
    exists num, deg. split; auto. unfold exponentials in Ex. destruct (forallb _ _); [|discriminate]. now injection Ex as <- _. }
  rewrite Es in H. fold rhs' in H. rewrite <- En in L.
  destruct (is_num 0 (residual order e rhs')) eqn:Z0.
  - apply (zero_val I rho _ y n) with (v := y n - w) in Z0; auto. lra.
  - destruct (buckets G (deg + (max_multiplicity mults - 1)) (residual order e rhs')) as [cs|] eqn:B; [|discriminate].
    assert (T : forallb (passes_tests G simplify_all (num + order)) cs = true) by congruence.
    pose proof (tests_sound I rho G HG simplify_all Hsa y ds NBG (num + order) (deg + (max_multiplicity mults - 1)) (residual order e rhs') cs
      ltac:(lia) L EP NBd Bn B T n) as Z. rewrite Z in D. assert (y n - w = 0) by congruence. lra.
Qed.

(** * Numeric initial conditions *)
Lemma value_at_index_val e y k v : not_bound "n" e -> at_ y k e = Some v -> forall m, at_ y m (value_at_index G simplify_all rewrite e k) = Some v.
Proof.
  intros NB E m. unfold value_at_index. apply (proj1 Hsa), (proj1 Hrw), (proj1 Hsa). now apply (at_index I rho G HG).
Qed.

Lemma step_4_sound partial p part y f n w : (1 <= p_order p)%nat -> p_reduced p = None ->
  accepted (step_4 G simplify_all simplify_sum rewrite expand decomp_simplify degree partial p part) ->
  (p_const p = true -> few_exponentials I rho y (num_exponentials (p_inhom p) + p_order p) (residual (p_order p) part (p_rhs p))) ->
  not_bound "n" part -> x_free part -> x_outside (p_rhs p) = true -> has_values I rho f part y ->
  (f + p_order p <= n)%nat -> at_ y n (p_rhs p) = Some w ->
  symbolic p && is_num 0 (p_inhom p) = false -> y n = w.
Proof.
  intros Ho Red Acc Few NB F O V Hn E Sy. unfold step_4 in Acc. rewrite Sy, Red in Acc.
  assert (Tr : accepted (if is_num 0 (simplify_all (rewrite (traditional_residual G simplify_all simplify_sum (p_order p) part (p_rhs p))))
       then if partial then Partially_correct else Provably_correct
       else if is_num 0 (simplify_all (simplify_all (rewrite (traditional_residual G simplify_all simplify_sum (p_order p) part (p_rhs p)))))
         then if partial then Partially_correct else Provably_correct else Inconclusive) -> y n = w).
  { intros A. eapply (traditional_sound I rho G HG HK simplify_all simplify_sum rewrite Hsa Hss Hrw (p_order p) part (p_rhs p) y f n w); auto.
    unfold simplifies_to_zero. destruct (is_num 0 (simplify_all (rewrite _))); auto. cbn [orb].
    destruct (is_num 0 _); auto. destruct A as [A|A]; discriminate A. }
  destruct (p_const p); auto.
  destruct (new_method_ _ _ _ _ _ _) as [[|]|] eqn:Nm; auto.
  - eapply (new_method_sound (p_order p) (p_rhs p) (p_inhom p) part _ true y f n w); eauto.
  - destruct Acc as [A|A]; discriminate A.
Qed.

Theorem numeric_sound partial p y : (1 <= p_order p)%nat -> p_ics p <> [] -> p_reduced p = None ->
  x_outside (p_rhs p) = true -> x_free (p_solution p) -> not_bound "n" (p_solution p) ->
  (p_const p = true -> few_exponentials I rho y (num_exponentials (p_inhom p) + p_order p) (residual (p_order p) (p_solution p) (p_rhs p))) ->
  has_values I rho (first_index p) (p_solution p) y ->
  accepted (verify partial p) ->
  (forall i, (i < p_order p)%nat -> forall m, at_ y m (get_ic (first_index p + i) (p_ics p)) = Some (y (first_index p + i)%nat)) /\
  (forall n w, (first_index p + p_order p <= n)%nat -> at_ y n (p_rhs p) = Some w -> y n = w).
Proof.
  intros Ho Hi Red O F NB Few V Acc. unfold verify_finite_order in Acc.
  replace (Nat.eqb (p_order p) 0) with false in Acc by (symmetry; apply Nat.eqb_neq; lia).
  assert (Sy : symbolic p = false) by (unfold symbolic; destruct (p_ics p); congruence).
  rewrite Sy in Acc. cbn [andb split_solution] in Acc.
  destruct (validate_numeric G simplify_all rewrite p (p_solution p)) eqn:Va; [|destruct Acc as [A|A]; discriminate A].
  destruct (step_3 _ _ _ _ _ _ _ _ _) as [[|]|]; try (destruct Acc as [A|A]; discriminate A).
  split.
  - intros i Hlt m. unfold validate_numeric in Va. rewrite forallb_forall in Va. specialize (Va i ltac:(apply in_seq; lia)).
    apply expr_eqb_eq in Va. rewrite <- Va. apply value_at_index_val; auto. apply V. lia.
  - intros n w Hn E. eapply (step_4_sound partial p (p_solution p) y (first_index p) n w); eauto. now rewrite Sy.
Qed.
Lemma max_ic_ge l i e : In (i, e) l -> (i <= max_ic l)%nat.
Proof. unfold max_ic. induction l as [|[j u] l IH]; intros []; cbn [fold_right fst]; [injection H as -> _; lia|specialize (IH H); lia]. Qed.
Lemma max_ic_in l : l <> [] -> exists e, In (max_ic l, e) l.
Proof.
  unfold max_ic. induction l as [|[j u] l IH]; intros H; [congruence|]. cbn [fold_right fst]. destruct l as [|b l]; [exists u; left; f_equal; cbn; lia|].
  destruct (IH ltac:(discriminate)) as (e & He). destruct (Nat.max_spec j (fold_right (fun ie m => Nat.max (fst ie) m) 0%nat (b :: l))) as [[_ ->]|[_ ->]]; [exists e; now right|exists u; now left].
Qed.
Lemma first_index_from p : (1 <= p_order p)%nat -> conditions_from (p_fvi p) (p_order p) (p_ics p) (first_index p).
Proof.
  intros Ho. unfold first_index. destruct (Nat.ltb_spec (p_fvi p + p_order p - 1) (max_ic (p_ics p))) as [L|L].
  - assert (E : (max_ic (p_ics p) - p_order p + 1 + p_order p - 1)%nat = max_ic (p_ics p)) by lia. split; [lia|split].
    + intros i e H. apply max_ic_ge in H. lia.
    + right. rewrite E. apply max_ic_in. intros C. rewrite C in L. cbn in L. lia.
  - split; [lia|split; [|left; reflexivity]]. intros i e H. apply max_ic_ge in H. lia.
Qed.
Lemma from_unique v k l F F' : (1 <= k)%nat -> conditions_from v k l F -> conditions_from v k l F' -> F = F'.
Proof.
  intros Hk (A1 & A2 & A3) (B1 & B2 & B3). destruct A3 as [->|(e & A3)], B3 as [->|(e' & B3)]; auto.
  - apply A2 in B3. lia.
  - apply B2 in A3. lia.
  - apply B2 in A3. apply A2 in B3. lia.
Qed.
Lemma conditions_unique p : (1 <= p_order p)%nat -> exists F, conditions_from (p_fvi p) (p_order p) (p_ics p) F /\
  forall F', conditions_from (p_fvi p) (p_order p) (p_ics p) F' -> F' = F.
Proof. intros Ho. exists (first_index p). split; [now apply first_index_from|]. intros F' H. eapply from_unique; eauto. now apply first_index_from. Qed.
Lemma get_ic_in l i e : In (i, e) l -> (forall e', In (i, e') l -> e' = e) -> get_ic i l = e.
Proof.
  induction l as [|[j u] l IH]; intros H U; [easy|]. cbn [get_ic]. destruct (Nat.eqb_spec j i) as [->|N]; [apply U; now left|].
  destruct H as [H|H]; [congruence|]. apply IH; auto. intros e' H'. apply U. now right.
Qed.
Theorem numeric_sound_from partial p y : (1 <= p_order p)%nat -> p_ics p <> [] -> p_reduced p = None ->
  x_outside (p_rhs p) = true -> x_free (p_solution p) -> not_bound "n" (p_solution p) ->
  (p_const p = true -> few_exponentials I rho y (num_exponentials (p_inhom p) + p_order p) (residual (p_order p) (p_solution p) (p_rhs p))) ->
  forall F, conditions_from (p_fvi p) (p_order p) (p_ics p) F -> has_values I rho F (p_solution p) y ->
  accepted (verify partial p) ->
  (forall i e, (F <= i < F + p_order p)%nat -> In (i, e) (p_ics p) -> (forall e', In (i, e') (p_ics p) -> e' = e) -> forall m, at_ y m e = Some (y i)) /\
  (forall n w, (F + p_order p <= n)%nat -> at_ y n (p_rhs p) = Some w -> y n = w).
Proof.
  intros Ho Hi Red O F0 NB Few F HF V Acc. assert (F = first_index p) by (eapply from_unique; eauto; now apply first_index_from). subst F.
  destruct (numeric_sound partial p y Ho Hi Red O F0 NB Few V Acc) as [S1 S2]. split; auto.
  intros i e Hi' Hin U m. rewrite <- (get_ic_in _ _ _ Hin U). specialize (S1 (i - first_index p)%nat ltac:(lia) m).
  replace (first_index p + (i - first_index p))%nat with i in S1 by lia. exact S1.
Qed.

(** * Symbolic initial conditions *)
Lemma free_only e : x_free e -> has_only_symbolic_initial_conditions e = true.
Proof.
  unfold x_free. induction e using expr_ind'; cbn [has_x_function has_only_symbolic_initial_conditions]; intros F; auto.
  - apply forallb_forall. rewrite Forall_forall in H. intros a Ha. apply H; auto. apply existsb_free in F. rewrite Forall_forall in F. now apply F.
  - apply forallb_forall. rewrite Forall_forall in H. intros a Ha. apply H; auto. apply existsb_free in F. rewrite Forall_forall in F. now apply F.
  - apply orb_false_iff in F as [F1 F2]. now rewrite IHe1, IHe2.
  - assert (Nf : f <> FX) by (intros ->; discriminate).
    assert (F' : existsb has_x_function l = false) by (destruct f; auto; discriminate). apply existsb_free in F'.
    assert (A : forallb has_only_symbolic_initial_conditions l = true).
    { apply forallb_forall. rewrite Forall_forall in *. intros a Ha. apply H; auto. now apply F'. }
    destruct f; try exact A. now elim Nf.
  - rewrite !orb_false_iff in F. destruct F as [[F1 F2] F3]. now rewrite IHe1, IHe2, IHe3.
  - rewrite !orb_false_iff in F. destruct F as [[F1 F2] F3]. now rewrite IHe1, IHe2, IHe3.
Qed.
Lemma nonneg_nq k : is_nonneg_int (Num (nq k)) = true.
Proof. unfold is_nonneg_int, nq. rewrite q_is_int_zq, q_int_zq. apply Z.leb_le. lia. Qed.
Lemma to_nat_nq k : to_nat (Num (nq k)) = Some k.
Proof. unfold to_nat, nq. rewrite q_is_int_zq, q_int_zq. replace (0 <=? Z.of_nat k)%Z with true by (symmetry; apply Z.leb_le; lia). cbn [andb]. now rewrite Nat2Z.id. Qed.
Lemma ic_term_symbolic t k cs : ic_term t k cs -> has_at_least_a_symbolic_initial_condition t = true.
Proof.
  intros (Fc & [(-> & ->)|(f1 & f2 & -> & ->)]); unfold has_at_least_a_symbolic_initial_condition.
  - cbn [has_x_function has_only_symbolic_initial_conditions]. unfold symbolic_index. change (zq (Z.of_nat k)) with (nq k). now rewrite nonneg_nq.
  - cbn [has_x_function has_only_symbolic_initial_conditions]. rewrite existsb_app, forallb_app. cbn [existsb forallb].
    change (has_x_function (Fun FX [Num (zq (Z.of_nat k))])) with true. rewrite orb_true_l, orb_true_r.
    change (has_only_symbolic_initial_conditions (Fun FX [Num (zq (Z.of_nat k))])) with (symbolic_index (Num (nq k))).
    unfold symbolic_index. rewrite nonneg_nq. apply Forall_app in Fc as [F1 F2]. rewrite Forall_forall in F1, F2.
    rewrite !(proj2 (forallb_forall _ _)); auto; intros a Ha; apply free_only; auto.
Qed.

Lemma split_sound sol c n v : ic_summands sol -> at_ c n sol = Some v -> not_bound "n" sol ->
  let st := split_solution G true sol in
  x_free (snd st) /\ not_bound "n" (fst st) /\ not_bound "n" (snd st) /\ exists u w, at_ c n (fst st) = Some u /\ at_ c n (snd st) = Some w /\ v = u + w.
Proof.
  intros IC E NB.
  assert (Single : (exists k cs, ic_term sol k cs) -> (forall l, sol <> Add l) -> split_solution G true sol = (sol, Num 0)).
  { intros (k & cs & Hic) NA. apply ic_term_symbolic in Hic. unfold has_at_least_a_symbolic_initial_condition in Hic.
    apply andb_true_iff in Hic as [_ Ho]. unfold split_solution. destruct sol; try (rewrite Ho; reflexivity). now elim (NA l). }
  assert (D : (exists l, sol = Add l) \/ forall l, sol <> Add l) by (destruct sol; eauto; right; intros; discriminate).
  destruct D as [(l & ->)|NA].
  2:{ cbv zeta. rewrite Single; auto; [|destruct sol; auto; now elim (NA l)]. cbn [fst snd]. split; [reflexivity|]. split; auto. split; [exact Logic.I|].
      exists v, 0. split; auto. split; [cbn; f_equal; apply rv_0|ring]. }
  cbn [split_solution]. cbn [ic_summands] in IC. cbn [not_bound] in NB. rewrite not_bound_all in NB. unfold at_n in *. rewrite eval_Add in E.
  clear Single. revert v E. induction IC as [|t l Ht Hl IH]; intros v E; cbn [fold_right].
  - cbn in E. injection E as <-. cbn [fst snd]. split; [reflexivity|]. split; [exact Logic.I|]. split; [exact Logic.I|]. exists 0, 0. cbn. rewrite !rv_0. split; auto. split; auto. ring.
  - rewrite esum_cons in E. apply olift2_some in E as (a & b & Ea & Eb & ->). inversion NB; subst. destruct (IH H2 b Eb) as (P1 & P2 & P3 & u & w & Eu & Ew & ->).
    destruct (has_at_least_a_symbolic_initial_condition t) eqn:Hs; cbn [fst snd].
    + split; auto. split; [apply NBG; auto|]. split; auto. exists (u + a), w. split; [apply (gadd_val _ G (HG c)); auto|]. split; auto. ring.
    + assert (Ft : x_free t). { destruct Ht as [?|(k & cs & Hic)]; auto. apply ic_term_symbolic in Hic. congruence. }
      split; [apply (xk_add _ HK); auto|]. split; auto. split; [apply NBG; auto|]. exists u, (w + a). split; auto. split; [apply (gadd_val _ G (HG c)); auto|ring].
Qed.

(** coefficients: free of x, with values vals; the sum of c(f+j) vals_j. *)
Definition coeff_ok (e : expr) : Prop := x_free e /\ not_bound "n" e.
Fixpoint icsum (c : nat -> R) (k : nat) (vals : list R) : R := match vals with [] => 0 | v :: vals => c k * v + icsum c (S k) vals end.
Lemma icsum_rs c vals : forall k, icsum c k vals = rs (List.length vals) (fun j => c (k + j)%nat * nth j vals 0).
Proof.
  induction vals as [|v vals IH]; intros k; cbn [icsum List.length]; [reflexivity|]. rewrite rs_first, IH. cbn [nth]. rewrite Nat.add_0_r. f_equal.
  apply rs_ext. intros j _. now rewrite Nat.add_succ_comm.
Qed.
Lemma x_and_rest_ok k l1 l2 : Forall x_free (l1 ++ l2) ->
  x_and_rest G (l1 ++ Fun FX [Num (nq k)] :: l2) = Some (Num (nq k), mul_all G (l1 ++ l2)).
Proof.
  intros F.
  assert (R : forall l, Forall x_free l -> x_and_rest G l = Some (Num 0, mul_all G l)).
  { induction 1 as [|a l Ha Hl IH]; [reflexivity|]. cbn [x_and_rest]. rewrite IH. destruct a; try reflexivity. destruct f; try reflexivity. discriminate Ha. }
  induction l1 as [|a l1 IH]; cbn [app] in *.
  - cbn [x_and_rest]. rewrite R by auto. reflexivity.
  - inversion F as [|? ? Ha Hl]; subst. cbn [x_and_rest]. rewrite IH by auto. destruct a; try reflexivity. destruct f; try reflexivity. discriminate Ha.
Qed.
Lemma ic_term_value t k cs c n v : ic_term t k cs -> at_ c n t = Some v ->
  exists u, at_ c n (mul_all G cs) = Some u /\ v = c k * u.
Proof.
  assert (X : at_ c n (Fun FX [Num (nq k)]) = Some (c k)).
  { unfold at_n. cbn [eval omap obind with_x ifun]. rewrite rv_nq, INR_IZR, as_int_IZR. replace (0 <=? Z.of_nat k)%Z with true by (symmetry; apply Z.leb_le; lia). now rewrite Nat2Z.id. }
  intros (Fc & [(-> & ->)|(f1 & f2 & -> & ->)]) E.
  - exists 1. split; [unfold at_n; cbn; f_equal; apply rv_1|]. change (zq (Z.of_nat k)) with (nq k) in E. assert (v = c k) by congruence. subst. ring.
  - unfold at_n in *. rewrite eval_Mul, eprod_app, eprod_cons in E. change (zq (Z.of_nat k)) with (nq k) in E. rewrite X in E.
    destruct (eprod (with_x I c) (upd rho "n" (INR n)) f1) as [a|] eqn:E1; [|discriminate].
    destruct (eprod (with_x I c) (upd rho "n" (INR n)) f2) as [b|] eqn:E2; [|discriminate].
    exists (a * b). split; [|cbn in E; assert (v = a * (c k * b)) by congruence; subst; ring].
    apply (mul_all_ok _ _ (HG c)). rewrite eval_Mul, eprod_app, E1, E2. reflexivity.
Qed.
Definition vals_at c n (cs : list expr) (vals : list R) : Prop := Forall2 (fun e v => at_ c n e = Some v) cs vals.
Lemma add_at_vals e u c n : coeff_ok e -> at_ c n e = Some u -> forall k v v' vals f, add_at G k e v = Some v' -> Forall coeff_ok v -> vals_at c n v vals ->
  Forall coeff_ok v' /\ List.length v' = List.length v /\ exists vals', vals_at c n v' vals' /\ icsum c f vals' = icsum c f vals + c (f + k)%nat * u.
Proof.
  intros [Fe Ne] Eu. induction k as [|k IH]; intros v v' vals f A C W; destruct v as [|a v]; cbn [add_at] in A; try discriminate.
  - injection A as <-. inversion C as [|? ? [Ca1 Ca2] Cv]; subst. inversion W as [|? w ? ws Wa Wv]; subst. split.
    { constructor; auto. split; [apply (xk_add _ HK); auto|apply NBG; auto]. }
    split; [reflexivity|]. exists (w + u :: ws). split.
    { constructor; auto. apply (gadd_val _ G (HG c)); auto. }
    cbn [icsum]. rewrite Nat.add_0_r. ring.
  - destruct (add_at G k e v) as [v1|] eqn:E1; [|discriminate]. injection A as <-. inversion C as [|? ? Ca Cv]; subst. inversion W as [|? w ? ws Wa Wv]; subst.
    destruct (IH v v1 ws (S f) E1 Cv Wv) as (P1 & P2 & vals' & P3 & P4). split; [constructor; auto|]. split; [cbn; now rewrite P2|].
    exists (w :: vals'). split; [constructor; auto|]. cbn [icsum]. rewrite P4. replace (S f + k)%nat with (f + S k)%nat by lia. ring.
Qed.
Lemma zeros_vals c n m : vals_at c n (repeat (Num 0) m) (repeat 0 m) /\ forall f, icsum c f (repeat 0 m) = 0.
Proof.
  induction m as [|m [IH1 IH2]]; cbn [repeat]; [split; [constructor|reflexivity]|]. split.
  - constructor; auto. cbn. f_equal. apply rv_0.
  - intros f. cbn [icsum]. rewrite IH2. ring.
Qed.
Lemma fill_sound gcd f order e coeffs c n v : ic_sum f order e -> not_bound "n" e -> fill_coefficients G gcd f order e = Some coeffs ->
  at_ c n e = Some v ->
  Forall coeff_ok coeffs /\ List.length coeffs = order /\ exists vals, vals_at c n coeffs vals /\ v = icsum c f vals.
Proof.
  intros IC NB E V. destruct (zeros_vals c n order) as [Z1 Z2].
  assert (C0 : Forall coeff_ok (repeat (Num 0) order)).
  { apply Forall_forall. intros a Ha. apply repeat_spec in Ha. subst a. split; [reflexivity|exact Logic.I]. }
  assert (CM : forall cs, Forall x_free cs -> Forall (not_bound "n") cs -> coeff_ok (mul_all G cs)).
  { intros cs H1 H2. split; [now apply mul_all_free|now apply (mul_all_nb G)]. }
  assert (D : (exists l, e = Add l) \/ forall l, e <> Add l) by (destruct e; eauto; right; intros; discriminate).
  destruct D as [(l & ->)|NA].
  - cbn [fill_coefficients] in E. cbn [ic_sum] in IC. cbn [not_bound] in NB. rewrite not_bound_all in NB. unfold at_n in V. rewrite eval_Add in V.
    enough (P : Forall coeff_ok coeffs /\ List.length coeffs = List.length (repeat (Num 0) order) /\ exists vals, vals_at c n coeffs vals /\ icsum c f vals = v).
    { destruct P as (P1 & P2 & vals & P3 & P4). rewrite repeat_length in P2. eauto 6. }
    revert coeffs v E V. induction IC as [|t l (k & cs & Hk & Hic) Hl IH]; intros coeffs v E V.
    + cbn in E, V. injection E as <-. injection V as <-. split; auto. split; auto. exists (repeat 0 order). auto.
    + cbn [fold_right] in E. rewrite esum_cons in V. apply olift2_some in V as (a & b & Va & Vb & ->).
      destruct (fold_right (fill_addend G gcd f) (Some (repeat (Num 0) order)) l) as [w|] eqn:Ew; [|discriminate].
      inversion NB; subst. destruct (IH H2 w b eq_refl Vb) as (P1 & P2 & vals & P3 & P4).
      destruct (ic_term_value t k cs c n a Hic Va) as (u & Eu & ->).
      assert (Pos : position gcd f (Num (nq k)) = Some (k - f)%nat).
      { unfold position. rewrite to_nat_nq. replace (Nat.leb f k) with true by (symmetry; apply Nat.leb_le; lia). reflexivity. }
      assert (A : add_at G (k - f) (mul_all G cs) w = Some coeffs /\ coeff_ok (mul_all G cs)).
      { destruct Hic as (Fc & [(-> & ->)|(f1 & f2 & -> & ->)]).
        - cbn [fill_addend] in E. change (zq (Z.of_nat k)) with (nq k) in E. rewrite Pos in E. split; [exact E|]. split; [reflexivity|exact Logic.I].
        - cbn [fill_addend] in E. change (zq (Z.of_nat k)) with (nq k) in E. rewrite (x_and_rest_ok k f1 f2 Fc) in E. rewrite Pos in E. split; [exact E|].
          apply CM; auto. cbn [not_bound] in H1. rewrite not_bound_all in H1. apply Forall_app in H1 as [N1 N2]. inversion N2; subst. apply Forall_app; auto. }
      destruct A as [A C]. destruct (add_at_vals (mul_all G cs) u c n C Eu (k - f) w coeffs vals f A P1 P3) as (Q1 & Q2 & vals' & Q3 & Q4).
      split; auto. split; [congruence|]. exists vals'. split; auto. rewrite Q4, P4. replace (f + (k - f))%nat with k by lia. ring.
  - assert (IC' : exists cs, ic_term e f cs) by (destruct e; auto; now elim (NA l)). destruct IC' as (cs & Hic).
    destruct (ic_term_value e f cs c n v Hic V) as (u & Eu & ->).
    assert (A : set_first (mul_all G cs) (repeat (Num 0) order) = Some coeffs /\ coeff_ok (mul_all G cs)).
    { destruct Hic as (Fc & [(-> & ->)|(f1 & f2 & -> & ->)]).
      - split; [exact E|]. split; [reflexivity|exact Logic.I].
      - cbn [fill_coefficients] in E. cbn [not_bound] in NB. rewrite not_bound_all in NB.
        assert (Flt : forall l, Forall x_free l -> filter (fun g => negb (is_x_function g)) l = l).
        { induction 1 as [|a l Ha Hl IH]; [reflexivity|]. cbn [filter]. rewrite IH. destruct a; try reflexivity. destruct f0; try reflexivity. discriminate Ha. }
        rewrite filter_app in E. cbn [filter is_x_function negb] in E. apply Forall_app in Fc as [F1 F2]. rewrite !Flt in E by auto.
        split; [exact E|]. apply CM; [apply Forall_app; auto|]. apply Forall_app in NB as [N1 N2]. inversion N2; subst. apply Forall_app; auto. }
    destruct A as [A C]. destruct order as [|order]; cbn [repeat set_first] in A; [discriminate|]. injection A as <-. cbn [repeat] in *.
    inversion C0; subst. destruct (zeros_vals c n order) as [Y1 Y2]. split; [constructor; auto|]. split; [cbn; now rewrite repeat_length|].
    exists (u :: repeat 0 order). split; [constructor; auto|]. cbn [icsum]. rewrite Y2. ring.
Qed.

Lemma free_at e c c' n : x_free e -> at_ c n e = at_ c' n e.
Proof. intros F. unfold at_n. now apply NonLinProofs.x_free_eval. Qed.
Lemma all_new_each p mults cs : all_new G simplify_all rewrite expand decomp_simplify degree p mults cs = Some true ->
  forall e, In e cs -> new_method_ (p_order p) (p_rhs p) (p_inhom p) e mults false = Some true.
Proof.
  induction cs as [|a cs IH]; cbn [all_new]; intros H e Hin; [destruct Hin|].
  destruct (new_method_ (p_order p) (p_rhs p) (p_inhom p) a mults false) as [[|]|] eqn:E; try discriminate.
  destruct Hin as [<-|Hin]; auto.
Qed.
Lemma step_3_each p cs y : (1 <= p_order p)%nat -> step_3 G simplify_all simplify_sum rewrite expand decomp_simplify degree p cs = Some true ->
  forall e, In e cs -> not_bound "n" e -> x_free e -> x_outside (gsub G (p_rhs p) (p_inhom p)) = true ->
  (p_const p = true -> few_exponentials I rho y (p_order p) (residual (p_order p) e (gsub G (p_rhs p) (p_inhom p)))) ->
  forall f, has_values I rho f e y ->
  forall n w, (f + p_order p <= n)%nat -> at_ y n (gsub G (p_rhs p) (p_inhom p)) = Some w -> y n = w.
Proof.
  intros Ho H e Hin NB F O Few f V n w Hn E. unfold step_3 in H.
  assert (Tr : all_traditional G simplify_all simplify_sum rewrite p cs = true -> y n = w).
  { intros A. unfold all_traditional in A. rewrite forallb_forall in A. specialize (A e Hin).
    eapply (traditional_sound I rho G HG HK simplify_all simplify_sum rewrite Hsa Hss Hrw (p_order p) e); eauto. }
  destruct (p_const p); [|apply Tr; congruence].
  destruct (p_roots p) as [mults|]; [|apply Tr; congruence].
  destruct (all_new G simplify_all rewrite expand decomp_simplify degree p mults cs) as [[|]|] eqn:N; [|apply Tr; congruence|discriminate].
  eapply (new_method_sound (p_order p) (p_rhs p) (p_inhom p) e mults false y f n w); eauto. eapply all_new_each; eauto.
Qed.

Theorem symbolic_sound partial p c y : (1 <= p_order p)%nat -> p_ics p = [] -> p_gcd p = 1%nat -> p_reduced p = None ->
  linear_rhs I rho (p_fvi p + p_order p) (p_order p) (p_rhs p) (p_inhom p) ->
  x_outside (p_rhs p) = true -> x_outside (p_inhom p) = true -> not_bound "n" (p_solution p) ->
  ic_summands (p_solution p) -> ic_sum (p_fvi p) (p_order p) (fst (split_solution G true (p_solution p))) ->
  (p_const p = true ->
     let '(with_ic, part) := split_solution G true (p_solution p) in
     (forall coeffs e, fill_coefficients G (p_gcd p) (p_fvi p) (p_order p) with_ic = Some coeffs -> In e coeffs ->
        few_exponentials I rho (seq_of I rho e) (p_order p) (residual (p_order p) e (gsub G (p_rhs p) (p_inhom p)))) /\
     few_exponentials I rho (seq_of I rho part) (num_exponentials (p_inhom p) + p_order p) (residual (p_order p) part (p_rhs p))) ->
  (forall n, (p_fvi p <= n)%nat -> at_ c n (p_solution p) = Some (y n)) ->
  accepted (verify partial p) ->
  (forall i, (i < p_order p)%nat -> y (p_fvi p + i)%nat = c (p_fvi p + i)%nat) /\
  (forall n, (p_fvi p + p_order p <= n)%nat -> at_ y n (p_rhs p) = Some (y n)).
Proof.
  intros Ho Hi Hg Red Lin O Oi NB IC ICs Few V Acc. unfold verify_finite_order in Acc.
  replace (Nat.eqb (p_order p) 0) with false in Acc by (symmetry; apply Nat.eqb_neq; lia).
  assert (Sy : symbolic p = true) by (unfold symbolic; now rewrite Hi). rewrite Sy, Red in Acc. 
  replace (if true && p_const p then @None (bool -> verdict) else None) with (@None (bool -> verdict)) in Acc by (destruct (p_const p); reflexivity).
  pose proof (fun n v => split_sound (p_solution p) c n v IC) as Sp. cbv zeta in Sp.
  destruct (split_solution G true (p_solution p)) as [with_ic part]. cbn [fst snd] in Sp, ICs.
  destruct (fill_coefficients G (p_gcd p) (p_fvi p) (p_order p) with_ic) as [coeffs|] eqn:Fi; [|destruct Acc as [A|A]; discriminate A].
  destruct (validate_symbolic G simplify_all rewrite p coeffs part) eqn:Va; [|destruct Acc as [A|A]; discriminate A].
  rewrite Hg, Nat.div_1_r in Acc.
  destruct (step_3 _ _ _ _ _ _ _ _ _) as [[|]|] eqn:S3; try (destruct Acc as [A|A]; discriminate A).
  set (f := p_fvi p) in *. set (k := p_order p) in *.
  (* values *)
  destruct (Sp f (y f) (V f (le_n _)) NB) as (Fp & NBw & NBp & _).
  assert (VV : forall n, (f <= n)%nat -> exists vals, vals_at c n coeffs vals /\ at_ c n part = Some (y n - icsum c f vals) /\
              Forall coeff_ok coeffs /\ List.length coeffs = k).
  { intros n Hn. destruct (Sp n (y n) (V n Hn) NB) as (_ & _ & _ & u & w & Eu & Ew & Ey).
    destruct (fill_sound _ _ _ _ _ c n u ICs NBw Fi Eu) as (C1 & C2 & vals & C3 & ->). exists vals. split; auto. split; auto. rewrite Ew. f_equal. lra. }
  destruct (VV f (le_n _)) as (vals0 & _ & _ & Cok & Clen). rewrite Forall_forall in Cok.
  assert (Fst : firstn k coeffs = coeffs) by (rewrite <- Clen; apply firstn_all). rewrite Fst in S3.
  set (s := fun j => seq_of I rho (nth j coeffs (Num 0))). set (pp := seq_of I rho part).
  assert (Vs : forall j, (j < k)%nat -> forall n, (f <= n)%nat -> forall x, at_ x n (nth j coeffs (Num 0)) = Some (s j n)).
  { intros j Hj n Hn x. destruct (VV n Hn) as (vals & W & _). unfold s, seq_of.
    assert (Hin : In (nth j coeffs (Num 0)) coeffs) by (apply nth_In; lia).
    rewrite (free_at _ (fun _ => 0) x) by apply Cok, Hin. rewrite (free_at _ x c) by apply Cok, Hin.
    assert (exists v, at_ c n (nth j coeffs (Num 0)) = Some v) as (v & ->); auto.
    rewrite <- Clen in Hj. clear - W Hj. revert j Hj. induction W as [|e v es vs He W IH]; intros j Hj; [cbn in Hj; lia|].
    destruct j as [|j]; cbn [nth]; [eauto|]. apply IH. cbn in Hj. lia. }
  assert (Vp : forall n, (f <= n)%nat -> forall x, at_ x n part = Some (pp n)).
  { intros n Hn x. destruct (VV n Hn) as (vals & _ & W & _). unfold pp, seq_of. rewrite (free_at _ (fun _ => 0) x) by auto. rewrite (free_at _ x c) by auto. now rewrite W. }
  assert (Ey : forall n, (f <= n)%nat -> y n = rs k (fun j => c (f + j)%nat * s j n) + pp n).
  { intros n Hn. destruct (VV n Hn) as (vals & W & Wp & _). rewrite (Vp n Hn c) in Wp. assert (pp n = y n - icsum c f vals) by congruence.
    rewrite icsum_rs in H. assert (Lv : List.length vals = k) by (rewrite <- Clen; clear - W; induction W; cbn; congruence). rewrite Lv in H.
    replace (y n) with (rs k (fun j => c (f + j)%nat * nth j vals 0) + pp n) by lra. f_equal. apply rs_ext. intros j Hj. f_equal.
    assert (E1 : at_ c n (nth j coeffs (Num 0)) = Some (nth j vals 0)).
    { rewrite <- Clen in Hj. clear - W Hj. revert j Hj. induction W as [|e v es vs He W IH]; intros j Hj; [cbn in Hj; lia|].
      destruct j as [|j]; cbn [nth]; auto. apply IH. cbn in Hj. lia. }
    rewrite (Vs j Hj n Hn c) in E1. congruence. }
  split.
  - (* initial conditions *)
    intros i Hlt. unfold validate_symbolic in Va. rewrite forallb_forall in Va. specialize (Va i ltac:(apply in_seq; fold k; lia)).
    apply andb_true_iff in Va as [Va1 Va2]. rewrite forallb_forall in Va1. rewrite Ey by lia.
    assert (E0 : pp (f + i)%nat = 0).
    { apply (zero_val I rho _ c 0 _ (value_at_index_val part c (f + i) _ NBp (Vp (f + i)%nat ltac:(lia) c) 0)). exact Va2. }
    rewrite E0, Rplus_0_r. rewrite <- (rs_delta k (fun j => c (f + j)%nat) i Hlt). apply rs_ext. intros j Hj. f_equal.
    specialize (Va1 j ltac:(apply in_seq; lia)).
    assert (Hin : In (nth j coeffs (Num 0)) coeffs) by (apply nth_In; lia).
    pose proof (value_at_index_val (nth j coeffs (Num 0)) c (f + i) _ (proj2 (Cok _ Hin)) (Vs j Hj (f + i)%nat ltac:(lia) c) 0%nat) as Ev.
    apply is_num_eq in Va1. fold f in Va1. rewrite Va1 in Ev. cbn in Ev. assert (Er : s j (f + i)%nat = rv (if Nat.eqb i j then 1 else 0)%Qc) by congruence.
    rewrite Er. destruct (Nat.eqb i j); [apply rv_1|apply rv_0].
  - (* recurrence *)
    intros n Hn. destruct Lin as (a & g & Lin). fold f in Lin.
    assert (Og : x_outside (gsub G (p_rhs p) (p_inhom p)) = true).
    { unfold gsub. apply (xo_add _ HK); auto. apply (xo_mul _ HK); auto. }
    assert (Hs : forall j, (j < k)%nat -> s j n = wsum k (fun d => a d n * s j (n - d)%nat)).
    { intros j Hj. assert (Hin : In (nth j coeffs (Num 0)) coeffs) by (apply nth_In; lia). destruct (Cok _ Hin) as [C1 C2].
      destruct (Lin (s j) n Hn) as [L1 L2]. pose proof (gsub_at I rho G HG (s j) n _ _ _ _ L1 L2) as L3.
      assert (Hv : has_values I rho f (nth j coeffs (Num 0)) (s j)) by (intros m Hm; apply Vs; auto).
      rewrite (step_3_each p coeffs (s j) Ho S3 _ Hin C2 C1 Og (fun Hc => proj1 (Few Hc) coeffs _ eq_refl Hin) f Hv n _ Hn L3). fold k. ring. }
    assert (Hp : pp n = wsum k (fun d => a d n * pp (n - d)%nat) + g n).
    { destruct (Lin pp n Hn) as [L1 L2].
      destruct (symbolic p && is_num 0 (p_inhom p)) eqn:B.
      - unfold step_4 in Acc. rewrite B in Acc. apply andb_true_iff in B as [_ B].
        assert (Ez : is_num 0 part = true) by (destruct (is_num 0 part); auto; destruct Acc as [A|A]; discriminate A).
        apply (zero_val I rho _ pp n _ L2) in B. rewrite B.
        assert (Zp : forall m, (f <= m)%nat -> pp m = 0) by (intros m Hm; apply (zero_val I rho part pp m); auto).
        rewrite (wsum_ext k _ (fun d => 0 * 0)); [rewrite wsum_scal, (Zp n) by lia; ring|]. intros d Hd. rewrite Zp by (fold k in Hn; lia). ring.
      - eapply (step_4_sound partial p part pp f n); eauto; try (intros m Hm; apply Vp; auto). intros Hc. exact (proj2 (Few Hc)). }
    destruct (Lin y n Hn) as [L1 _]. rewrite L1. f_equal. rewrite (Ey n) by lia. fold k.
    rewrite (wsum_ext k _ (fun d => rs k (fun j => c (f + j)%nat * (a d n * s j (n - d)%nat)) + a d n * pp (n - d)%nat)).
    + rewrite wsum_add, wsum_rs. rewrite Hp. rewrite <- Rplus_assoc. f_equal. f_equal. apply rs_ext. intros j Hj. rewrite wsum_scal, <- Hs; auto.
    + intros d Hd. rewrite (Ey (n - d)%nat) by (fold k in Hn; lia). rewrite Rmult_plus_distr_l. f_equal.
      clear. induction k as [|k IH]; cbn [rs]; [ring|]. rewrite Rmult_plus_distr_l, IH. ring.
Qed.
End V.
