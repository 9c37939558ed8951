From Coq Require Import ZArith List Lia Field Arith Bool Permutation QArith Qcanon.
From Verif Require Import Fld FPoly SeqSpec SeqLemmas SumPolyModel SumPolyProofs LinSolve SolverModel SolverSpec ShiftOp GenSol SolverProofs1 SolverProofs2 SolverProofs3 NhpModel NhpProofs.
Import ListNotations.
Set Bullet Behavior "Strict Subproofs".
Local Close Scope Q_scope.

Section S.
Context {K : Fld}.
Add Field KFnhp2 : (fth K).
Local Open Scope fld_scope.

(** * Order two *)
Section Two.
Variables (l1 l2 : K) (lower : nat) (n : Z).
Hypothesis N1 : l1 <> 0.
Hypothesis N2 : l2 <> 0.
Hypothesis N12 : l1 <> l2.
Hypothesis Hn : (0 <= n)%Z.
Let d := l1 - l2.
Let roots : list (K * nat) := [(l1, 1%nat); (l2, 1%nat)].
Let rs : list (nat * K) := [(1%nat, l2); (0%nat, l1)].

Lemma val_scaled (e : entry) a l : val (option_map (fun (f : K -> K -> Z -> K) a l n => f a l n * (l / d)) e) a l n = val e a l n * (l / d).
Proof. destruct e; cbn [option_map val]; [reflexivity|ring]. Qed.
Definition contr (e : K * list K) : K :=
  D lower n (T (snd e) (fst e) l1 n) * (l1 / d) - D lower n (T (snd e) (fst e) l2 n) * (l2 / d).
Lemma special_eq (inh : list (K * list K)) sol : (forall e, In e inh -> fst e <> 0 /\ fst e <> l1 /\ fst e <> l2) ->
  subs_bases true 2 (map fst inh) rs (scale d (css_le2 true lower [l2; l1] inh)) n sol = Some (sol + lsum inh contr).
Proof.
  revert sol. induction inh as [|[b q] inh IH]; intros sol H.
  - cbn. f_equal. unfold lsum. cbn. ring.
  - destruct (H (b, q) (or_introl eq_refl)) as (Hb & H1 & H2). cbn [fst] in Hb, H1, H2.
    cbn [map fst css_le2 app scale subs_bases]. fold (scale d (css_le2 true lower [l2; l1] inh)).
    unfold scale at 1. cbn [map fst snd]. fold (scale d (css_le2 true lower [l2; l1] inh)).
    unfold rs at 2. cbn [subs_special]. unfold add_or_subtract. cbn [Nat.eqb Nat.odd Nat.even negb andb].
    rewrite !val_scaled. fold rs. rewrite IH by (intros; apply H; right; auto).
    f_equal. rewrite !sym_D by (auto; discriminate). unfold lsum. cbn [fold_right]. unfold contr at 2. cbn [fst snd]. ring.
Qed.
Lemma general_eq (inh : list (K * list K)) sol : (forall e, In e inh -> fst e <> 0) ->
  subs_bases false 2 (map fst inh) rs (scale d (css_le2 false lower [l2; l1] inh)) n sol = Some (sol + lsum inh contr).
Proof.
  revert sol. induction inh as [|[b q] inh IH]; intros sol H.
  - cbn. f_equal. unfold lsum. cbn. ring.
  - pose proof (H (b, q) (or_introl eq_refl)) as Hb. cbn [fst] in Hb.
    cbn [map fst css_le2 app subs_bases]. unfold scale. cbn [map].
    fold (scale d (css_le2 false lower [l2; l1] inh)). unfold rs at 1. cbn [subs_roots].
    unfold add_or_subtract. cbn [Nat.eqb Nat.odd Nat.even negb andb fst snd].
    fold rs. rewrite IH by (intros; apply H; right; auto). f_equal.
    pose proof (pair_D lower q b l1 n N1 Hb Hn) as P1. pose proof (pair_D lower q b l2 n N2 Hb Hn) as P2.
    assert (F : forall (c : bool) (e1 e2 : entry) l,
      val (if c then option_map (fun (f : K -> K -> Z -> K) a l n => f a l n * (l / d)) e1
           else option_map (fun (f : K -> K -> Z -> K) a l n => f a l n * (l / d)) e2) b l n
      = val (if c then e1 else e2) b l n * (l / d)).
    { intros c e1 e2 l. destruct c; apply val_scaled. }
    rewrite !F. fold (@entry K). rewrite P1, P2. unfold lsum. cbn [fold_right]. unfold contr at 2. cbn [fst snd]. ring.
Qed.
Lemma existsb_scale (es : list (entry * entry)) :
  vector_not_all_zero (map snd (scale d es)) = vector_not_all_zero (map snd es).
Proof.
  unfold vector_not_all_zero, scale. induction es as [|[e1 [e2|]] es IH]; cbn [map existsb snd option_map]; auto.
Qed.
Lemma special_zero (inh : list (K * list K)) : vector_not_all_zero (map snd (css_le2 true lower [l2; l1] inh)) = false.
Proof. unfold vector_not_all_zero. induction inh as [|[b q] inh IH]; auto. Qed.
Lemma general_nonzero (inh : list (K * list K)) e : In e inh -> (fst e = l1 \/ fst e = l2) -> ~ allzero (snd e) ->
  vector_not_all_zero (map snd (css_le2 false lower [l2; l1] inh)) = true.
Proof.
  intros Hin Hr Hz. unfold vector_not_all_zero.
  assert (SY : exists f, sym false lower (snd e) = Some f).
  { unfold sym. destruct (forallb _ (snd e)) eqn:E; [|eauto]. exfalso. apply Hz. apply Forall_forall.
    intros c Hc. rewrite forallb_forall in E. apply feqb_eq. auto. }
  destruct SY as (f0 & SY).
  induction inh as [|[b q] inh IH]; [contradiction|].
  cbn [css_le2 map app existsb snd]. destruct Hin as [<-|Hin].
  - cbn [fst snd] in *. destruct Hr as [-> | ->].
    + unfold pair_entry. rewrite feqb_refl. cbn [snd]. rewrite SY. cbn. apply orb_true_r.
    + unfold pair_entry. rewrite feqb_refl. cbn [snd]. now rewrite SY.
  - rewrite IH by auto. now rewrite !orb_true_r.
Qed.
Theorem order_2_poly_value (inh : list (K * list K)) f : lower = (2 + f)%nat ->
  (forall e, In e inh -> fst e <> 0 /\ ~ allzero (snd e)) ->
  order_2_poly roots inh f n = Some (D (2 + f) n (fun h => g_order_2 l1 l2 (n - h) * exp_poly inh h)).
Proof.
  intros HL HI. unfold order_2_poly, roots, compute_symbolic_sum. fold d.
  cbn [map fst snd order_of fold_right Nat.add]. change (Nat.ltb 2 2) with false. change (Nat.eqb 2 2) with true. cbv iota.
  cbn [rev app]. rewrite andb_true_r. change (S (S f)) with (2 + f)%nat. rewrite <- HL.
  assert (CB : combine (map fst inh) (map snd inh) = inh).
  { clear. induction inh as [|[b q] inh IH]; auto. cbn [map combine fst snd]. now rewrite IH. }
  rewrite CB. unfold subs_to_sum_roots_and_bases. cbn [order_of fold_right Nat.add map fst snd length seq combine rev app Nat.eqb].
  fold rs. cbn [andb]. rewrite existsb_scale. rewrite <- map_rev.
  assert (R : lsum (rev inh) contr = D lower n (fun h => g_order_2 l1 l2 (n - h) * exp_poly inh h)).
  { rewrite lsum_rev. pose proof (double_sum lower n [(l1, l1 / d); (l2, - (l2 / d))] inh) as DS.
    rewrite (D_ext lower n _ (fun h => lsum [(l1, l1 / d); (l2, - (l2 / d))] (fun r => snd r * zpow (fst r) (n - h)) * exp_poly inh h)).
    - rewrite <- DS. apply lsum_ext. intros e _. unfold contr. unfold lsum. cbn [fold_right fst snd].
      assert (SC : forall c l, D lower n (T (pscal c (snd e)) (fst e) l n) = D lower n (T (snd e) (fst e) l n) * c).
      { intros c l. transitivity (c * D lower n (T (snd e) (fst e) l n)); [|ring]. rewrite <- D_scal. apply D_ext.
        intros h. unfold T. rewrite peval_pscal. ring. }
      rewrite !SC. ring.
    - intros h. unfold lsum. cbn [fold_right fst snd]. f_equal. unfold g_order_2. rewrite !zpow_succ by auto.
      assert (d <> 0) by (now apply sub_neq0). unfold d in *. field. auto. }
  destruct (forallb (fun b => forallb (fun l => negb (l =? b)) [l2; l1]) (map fst inh)) eqn:AD.
  - rewrite special_zero. cbn [negb]. rewrite special_eq.
    + f_equal. rewrite <- R. ring.
    + intros e He. apply in_rev in He. split; [now apply HI|]. rewrite forallb_forall in AD.
      specialize (AD (fst e) (in_map fst _ _ He)). cbn [forallb] in AD. rewrite andb_true_r in AD.
      apply andb_true_iff in AD. destruct AD as [A2 A1]. apply negb_true_iff, feqb_neq in A1, A2. split; congruence.
  - assert (EX : exists e, In e inh /\ (fst e = l1 \/ fst e = l2)).
    { clear - AD. induction inh as [|e inh IH]; [discriminate|]. cbn [map forallb] in AD.
      destruct (l2 =? fst e) eqn:E2; [apply feqb_eq in E2; exists e; split; [left; auto|right; auto]|].
      destruct (l1 =? fst e) eqn:E1; [apply feqb_eq in E1; exists e; split; [left; auto|left; auto]|].
      cbn [negb andb] in AD. destruct (IH AD) as (e' & I & H). exists e'. split; [right; auto|auto]. }
    destruct EX as (e & He & Hr). rewrite (general_nonzero (rev inh) e); auto.
    + cbn [negb]. rewrite general_eq.
      * f_equal. rewrite <- R. ring.
      * intros e' He'. apply in_rev in He'. now apply HI.
    + now apply -> in_rev.
    + now apply HI.
Qed.
End Two.

(** The expression put in place of 1/(lambda - alpha). *)
Lemma replaced_difference (c d lambda alpha : K) : lambda ^ 2%nat = c * lambda + d -> alpha ^ 2%nat <> c * alpha + d ->
  (lambda + alpha - c) * / (- (alpha ^ 2%nat) + alpha * c + d) = / (lambda - alpha).
Proof.
  intros H1 H2. cbn [fpow] in *.
  assert (NE : lambda - alpha <> 0).
  { intros E. apply sub_eq0 in E. subst. apply H2. exact H1. }
  assert (NP : - (alpha * (alpha * 1)) + alpha * c + d <> 0).
  { intros E. apply H2. apply sub_eq0. transitivity (- (- (alpha * (alpha * 1)) + alpha * c + d)); [ring|rewrite E; ring]. }
  set (P := - (alpha * (alpha * 1)) + alpha * c + d) in *.
  apply (mul_cancel_l (lambda - alpha)); auto. apply (mul_cancel_l P); auto.
  assert (I1 : P * / P = 1) by (field; auto).
  assert (I2 : (lambda - alpha) * / (lambda - alpha) = 1) by (field; auto).
  rewrite I2. transitivity (P * / P * ((lambda - alpha) * (lambda + alpha - c))); [ring|]. rewrite I1.
  transitivity (lambda * (lambda * 1) - c * lambda + c * alpha - alpha * (alpha * 1)); [ring|]. rewrite H1. unfold P. ring.
Qed.

(** * Multiple roots *)
Lemma peval_subst_diff (g : list K) m x : peval (subst_diff g m) x = peval g (m - x).
Proof.
  induction g as [|c g IH]; [reflexivity|]. cbn [subst_diff]. rewrite peval_padd, peval_pmul, IH. cbn [peval]. ring.
Qed.
Lemma subtract_terms_eq (q : list K) r h cnt s :
  subtract_terms q r h cnt s = s - bsum cnt (fun j => peval q (ofn (h + j)) * r ^ (h + j)%nat).
Proof.
  revert h s. induction cnt as [|cnt IH]; intros h s; cbn [subtract_terms]; [cbn [bsum]; ring|].
  rewrite IH, bsum_first. rewrite zpow_ofnat. rewrite Nat.add_0_r.
  rewrite (bsum_ext cnt (fun i => peval q (ofn (h + S i)) * r ^ (h + S i)%nat) (fun j => peval q (ofn (S h + j)) * r ^ (S h + j)%nat)).
  - ring.
  - intros i _. now rewrite Nat.add_succ_r.
Qed.
Lemma fold_left_lsum {A} (l : list A) (F : A -> K) s : fold_left (fun acc e => acc + F e) l s = s + lsum l F.
Proof. apply fold_left_sum. Qed.
Theorem nhp_value (gd : list (K * list K)) order (inh : list (K * list K)) n :
  (forall e, In e gd -> fst e <> 0) -> (forall e, In e inh -> fst e <> 0) -> (0 <= n)%Z ->
  compute_non_homogeneous_part gd order inh n = D order n (fun h => exp_poly gd (n - h) * exp_poly inh h).
Proof.
  intros NG NB Hn. unfold compute_non_homogeneous_part.
  assert (P : forall e e', In e gd -> In e' inh ->
    (let q := pmul (subst_diff (snd e) (ofz n)) (snd e') in
     let ratio := 1 / fst e * fst e' in
     subtract_terms q ratio 0 order (sum_poly_times_exponentials q (Z.to_nat n) ratio) * zpow (fst e) n)
    = D order n (fun h => peval (snd e) (ofz (n - h)) * zpow (fst e) (n - h) * (peval (snd e') (ofz h) * zpow (fst e') h))).
  { intros e e' He He'. cbv zeta. rewrite subtract_terms_eq. cbn [Nat.add].
    assert (N1 : fst e <> 0) by auto. assert (N2 : fst e' <> 0) by auto.
    replace (1 / fst e * fst e') with (fst e' / fst e) by (field; auto).
    rewrite spte_D by (auto using div_neq0).
    match goal with |- ?u * ?v = _ => replace (u * v) with (v * u) by ring end.
    rewrite <- D_scal. apply D_ext. intros h. rewrite peval_pmul, peval_subst_diff, <- ofz_sub.
    pose proof (ratio_pow (fst e') (fst e) n h N2 N1) as R.
    transitivity (peval (snd e) (ofz (n - h)) * peval (snd e') (ofz h) * (zpow (fst e' / fst e) h * zpow (fst e) n)); [ring|].
    rewrite R. ring. }
  assert (G : forall l s, (forall e, In e l -> In e gd) ->
    fold_left (fun tot gi => fold_left (fun tot pj =>
      let q := pmul (subst_diff (snd gi) (ofz n)) (snd pj) in
      let ratio := 1 / fst gi * fst pj in
      let s := sum_poly_times_exponentials q (Z.to_nat n) ratio in
      tot + subtract_terms q ratio 0 order s * zpow (fst gi) n) (rev inh) tot) l s
    = s + lsum l (fun e => lsum inh (fun e' => D order n (fun h => peval (snd e) (ofz (n - h)) * zpow (fst e) (n - h) * (peval (snd e') (ofz h) * zpow (fst e') h))))).
  { intros l. induction l as [|e l IH]; intros s HI; cbn [fold_left].
    - unfold lsum. cbn [fold_right]. ring.
    - rewrite IH by (intros; apply HI; right; auto). cbv zeta.
      rewrite (fold_left_lsum (rev inh) (fun pj => subtract_terms (pmul (subst_diff (snd e) (ofz n)) (snd pj)) (1 / fst e * fst pj) 0 order
        (sum_poly_times_exponentials (pmul (subst_diff (snd e) (ofz n)) (snd pj)) (Z.to_nat n) (1 / fst e * fst pj)) * zpow (fst e) n)).
      rewrite lsum_rev.
      match goal with |- _ = s + lsum (e :: l) ?F => change (lsum (e :: l) F) with (F e + lsum l F) end. cbv beta.
      rewrite (lsum_ext inh _ (fun e' => D order n (fun h => peval (snd e) (ofz (n - h)) * zpow (fst e) (n - h) * (peval (snd e') (ofz h) * zpow (fst e') h)))).
      + ring.
      + intros e' He'. apply (P e e'); auto. apply HI. left; auto. }
  rewrite G by (intros e He; now apply in_rev). rewrite lsum_rev.
  match goal with |- 0 + ?u = _ => replace (0 + u) with u by ring end.
  rewrite (lsum_ext gd _ (fun e => D order n (fun h => peval (snd e) (ofz (n - h)) * zpow (fst e) (n - h) * exp_poly inh h))).
  - rewrite D_lsum. apply D_ext. intros h. rewrite (exp_poly_lsum gd).
    match goal with |- _ = ?u * ?v => replace (u * v) with (v * u) by ring end.
    rewrite <- lsum_const_mul. apply lsum_ext. intros e _. ring.
  - intros e _. rewrite D_lsum. apply D_ext. intros h. rewrite exp_poly_lsum. now rewrite lsum_const_mul.
Qed.
End S.
