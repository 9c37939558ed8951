From Coq Require Import ZArith List Lia Field Arith Bool Permutation.
From Verif Require Import Fld FPoly SeqSpec SeqLemmas SumPolyModel SumPolyProofs LinSolve SolverModel SolverSpec ShiftOp GenSol SolverProofs1 SolverProofs2 SolverProofs3 NhpModel.
Import ListNotations.
Set Bullet Behavior "Strict Subproofs".

Section S.
Context {K : Fld}.
Add Field KFnhp : (fth K).
Local Open Scope fld_scope.

(** sum of F over 0..n minus the first [lower] terms *)
Definition D (lower : nat) (n : Z) (F : Z -> K) : K :=
  zsum 0 n F - bsum lower (fun j => F (Z.of_nat j)).
Lemma D_ext lower n F G : (forall h, F h = G h) -> D lower n F = D lower n G.
Proof.
  intros H. unfold D. rewrite (zsum_ext 0 n F G) by auto.
  now rewrite (bsum_ext lower (fun j => F (Z.of_nat j)) (fun j => G (Z.of_nat j))) by auto.
Qed.
Lemma D_0 lower n : D lower n (fun _ => 0) = 0.
Proof. unfold D. rewrite zsum_0, bsum_0; auto. ring. Qed.
Lemma D_add lower n F G : D lower n (fun h => F h + G h) = D lower n F + D lower n G.
Proof. unfold D. rewrite zsum_add, bsum_add. ring. Qed.
Lemma D_scal lower n c F : D lower n (fun h => c * F h) = c * D lower n F.
Proof. unfold D. rewrite zsum_scal, bsum_scal. ring. Qed.
Lemma D_lsum {A} lower n (l : list A) (F : A -> Z -> K) :
  lsum l (fun e => D lower n (F e)) = D lower n (fun h => lsum l (fun e => F e h)).
Proof.
  unfold lsum. induction l as [|e l IH]; cbn [fold_right]; [symmetry; apply D_0|].
  now rewrite IH, <- D_add.
Qed.
(** terms above n that vanish do not matter *)
Lemma D_zsum lower n F : (0 <= n)%Z -> (forall h, (n < h < Z.of_nat lower)%Z -> F h = 0) ->
  D lower n F = zsum (Z.of_nat lower) n F.
Proof.
  intros Hn HF. unfold D. destruct (Z.le_gt_cases (Z.of_nat lower - 1) n) as [L|L].
  - rewrite (zsum_split 0 (Z.of_nat lower - 1) n) by lia. rewrite zsum_bsum.
    replace (Z.of_nat lower - 1 + 1)%Z with (Z.of_nat lower) by lia. ring.
  - rewrite (zsum_empty (Z.of_nat lower)) by lia. rewrite <- zsum_bsum.
    rewrite (zsum_split 0 n (Z.of_nat lower - 1)) by lia.
    rewrite (zsum_0 (n + 1)); [ring|]. intros i Hi. apply HF. lia.
Qed.

Definition T (q : list K) (b l : K) (n h : Z) : K := zpow l (n - h) * (peval q (ofz h) * zpow b h).

Lemma spte_D (q : list K) (r : K) n lower : r <> 0 -> (0 <= n)%Z ->
  sum_poly_times_exponentials q (Z.to_nat n) r - bsum lower (fun j => peval q (ofn j) * r ^ j)
  = D lower n (fun h => peval q (ofz h) * zpow r h).
Proof.
  intros Hr Hn. unfold D. rewrite sum_poly_times_exponentials_correct by auto. f_equal.
  - unfold zsum. replace (Z.to_nat (n - 0 + 1)) with (S (Z.to_nat n)) by lia.
    apply bsum_ext. intros i Hi. replace (0 + Z.of_nat i)%Z with (Z.of_nat i) by lia. now rewrite ofz_ofnat, zpow_ofnat.
  - apply bsum_ext. intros i Hi. now rewrite ofz_ofnat, zpow_ofnat.
Qed.
Lemma ratio_pow (b l : K) n h : b <> 0 -> l <> 0 -> zpow (b / l) h * zpow l n = zpow l (n - h) * zpow b h.
Proof.
  intros Hb Hl. replace (b / l) with (b * / l) by (field; auto).
  replace (n - h)%Z with (n + - h)%Z by lia.
  rewrite zpow_mul_l by (auto using inv_neq0). rewrite zpow_add, zpow_neg by auto.
  assert (E : zpow (/ l) h = / zpow l h).
  { apply (mul_cancel_l (zpow l h)); [now apply zpow_neq0|]. rewrite <- zpow_mul_l by auto using inv_neq0.
    replace (l * / l) with (1 : K) by (field; auto). transitivity (1 : K).
    - destruct h as [|p|p]; cbn; rewrite ?fpow_1l; auto. field. apply one_neq_zero.
    - field. now apply zpow_neq0. }
  rewrite E. ring.
Qed.
Lemma div_neq0 (b l : K) : b <> 0 -> l <> 0 -> b / l <> 0.
Proof. intros Hb Hl. replace (b / l) with (b * / l) by (field; auto). apply mul_neq0; auto using inv_neq0. Qed.
Lemma return_sum_D distinct lower (q : list K) b l n : l <> 0 -> b <> 0 -> (distinct = false -> b = l) -> (0 <= n)%Z ->
  return_sum distinct lower q b l n = D lower n (T q b l n).
Proof.
  intros Hl Hb Hd Hn. unfold return_sum. rewrite sub_low_eq by auto.
  assert (E : (if distinct then sum_poly_times_exponentials q (Z.to_nat n) (b / l)
     else sum_poly_times_exponentials q (Z.to_nat n) 1) = sum_poly_times_exponentials q (Z.to_nat n) (b / l)).
  { destruct distinct; auto. rewrite Hd by auto. replace (l / l) with (1 : K) by (field; auto). reflexivity. }
  rewrite E, spte_D by (auto using div_neq0).
  match goal with |- ?u * ?v = _ => replace (u * v) with (v * u) by ring end.
  rewrite <- D_scal. apply D_ext. intros h. unfold T. pose proof (ratio_pow b l n h Hb Hl) as R.
  transitivity (peval q (ofz h) * (zpow (b / l) h * zpow l n)); [ring|]. rewrite R. ring.
Qed.
Lemma zero_coeffs (q : list K) x : forallb (fun c => c =? 0) q = true -> peval q x = 0.
Proof.
  intros H. apply peval_allzero. apply Forall_forall. intros c Hc. rewrite forallb_forall in H.
  apply feqb_eq. now apply H.
Qed.
Lemma sym_D distinct lower q b l n : l <> 0 -> b <> 0 -> (distinct = false -> b = l) -> (0 <= n)%Z ->
  val (sym distinct lower q) b l n = D lower n (T q b l n).
Proof.
  intros Hl Hb Hd Hn. unfold sym. destruct (forallb _ q) eqn:E; cbn [val].
  - rewrite (D_ext _ _ _ (fun _ => 0)); [now rewrite D_0|]. intros h. unfold T. rewrite zero_coeffs by auto. ring.
  - now apply return_sum_D.
Qed.
Lemma pair_D lower q b l n : l <> 0 -> b <> 0 -> (0 <= n)%Z ->
  val (if negb (b =? l) then fst (pair_entry lower b l q) else snd (pair_entry lower b l q)) b l n = D lower n (T q b l n).
Proof.
  intros Hl Hb Hn. unfold pair_entry. destruct (b =? l) eqn:E; cbn [negb].
  - apply feqb_eq in E. subst l. rewrite feqb_refl. cbn [snd]. now apply sym_D.
  - apply feqb_neq in E. assert (E' : (l =? b) = false) by (apply feqb_neq; congruence). rewrite E'. cbn [fst].
    apply sym_D; auto. discriminate.
Qed.

(** * Order three and more *)
Section Gt2.
Variables (order lower : nat) (n : Z).
Hypothesis ord : order <> 2%nat.
Hypothesis Hn : (0 <= n)%Z.

Lemma plus2 j (s t : K) : add_or_subtract order j s t = s + t.
Proof. unfold add_or_subtract. destruct (Nat.eqb_spec order 2); [contradiction|reflexivity]. Qed.
Definition entries (b : K) (p : list K) (ls gc : list K) : list (entry * entry) :=
  map (fun lc => pair_entry lower b (fst lc) (pscal (snd lc) p)) (combine ls gc).
Lemma css_roots_eq b p ls gc rest : length gc = length ls ->
  css_roots lower b ls (map (fun c => pscal c p) gc ++ rest) = Some (entries b p ls gc, rest).
Proof.
  revert gc. induction ls as [|l ls IH]; intros [|c gc] E; cbn [length] in E; try discriminate; auto.
  cbn [map app css_roots]. rewrite IH by lia. reflexivity.
Qed.
Definition conv_terms (b : K) (p : list K) (ls gc : list K) : K :=
  lsum (combine ls gc) (fun lc => D lower n (T (pscal (snd lc) p) b (fst lc) n)).
Lemma subs_roots_eq b p (rs : list (nat * K)) gc es sol : length gc = length rs -> b <> 0 ->
  (forall r, In r rs -> snd r <> 0) ->
  subs_roots order b rs (entries b p (map snd rs) gc ++ es) n sol = Some (sol + conv_terms b p (map snd rs) gc, es).
Proof.
  intros E Hb. revert gc sol E. induction rs as [|[j l] rs IH]; intros [|c gc] sol E NZ; cbn [length] in E; try discriminate.
  - cbn. f_equal. f_equal. unfold conv_terms. cbn. ring.
  - unfold entries. cbn [map snd combine app subs_roots fst].
    pose proof (pair_D lower (pscal c p) b l n (NZ (j, l) (or_introl eq_refl)) Hb Hn) as P.
    destruct (pair_entry lower b l (pscal c p)) as [d z]. cbn [fst snd] in P. rewrite plus2, P.
    fold (entries b p (map snd rs) gc). rewrite IH by (try lia; intros; apply NZ; right; auto).
    f_equal. f_equal. unfold conv_terms. cbn [combine lsum fold_right fst snd]. unfold lsum. cbn [fold_right fst snd]. ring.
Qed.
Lemma gt2_eq (rs : list (nat * K)) gc (inh : list (K * list K)) sol : length gc = length rs ->
  (forall r, In r rs -> snd r <> 0) -> (forall e, In e inh -> fst e <> 0) ->
  exists es, css_gt2 lower (map snd rs) (map fst inh) (flat_map (fun p => map (fun c => pscal c p) gc) (map snd inh)) = Some es /\
    subs_bases false order (map fst inh) rs es n sol = Some (sol + lsum inh (fun e => conv_terms (fst e) (snd e) (map snd rs) gc)).
Proof.
  intros E NZ. revert sol. induction inh as [|[b p] inh IH]; intros sol NB.
  - exists []. split; auto. cbn. f_equal. unfold lsum. cbn. ring.
  - cbn [map fst snd flat_map css_gt2]. rewrite css_roots_eq by (rewrite map_length; auto).
    destruct (IH (sol + conv_terms b p (map snd rs) gc)) as (es & E1 & E2); [intros; apply NB; right; auto|].
    rewrite E1. cbn [option_map]. exists (entries b p (map snd rs) gc ++ es). split; auto.
    cbn [subs_bases]. rewrite subs_roots_eq; auto; [|apply (NB (b, p)); left; auto]. rewrite E2.
    f_equal. unfold lsum. cbn [fold_right fst snd]. ring.
Qed.
End Gt2.

(** double sums *)
Lemma lsum_const_mul {A} (l : list A) c (F : A -> K) : lsum l (fun e => c * F e) = c * lsum l F.
Proof. unfold lsum. induction l as [|e l IH]; cbn [fold_right]; [ring|]. rewrite IH. ring. Qed.
Lemma exp_poly_lsum (inh : list (K * list K)) h : exp_poly inh h = lsum inh (fun e => peval (snd e) (ofz h) * zpow (fst e) h).
Proof. reflexivity. Qed.
Lemma double_sum lower n (lc : list (K * K)) (inh : list (K * list K)) :
  lsum inh (fun e => lsum lc (fun r => D lower n (T (pscal (snd r) (snd e)) (fst e) (fst r) n)))
  = D lower n (fun h => lsum lc (fun r => snd r * zpow (fst r) (n - h)) * exp_poly inh h).
Proof.
  rewrite (lsum_ext inh _ (fun e => D lower n (fun h => lsum lc (fun r => T (pscal (snd r) (snd e)) (fst e) (fst r) n h)))).
  2:{ intros e _. now rewrite D_lsum. }
  rewrite D_lsum. apply D_ext. intros h. rewrite exp_poly_lsum, <- lsum_const_mul.
  apply lsum_ext. intros e _. transitivity (peval (snd e) (ofz h) * zpow (fst e) h * lsum lc (fun r => snd r * zpow (fst r) (n - h))); [|ring].
  rewrite <- lsum_const_mul. apply lsum_ext. intros r _. unfold T. rewrite peval_pscal. ring.
Qed.
Lemma combine_rev {A B} (l : list A) (m : list B) : length l = length m -> combine (rev l) (rev m) = rev (combine l m).
Proof.
  revert m. induction l as [|x l IH]; intros [|y m] E; cbn in E; try discriminate; auto.
  cbn [rev combine]. rewrite <- IH by lia.
  assert (G : forall (a : list A) (b : list B) c d, length a = length b -> combine (a ++ c) (b ++ d) = combine a b ++ combine c d).
  { clear. induction a as [|u a IH]; intros [|v b] c d E; cbn in E; try discriminate; auto. cbn [app combine]. now rewrite IH by lia. }
  rewrite G by (rewrite !rev_length; lia). reflexivity.
Qed.
Lemma lsum_rev {A} (l : list A) (F : A -> K) : lsum (rev l) F = lsum l F.
Proof. apply lsum_perm. symmetry. apply Permutation_rev. Qed.

(** * The rearranged coefficients *)
Lemma coeff_of_base_spec (gd : list (K * K)) e : NoDup (map fst gd) -> In e gd -> coeff_of_base (fst e) gd = snd e.
Proof.
  intros ND Hin. unfold coeff_of_base. set (l0 := fst e). rewrite <- (fold_left_rev_right (fun e acc => if l0 =? fst e then snd e else acc)), rev_involutive.
  induction gd as [|a gd IH]; [contradiction|]. cbn [fold_right]. inversion ND as [|? ? N1 N2]; subst.
  destruct Hin as [<-|Hin].
  - now rewrite feqb_refl.
  - fold l0; destruct (l0 =? fst a) eqn:E; [|now apply IH].
    apply feqb_eq in E. exfalso. apply N1. rewrite <- E. now apply in_map.
Qed.
Lemma rearranged (gd : list (K * K)) (rs : list K) m : NoDup (map fst gd) -> Permutation (map fst gd) rs ->
  exists gc, length gc = length rs /\
   (if forallb (fun p => fst p =? fst (snd p)) (combine rs gd) then map snd gd
    else map (fun l => coeff_of_base l gd) rs ++ skipn (length rs) (map snd gd)) = gc /\
   lsum (combine rs gc) (fun r => snd r * zpow (fst r) m) = lsum gd (fun r => snd r * zpow (fst r) m).
Proof.
  intros ND P. eexists. split; [|split; [reflexivity|]].
  - pose proof (Permutation_length P) as L. rewrite map_length in L. destruct (forallb _ _).
    + now rewrite map_length.
    + rewrite app_length, map_length, skipn_length, map_length. lia.
  - pose proof (Permutation_length P) as L. rewrite map_length in L. destruct (forallb _ _) eqn:E.
    + assert (ER : rs = map fst gd).
      { clear - E L. revert gd E L. induction rs as [|l rs IH]; intros [|e gd] E L; cbn [length] in L; try discriminate; auto.
        cbn [combine forallb fst snd] in E. apply andb_true_iff in E. destruct E as [E1 E2]. apply feqb_eq in E1. subst l.
        cbn [map]. f_equal. apply IH; auto. }
      rewrite ER. clear. induction gd as [|[b c] gd IH]; auto. cbn [map fst snd combine]. unfold lsum in *. cbn [fold_right fst snd]. now rewrite IH.
    + rewrite skipn_all2 by (rewrite map_length; lia). rewrite app_nil_r.
      assert (C : combine rs (map (fun l => coeff_of_base l gd) rs) = map (fun l => (l, coeff_of_base l gd)) rs).
      { clear. induction rs as [|l rs IH]; auto. cbn [map combine]. now rewrite IH. }
      rewrite C, lsum_map. cbn [fst snd]. rewrite <- (lsum_perm _ _ _ P), lsum_map.
      apply lsum_ext. intros e He. now rewrite coeff_of_base_spec.
Qed.
Lemma rearranged_all (gd : list (K * K)) (rs : list K) : NoDup (map fst gd) -> Permutation (map fst gd) rs ->
  exists gc, length gc = length rs /\
   (if forallb (fun p => fst p =? fst (snd p)) (combine rs gd) then map snd gd
    else map (fun l => coeff_of_base l gd) rs ++ skipn (length rs) (map snd gd)) = gc /\
   forall m, lsum (combine rs gc) (fun r => snd r * zpow (fst r) m) = lsum gd (fun r => snd r * zpow (fst r) m).
Proof.
  intros ND P. destruct (rearranged gd rs 0 ND P) as (gc & L & E & _). exists gc. split; [|split]; auto.
  intros m. destruct (rearranged gd rs m ND P) as (gc' & _ & E' & H). congruence.
Qed.

Lemma snd_combine_seq {A} (l : list A) s : map snd (combine (seq s (length l)) l) = l.
Proof. revert s. induction l as [|x l IH]; intros s; auto. cbn [length seq combine map snd]. now rewrite IH. Qed.

Theorem order_k_poly_value (gd : list (K * K)) roots (inh : list (K * list K)) order f n :
  (2 < order_of roots)%nat -> NoDup (map fst gd) -> Permutation (map fst gd) (map fst roots) ->
  (forall r, In r roots -> fst r <> 0) -> (forall e, In e inh -> fst e <> 0) -> (0 <= n)%Z ->
  order_k_poly gd roots inh order f n =
  Some (D (order + f) n (fun h => lsum gd (fun r => snd r * zpow (fst r) (n - h)) * exp_poly inh h)).
Proof.
  intros HO ND P NZ NB Hn. unfold order_k_poly, prepare_for_symbolic_sum.
  pose proof (Permutation_length P) as L. rewrite !map_length in L.
  replace (Nat.ltb (length gd) (length (map fst roots))) with false by (symmetry; apply Nat.ltb_ge; rewrite map_length; lia).
  destruct (rearranged_all gd (map fst roots) ND P) as (gc & LG & -> & GC).
  unfold compute_symbolic_sum. replace (Nat.ltb 2 (order_of roots)) with true by (symmetry; now apply Nat.ltb_lt).
  set (rs := rev (combine (seq 0 (length roots)) (map fst roots))).
  assert (RS : map snd rs = rev (map fst roots)).
  { unfold rs. rewrite map_rev, <- (map_length fst roots), snd_combine_seq. reflexivity. }
  destruct (gt2_eq (order_of roots) (order + f) n ltac:(lia) Hn rs (rev gc) (rev inh) 0) as (es & E1 & E2).
  - rewrite rev_length, LG. rewrite <- (rev_length (map fst roots)), <- RS, map_length. reflexivity.
  - intros r Hr. assert (I : In (snd r) (map snd rs)) by now apply in_map. rewrite RS, <- in_rev in I.
    apply in_map_iff in I. destruct I as (r' & <- & I). now apply NZ.
  - intros e He. apply NB. now apply in_rev.
  - rewrite <- RS, <- !map_rev, E1.
    unfold subs_to_sum_roots_and_bases. replace (Nat.eqb (order_of roots) 2) with false by (symmetry; apply Nat.eqb_neq; lia).
    cbn [andb]. fold rs. rewrite <- map_rev, E2. f_equal.
    rewrite lsum_rev. unfold conv_terms. rewrite RS.
    rewrite combine_rev by (rewrite LG; reflexivity).
    rewrite (lsum_ext inh _ (fun e => lsum (combine (map fst roots) gc) (fun lc => D (order + f) n (T (pscal (snd lc) (snd e)) (fst e) (fst lc) n)))).
    2:{ intros e _. apply lsum_rev. }
    rewrite double_sum. match goal with |- 0 + ?u = _ => replace (0 + u) with u by ring end.
    apply D_ext. intros h. now rewrite GC.
Qed.
End S.
