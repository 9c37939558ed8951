From Coq Require Import ZArith List Lia Field Arith Bool.
From Verif Require Import Fld FPoly SeqSpec SeqLemmas SumPolyModel SumPolyProofs LinSolve SolverModel SolverSpec ShiftOp.
Import ListNotations.

Section S.
Context {K : Fld}.
Add Field KFsp1 : (fth K).
Local Open Scope fld_scope.

Lemma ic_inner_eq c (x : Z -> K) f i j tmp :
  ic_inner c x f i j tmp = tmp - bsum j (fun t => nth (S t) c 0 * x (f + Z.of_nat i - 1 - Z.of_nat t)%Z).
Proof.
  revert tmp. induction j as [|j IH]; intros tmp; cbn [ic_inner bsum]; [ring|].
  rewrite IH. replace (f + Z.of_nat i - Z.of_nat (S j))%Z with (f + Z.of_nat i - 1 - Z.of_nat j)%Z by lia. ring.
Qed.
Lemma ic_outer_eq g c (x : Z -> K) f n i term :
  ic_outer g c x f n i term = term + bsum i (fun t => ic_inner c x f t t (x (f + Z.of_nat t)%Z) * g (n - Z.of_nat t - f)%Z).
Proof.
  revert term. induction i as [|i IH]; intros term; cbn [ic_outer bsum]; [ring|]. rewrite IH. ring.
Qed.

Section Fund.
Variables (a : list K) (g : Z -> K).
Let k := length a.
Hypothesis g0 : g 0%Z = 1.
Hypothesis gneg : forall j, (- Z.of_nat k < j < 0)%Z -> g j = 0.
Hypothesis grec : forall n, (1 <= n)%Z -> g n = lincomb a g n.

Theorem fundamental_solution c0 p f x :
  solves a p f x
    (fun n => compute_term_about_initial_conditions g (c0 :: a) f x n + non_homogeneous_sum g k p f n).
Proof.
  pose (e := fun h => if (h <? f + Z.of_nat k)%Z
     then ic_inner (c0 :: a) x f (Z.to_nat (h - f)) (Z.to_nat (h - f)) (x h) else p h).
  assert (E : forall n, (f <= n)%Z ->
    compute_term_about_initial_conditions g (c0 :: a) f x n + non_homogeneous_sum g k p f n = conv g f e n).
  { intros n Hn. unfold compute_term_about_initial_conditions, non_homogeneous_sum.
    replace (length (c0 :: a) - 1)%nat with k by (cbn; unfold k; lia).
    rewrite ic_outer_eq.
    assert (E1 : bsum k (fun t => ic_inner (c0 :: a) x f t t (x (f + Z.of_nat t)%Z) * g (n - Z.of_nat t - f)%Z)
       = zsum f (f + Z.of_nat k - 1) (fun h => g (n - h)%Z * e h)).
    { unfold zsum. replace (Z.to_nat (f + Z.of_nat k - 1 - f + 1)) with k by lia.
      apply bsum_ext. intros i Hi. unfold e.
      replace (f + Z.of_nat i <? f + Z.of_nat k)%Z with true by (symmetry; apply Z.ltb_lt; lia).
      replace (Z.to_nat (f + Z.of_nat i - f)) with i by lia.
      replace (n - (f + Z.of_nat i))%Z with (n - Z.of_nat i - f)%Z by lia. ring. }
    rewrite E1.
    assert (E2 : zsum (f + Z.of_nat k) n (fun h => g (n - h)%Z * p h) = zsum (f + Z.of_nat k) n (fun h => g (n - h)%Z * e h)).
    { apply zsum_ext. intros h Hh. unfold e.
      replace (h <? f + Z.of_nat k)%Z with false by (symmetry; apply Z.ltb_ge; lia). reflexivity. }
    rewrite E2. unfold conv. destruct (Z.le_gt_cases (f + Z.of_nat k - 1) n) as [L|L].
    - rewrite (zsum_split f (f + Z.of_nat k - 1) n) by lia.
      replace (f + Z.of_nat k - 1 + 1)%Z with (f + Z.of_nat k)%Z by lia. ring.
    - rewrite (zsum_empty (f + Z.of_nat k) n) by lia.
      rewrite (zsum_split f n (f + Z.of_nat k - 1)) by lia.
      rewrite (zsum_0 (n + 1) _); [ring|]. intros h Hh. rewrite gneg by lia. ring. }
  assert (R : forall n, (f <= n)%Z -> conv g f e n = lincomb a (conv g f e) n + e n).
  { intros n Hn. apply conv_rec; auto. }
  split.
  - intros i Hi. rewrite E by lia.
    assert (G : forall m : nat, (m < k)%nat -> conv g f e (f + Z.of_nat m) = x (f + Z.of_nat m)%Z).
    { intros m. induction m as [m IH] using (well_founded_induction lt_wf). intros Hm.
      rewrite R by lia. unfold e at 2.
      replace (f + Z.of_nat m <? f + Z.of_nat k)%Z with true by (symmetry; apply Z.ltb_lt; lia).
      replace (Z.to_nat (f + Z.of_nat m - f)) with m by lia.
      rewrite ic_inner_eq. unfold lincomb. fold k.
      replace k with (m + (k - m))%nat at 1 by lia. rewrite bsum_app.
      rewrite (bsum_0 (k - m)).
      2:{ intros j Hj. rewrite conv_below by lia. ring. }
      rewrite (bsum_ext m (fun i0 => nth i0 a 0 * conv g f e _) (fun t => nth (S t) (c0 :: a) 0 * x (f + Z.of_nat m - 1 - Z.of_nat t)%Z)).
      - ring.
      - intros t Ht. cbn [nth]. f_equal.
        replace (f + Z.of_nat m - 1 - Z.of_nat t)%Z with (f + Z.of_nat (m - 1 - t))%Z by lia.
        apply IH; lia. }
    specialize (G (Z.to_nat (i - f))). replace (f + Z.of_nat (Z.to_nat (i - f)))%Z with i in G by lia.
    apply G. unfold k. lia.
  - intros n Hn. fold k in Hn. rewrite E by lia. rewrite R by lia. f_equal.
    + apply lincomb_ext. intros m Hm. symmetry. apply E. unfold k in *. lia.
    + unfold e. replace (n <? f + Z.of_nat k)%Z with false by (symmetry; apply Z.ltb_ge; lia). reflexivity.
Qed.
End Fund.

(** * Order one *)
Lemma lincomb_1 (a1 : K) x n : lincomb [a1] x n = a1 * x (n - 1)%Z.
Proof. unfold lincomb. cbn [length bsum nth]. replace (n - 1 - Z.of_nat 0)%Z with (n - 1)%Z by lia. ring. Qed.

Lemma order_1_new_correct (a : K) (p s x : Z -> K) f : a <> 0 ->
  (forall n, (f < n)%Z -> s n = a * s (n - 1)%Z + p n) ->
  solves [a] p f x (order_1_new a s x f).
Proof.
  intros Ha Hs. split.
  - cbn [length]. intros i Hi. replace i with f by lia. unfold order_1_new. rewrite Z.sub_diag.
    change (zpow a 0) with (1 : K). ring.
  - cbn [length]. intros n Hn. rewrite lincomb_1. unfold order_1_new. rewrite (Hs n) by lia.
    replace (n - f)%Z with (n - 1 - f + 1)%Z by lia. rewrite zpow_succ by auto. ring.
Qed.

Lemma sub_low_eq (q : list K) (alpha lambda : K) l s : lambda <> 0 -> alpha <> 0 ->
  sub_low q alpha lambda l s = s - bsum l (fun j => peval q (ofn j) * (alpha / lambda) ^ j).
Proof.
  intros H1 H2. induction l as [|l IH]; cbn [sub_low bsum]; [ring|]. rewrite IH.
  assert (E : (alpha / lambda) ^ l = zpow alpha (Z.of_nat l) * zpow lambda (- Z.of_nat l)).
  { rewrite zpow_neg by auto. rewrite !zpow_ofnat.
    replace (alpha / lambda) with (alpha * / lambda) by (field; auto).
    rewrite fpow_mul_l, fpow_inv by auto. reflexivity. }
  rewrite E. ring.
Qed.

Lemma ofz_to_nat (m : Z) : (0 <= m)%Z -> (ofz m : K) = ofn (Z.to_nat m).
Proof. intros H. rewrite <- ofz_ofnat. f_equal. lia. Qed.

Lemma return_sum_correct distinct (f : nat) (q : list K) (alpha lambda : K) n : lambda <> 0 -> alpha <> 0 ->
  (distinct = false -> alpha = lambda) -> (Z.of_nat f <= n)%Z ->
  return_sum distinct (1 + f) q alpha lambda n =
  zsum (Z.of_nat f + 1) n (fun k => zpow lambda (n - k) * (peval q (ofz k) * zpow alpha k)).
Proof.
  intros H1 H2 Hd Hn. unfold return_sum. rewrite sub_low_eq by auto.
  assert (Hr : alpha / lambda <> 0).
  { replace (alpha / lambda) with (alpha * / lambda) by (field; auto). apply mul_neq0; auto using inv_neq0. }
  assert (E : (if distinct then sum_poly_times_exponentials q (Z.to_nat n) (alpha / lambda)
     else sum_poly_times_exponentials q (Z.to_nat n) 1) =
     bsum (S (Z.to_nat n)) (fun k => peval q (ofn k) * (alpha / lambda) ^ k)).
  { destruct distinct.
    - now apply sum_poly_times_exponentials_correct.
    - rewrite sum_poly_times_exponentials_correct by apply one_neq_zero.
      replace (alpha / lambda) with (1 : K); auto. rewrite Hd by auto. field; auto. }
  rewrite E. replace (S (Z.to_nat n)) with (1 + f + (Z.to_nat n - f))%nat by lia.
  rewrite bsum_app. unfold zsum. replace (Z.to_nat (n - (Z.of_nat f + 1) + 1)) with (Z.to_nat n - f)%nat by lia.
  match goal with |- (?A + ?B - ?A) * ?C = _ => transitivity (B * C); [ring|] end.
  rewrite <- bsum_scal_r. apply bsum_ext. intros i Hi.
  replace (Z.of_nat f + 1 + Z.of_nat i)%Z with (Z.of_nat (1 + f + i)) by lia.
  rewrite ofz_ofnat, zpow_ofnat.
  replace (n - Z.of_nat (1 + f + i))%Z with (n + - Z.of_nat (1 + f + i))%Z by lia.
  rewrite zpow_add, zpow_neg, zpow_ofnat by auto.
  replace (alpha / lambda) with (alpha * / lambda) by (field; auto).
  rewrite fpow_mul_l, fpow_inv by auto. ring.
Qed.

Lemma fold_left_sum {A} (l : list A) (F : A -> K) s :
  fold_left (fun acc e => acc + F e) l s = s + fold_right (fun e acc => F e + acc) 0 l.
Proof. revert s. induction l as [|e l IH]; intros s; cbn [fold_left fold_right]; [ring|]. rewrite IH. ring. Qed.
Lemma fold_right_sum_rev {A} (l : list A) (F : A -> K) :
  fold_right (fun e acc => F e + acc) 0 (rev l) = fold_right (fun e acc => F e + acc) 0 l.
Proof.
  induction l as [|e l IH]; cbn [rev fold_right]; auto. rewrite fold_right_app. cbn [fold_right].
  assert (G : forall l s, fold_right (fun e acc => F e + acc) s l = fold_right (fun e acc => F e + acc) 0 l + s).
  { clear. intros l s. induction l as [|e l IH]; cbn [fold_right]; [ring|]. rewrite IH. ring. }
  rewrite G, IH. ring.
Qed.
Lemma zsum_fold_right {A} lo hi (l : list A) (F : A -> Z -> K) :
  zsum lo hi (fun k => fold_right (fun e acc => F e k + acc) 0 l) =
  fold_right (fun e acc => zsum lo hi (F e) + acc) 0 l.
Proof.
  induction l as [|e l IH]; cbn [fold_right]; [apply zsum_0; auto|]. rewrite zsum_add, IH. reflexivity.
Qed.

(** What gosper_algorithm must return when it succeeds (proved in C43). *)
Definition gosper_ok (gos : comp -> option (Z -> K)) (lambda : K) (lower : Z) : Prop :=
  forall e z, gos e = Some z ->
  forall n, (lower - 1 <= n)%Z -> z n = zsum lower n (fun h => zpow lambda (- h) * cnopoly e h * zpow (cbase e) h).

Lemma solve_constant_coeff_order_1_correct gos lambda (inh : list comp) (f : nat) n :
  lambda <> 0 -> (forall e, In e inh -> cbase e <> 0) -> gosper_ok gos lambda (Z.of_nat f + 1) ->
  (Z.of_nat f <= n)%Z ->
  solve_constant_coeff_order_1 gos lambda inh f n =
  zsum (Z.of_nat f + 1) n (fun k => zpow lambda (n - k) * inh_value inh k).
Proof.
  intros Hl Hb Hg Hn. unfold solve_constant_coeff_order_1, symbolic_sums, transcendental.
  rewrite (fold_left_sum (rev inh) (fun e => return_sum (negb (lambda =? cbase e)) (1 + f) (cpoly e) (cbase e) lambda n) 0).
  rewrite (fold_left_sum (rev inh) (fun e => zpow lambda n * match gos e with Some z => z n | None => _ end) 0).
  rewrite !fold_right_sum_rev. unfold inh_value.
  transitivity (fold_right (fun e acc => zsum (Z.of_nat f + 1) n (fun k => zpow lambda (n - k) * ((peval (cpoly e) (ofz k) + cnopoly e k) * zpow (cbase e) k)) + acc) 0 inh).
  2:{ rewrite <- zsum_fold_right. apply zsum_ext. intros k Hk.
      clear. induction inh as [|e l IH]; cbn [fold_right]; [ring|]. rewrite IH. ring. }
  induction inh as [|e l IH]; cbn [fold_right]; [ring|].
  assert (Hbe : cbase e <> 0) by (apply Hb; left; auto).
  rewrite return_sum_correct; auto.
  2:{ intros H. apply negb_false_iff, feqb_eq in H. auto. }
  assert (E : match gos e with Some z => z n | None => zsum (Z.of_nat f + 1) n (fun h => zpow lambda (- h) * cnopoly e h * zpow (cbase e) h) end
     = zsum (Z.of_nat f + 1) n (fun h => zpow lambda (- h) * cnopoly e h * zpow (cbase e) h)).
  { destruct (gos e) as [z|] eqn:G; auto. rewrite (Hg e z G) by lia. reflexivity. }
  rewrite E.
  rewrite <- (IH ltac:(intros; apply Hb; right; auto)).
  assert (E2 : zsum (Z.of_nat f + 1) n (fun k => zpow lambda (n - k) * ((peval (cpoly e) (ofz k) + cnopoly e k) * zpow (cbase e) k))
    = zsum (Z.of_nat f + 1) n (fun k => zpow lambda (n - k) * (peval (cpoly e) (ofz k) * zpow (cbase e) k))
     + zpow lambda n * zsum (Z.of_nat f + 1) n (fun h => zpow lambda (- h) * cnopoly e h * zpow (cbase e) h)).
  { rewrite <- zsum_scal, <- zsum_add. apply zsum_ext. intros k Hk.
    replace (n - k)%Z with (n + - k)%Z by lia. rewrite zpow_add by auto. ring. }
  rewrite E2. ring.
Qed.

Lemma order_1_old_correct gos lambda (inh : list comp) (f : nat) x :
  lambda <> 0 -> (forall e, In e inh -> cbase e <> 0) -> gosper_ok gos lambda (Z.of_nat f + 1) ->
  solves [lambda] (inh_value inh) (Z.of_nat f) x (order_1_old gos lambda inh f x).
Proof.
  intros Hl Hb Hg. split; cbn [length].
  - intros i Hi. replace i with (Z.of_nat f) by lia. unfold order_1_old.
    rewrite solve_constant_coeff_order_1_correct by (auto; lia). rewrite zsum_empty by lia.
    replace (Z.of_nat f - (Z.of_nat f - 1 + 1))%Z with 0%Z by lia. change (zpow lambda 0) with (1 : K). ring.
  - intros n Hn. rewrite lincomb_1. unfold order_1_old.
    rewrite !solve_constant_coeff_order_1_correct by (auto; lia).
    rewrite (zsum_last _ n) by lia. rewrite Z.sub_diag. change (zpow lambda 0) with (1 : K).
    replace (n - (Z.of_nat f - 1 + 1))%Z with (n - 1 - (Z.of_nat f - 1 + 1) + 1)%Z by lia.
    rewrite zpow_succ by auto.
    rewrite (zsum_ext _ (n - 1) (fun k => zpow lambda (n - k) * inh_value inh k)
      (fun k => lambda * (zpow lambda (n - 1 - k) * inh_value inh k))).
    + rewrite zsum_scal. ring.
    + intros i Hi. replace (n - i)%Z with (n - 1 - i + 1)%Z by lia. rewrite zpow_succ by auto. ring.
Qed.

(** Variable coefficient, order one. *)
Lemma variable_order_1_correct gos (alpha p pf : Z -> K) (inh : list comp) (f : nat) x :
  (forall n, (Z.of_nat f < n)%Z -> alpha n <> 0) ->
  (forall n, (Z.of_nat f <= n)%Z -> pf n = zprod (Z.of_nat f + 1) n alpha) ->
  (forall n, (Z.of_nat f < n)%Z -> inh_value inh n = p n / pf n) ->
  (forall e, In e inh -> cbase e <> 0) -> gosper_ok gos 1 (Z.of_nat f + 1) ->
  let X := solve_variable_coeff_order_1 gos pf inh f x in
  X (Z.of_nat f) = x (Z.of_nat f) /\
  forall n, (Z.of_nat f < n)%Z -> X n = alpha n * X (n - 1)%Z + p n.
Proof.
  intros Ha Hpf Hinh Hb Hg X. unfold X, solve_variable_coeff_order_1. split.
  - rewrite solve_constant_coeff_order_1_correct by (auto using one_neq_zero; lia).
    rewrite Hpf, zprod_empty, zsum_empty by lia. ring.
  - intros n Hn. rewrite !solve_constant_coeff_order_1_correct by (auto using one_neq_zero; lia).
    assert (O : forall z, zpow (1 : K) z = 1).
    { intros z. destruct (Z_as_sub z) as (u & v & ->).
      replace (Z.of_nat u - Z.of_nat v)%Z with (Z.of_nat u + - Z.of_nat v)%Z by lia.
      rewrite zpow_add, zpow_neg, !zpow_ofnat, !fpow_1l by apply one_neq_zero. field. apply one_neq_zero. }
    rewrite (zsum_last _ n) by lia.
    rewrite (zsum_ext _ (n - 1) (fun k => zpow 1 (n - k) * inh_value inh k) (fun k => zpow 1 (n - 1 - k) * inh_value inh k))
      by (intros; rewrite !O; reflexivity).
    rewrite O, Hinh by lia. rewrite (Hpf n), (Hpf (n - 1)%Z), (zprod_last _ n) by lia.
    field. split; [apply Ha; lia|]. apply zprod_neq0. intros i Hi. apply Ha. lia.
Qed.
End S.
