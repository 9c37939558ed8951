From Coq Require Import ZArith List Lia Field Arith Bool Permutation.
From Verif Require Import Fld FPoly SeqSpec SeqLemmas SumPolyModel SumPolyProofs LinSolve SolverModel SolverSpec ShiftOp GenSol SolverProofs1.
Import ListNotations.

Section S.
Context {K : Fld}.
Add Field KFsp2 : (fth K).
Local Open Scope fld_scope.

Implicit Types (a poly u : list K) (roots : list (K * nat)) (y b : K).

(** * Roots *)
Definition rlist (roots : list (K * nat)) : list K := flat_map (fun r => repeat (fst r) (snd r)) roots.
Lemma peval_rlist roots y : peval (rootpoly (rlist roots)) y = fold_right (fun r acc => (y - fst r) ^ snd r * acc) 1 roots.
Proof.
  rewrite peval_rootpoly. unfold rlist. induction roots as [|[r m] roots IH]; cbn [flat_map fold_right]; auto.
  rewrite fold_right_app, IH. cbn [fst snd]. induction m as [|m IHm]; cbn [repeat fold_right fpow]; [ring|].
  rewrite IHm. ring.
Qed.
Lemma peval_charpoly a y : peval (charpoly a) y = char_value a y.
Proof.
  unfold charpoly, char_value. rewrite peval_app, map_length, rev_length. cbn [peval].
  rewrite peval_bsum, map_length, rev_length. rewrite (bsum_rev (length a) (fun j => nth j a 0 * _)).
  assert (E : bsum (length a) (fun i => nth i (map fopp (rev a)) 0 * y ^ i) =
    - bsum (length a) (fun i => nth (length a - 1 - i) a 0 * y ^ (length a - 1 - (length a - 1 - i))%nat)).
  { rewrite <- bsum_opp. apply bsum_ext. intros i Hi.
    rewrite (nth_indep _ 0 (fopp 0)) by (rewrite map_length, rev_length; auto).
    rewrite map_nth, rev_nth by auto.
    replace (length a - S i)%nat with (length a - 1 - i)%nat by lia.
    replace (length a - 1 - (length a - 1 - i))%nat with i by lia. ring. }
  rewrite E. ring.
Qed.
Lemma roots_act a roots (x : Z -> K) n : roots_of a roots ->
  act (charpoly a) x n = act (rootpoly (rlist roots)) x n.
Proof. intros (_ & _ & H). apply act_peval_eq. intros y. now rewrite peval_charpoly, peval_rlist. Qed.

Lemma rootpoly_length (rs : list K) : length (rootpoly rs) = S (length rs).
Proof.
  induction rs as [|r rs IH]; auto. cbn [rootpoly]. rewrite length_pmul; cbn [length]; try lia; try discriminate.
  intros E. rewrite E in IH. discriminate.
Qed.
Lemma nth_pscal c (p : list K) i : nth i (pscal c p) 0 = c * nth i p 0.
Proof. unfold pscal. revert i. induction p as [|a p IH]; intros [|i]; cbn [map nth]; try ring. apply IH. Qed.
Lemma rootpoly_lead (rs : list K) : nth (length rs) (rootpoly rs) 0 = 1.
Proof.
  induction rs as [|r rs IH]; auto. cbn [rootpoly length]. cbn [pmul].
  rewrite nth_padd. cbn [nth]. rewrite nth_padd.
  rewrite !nth_pscal, IH.
  rewrite (nth_overflow _ 0) by (rewrite rootpoly_length; lia).
  destruct (length rs) as [|m]; cbn [nth]; try ring. destruct m; cbn [nth]; ring.
Qed.
(** The number of roots is the order. *)
Lemma roots_count a roots : roots_of a roots -> length (rlist roots) = length a.
Proof.
  intros (_ & _ & H).
  assert (Z : allzero (padd (charpoly a) (pscal (- (1)) (rootpoly (rlist roots))))).
  { apply pevals_zero_allzero. intros y. rewrite peval_padd, peval_pscal, peval_charpoly, peval_rlist, H. ring. }
  assert (C : forall i, nth i (charpoly a) 0 = nth i (rootpoly (rlist roots)) 0).
  { intros i. pose proof (allzero_nth' _ i Z) as E. rewrite nth_padd, nth_pscal in E.
    apply sub_eq0. etransitivity; [|exact E]. ring. }
  assert (L1 : nth (length a) (charpoly a) 0 = 1).
  { unfold charpoly. rewrite app_nth2; rewrite map_length, rev_length; auto. now rewrite Nat.sub_diag. }
  destruct (Nat.lt_trichotomy (length (rlist roots)) (length a)) as [L|[L|L]]; auto; exfalso.
  - rewrite C, nth_overflow in L1 by (rewrite rootpoly_length; lia). symmetry in L1. now apply one_neq_zero in L1.
  - pose proof (rootpoly_lead (rlist roots)) as E. rewrite <- C, nth_overflow in E by (rewrite charpoly_length; lia).
    symmetry in E. now apply one_neq_zero in E.
Qed.
(** If a_k <> 0 no root is zero. *)
Lemma roots_nonzero a roots : roots_of a roots -> a <> [] -> last a 0 <> 0 -> forall r, In r roots -> fst r <> 0.
Proof.
  intros (ND & P & H) Ha Hl r Hr E. apply Hl.
  assert (V : char_value a 0 = 0).
  { rewrite H. clear - Hr E P. induction roots as [|s roots IH]; cbn [fold_right In] in *; [tauto|].
    inversion P; subst. destruct Hr as [->|Hr].
    - rewrite E. replace ((0 : K) - 0) with (0 : K) by ring. rewrite fpow_0l by lia. ring.
    - rewrite IH; auto. ring. }
  unfold char_value in V. destruct (exists_last Ha) as (a' & c & ->). rewrite app_length in V. cbn [length] in V.
  replace (length a' + 1)%nat with (S (length a')) in V by lia. rewrite fpow_0l in V by lia.
  rewrite last_last. cbn [bsum] in V. rewrite app_nth2, Nat.sub_diag in V by auto. cbn [nth] in V.
  replace (S (length a') - 1 - length a')%nat with 0%nat in V by lia.
  rewrite bsum_0 in V.
  - apply opp_eq0. etransitivity; [|exact V]. cbn [fpow]. ring.
  - intros i Hi. rewrite fpow_0l by lia. ring.
Qed.

(** * Columns *)
Definition lsum {A} (l : list A) (F : A -> K) : K := fold_right (fun c acc => F c + acc) 0 l.
Lemma lsum_perm {A} (l l' : list A) F : Permutation l l' -> lsum l F = lsum l' F.
Proof. unfold lsum. induction 1; cbn [fold_right]; try congruence. ring. Qed.
Lemma lsum_app {A} (l l' : list A) F : lsum (l ++ l') F = lsum l F + lsum l' F.
Proof. unfold lsum. induction l as [|c l IH]; cbn [app fold_right]; [ring|]. rewrite IH. ring. Qed.
Lemma lsum_ext {A} (l : list A) F G : (forall c, In c l -> F c = G c) -> lsum l F = lsum l G.
Proof.
  unfold lsum. induction l as [|c l IH]; cbn [fold_right In]; intros H; auto. rewrite H, IH; auto.
Qed.
Lemma lsum_map {A B} (h : A -> B) l F : lsum (map h l) F = lsum l (fun c => F (h c)).
Proof. unfold lsum. induction l as [|c l IH]; cbn [map fold_right]; auto. now rewrite IH. Qed.
Lemma lsum_seq m (F : nat -> K) : lsum (seq 0 m) F = bsum m F.
Proof.
  induction m as [|m IH]; auto. rewrite seq_S, lsum_app, IH. cbn [bsum]. unfold lsum. cbn [fold_right plus]. ring.
Qed.
Lemma lsum_flat_map {A B} (h : A -> list B) l F : lsum (flat_map h l) F = lsum l (fun c => lsum (h c) F).
Proof. induction l as [|c l IH]; cbn [flat_map]; auto. rewrite lsum_app, IH. reflexivity. Qed.
Lemma dot_map {A} (cols : list A) (c v : A -> K) : dot (map c cols) (map v cols) = lsum cols (fun t => c t * v t).
Proof. unfold lsum. induction cols as [|t l IH]; cbn [map dot fold_right]; auto. now rewrite IH. Qed.
Lemma dot_comm (u v : list K) : dot u v = dot v u.
Proof. revert v. induction u as [|a u IH]; intros [|b v]; cbn [dot]; auto. rewrite IH. ring. Qed.

(** Coefficients as a list acting on columns. *)
Lemma act_dot P (u : list K) (cols : list (K * nat)) n :
  (forall c, In c cols -> forall m, act P (colval c) m = 0) ->
  act P (fun m => dot u (map (fun c => colval c m) cols)) n = 0.
Proof.
  revert u. induction cols as [|c cols IH]; intros u H; destruct u as [|b u]; cbn [map dot]; try apply act_zero.
  rewrite act_add, act_scal, H by (left; auto). rewrite IH; [ring|]. intros; apply H; right; auto.
Qed.

Lemma peval_repeat0 j (p : list K) x : peval (repeat 0 j ++ p) x = x ^ j * peval p x.
Proof. rewrite peval_app, repeat_length, peval_allzero; [ring|]. apply Forall_forall. intros y Hy. now apply repeat_spec in Hy. Qed.
Lemma colval_ep (c : K * nat) n : colval c n = ep (fst c) (mono (snd c)) n.
Proof. unfold colval, ep, mono. rewrite peval_repeat0. cbn [peval]. ring. Qed.

Lemma cnt_rlist (roots : list (K * nat)) r : NoDup (map fst roots) -> In r roots -> cnt (fst r) (rlist roots) = snd r.
Proof.
  intros ND Hr. unfold cnt, rlist. induction roots as [|s roots IH]; cbn [In] in Hr; [tauto|].
  cbn [flat_map map] in *. rewrite filter_app, app_length. inversion ND as [|? ? N1 N2]; subst.
  assert (R : forall (b c : K) m, length (filter (feqb b) (repeat c m)) = if b =? c then m else 0%nat).
  { clear. intros b c m. induction m as [|m IH]; cbn [repeat filter]; [now destruct (feqb b c)|].
    destruct (feqb b c) eqn:E; cbn [length]; rewrite IH; rewrite ?E; reflexivity. }
  rewrite R. destruct Hr as [->|Hr].
  - rewrite feqb_refl.
    assert (Z : length (filter (feqb (fst r)) (flat_map (fun r0 => repeat (fst r0) (snd r0)) roots)) = 0%nat).
    { clear - N1 R. induction roots as [|s roots IH]; cbn [flat_map map In] in *; auto.
      rewrite filter_app, app_length, R. rewrite IH by tauto.
      destruct (feqb (fst r) (fst s)) eqn:E; auto. apply feqb_eq in E. exfalso. apply N1. left; auto. }
    rewrite Z. lia.
  - rewrite IH by auto. destruct (feqb (fst r) (fst s)) eqn:E; auto.
    apply feqb_eq in E. exfalso. apply N1. rewrite <- E. now apply in_map.
Qed.

Lemma In_cols_new (roots : list (K * nat)) c : In c (cols_new roots) <-> exists r, In r roots /\ fst c = fst r /\ (snd c < snd r)%nat.
Proof.
  unfold cols_new. rewrite in_flat_map. split.
  - intros (r & Hr & Hc). apply in_map_iff in Hc. destruct Hc as (j & <- & Hj). apply in_seq in Hj.
    exists r. cbn. split; [auto|split; [auto|lia]].
  - intros (r & Hr & E1 & E2). exists r. split; auto. apply in_map_iff. exists (snd c).
    split; [destruct c; cbn in *; congruence|]. apply in_seq. lia.
Qed.
Lemma length_cols_new (roots : list (K * nat)) : length (cols_new roots) = length (rlist roots).
Proof.
  unfold cols_new, rlist. induction roots as [|r roots IH]; cbn [flat_map]; auto.
  rewrite !app_length, map_length, seq_length, repeat_length, IH. reflexivity.
Qed.

Lemma cols_kill a roots c : roots_of a roots -> (forall r, In r roots -> fst r <> 0) -> In c (cols_new roots) ->
  forall n, act (charpoly a) (colval c) n = 0.
Proof.
  intros HR NZ Hc n. rewrite (roots_act _ roots) by auto.
  apply In_cols_new in Hc. destruct Hc as (r & Hr & E1 & E2). destruct HR as (ND & _ & _).
  rewrite (act_ext _ _ (ep (fst c) (mono (snd c)))) by (intros; apply colval_ep).
  apply rootpoly_kill.
  - rewrite E1. now apply NZ.
  - rewrite E1, cnt_rlist by auto. unfold mono. rewrite app_length, repeat_length. cbn [length]. lia.
Qed.

(** Every homogeneous solution is a combination of the columns. *)
Lemma cols_span a roots (h : Z -> K) f : roots_of a roots -> (forall r, In r roots -> fst r <> 0) ->
  (forall n, (f <= n)%Z -> act (charpoly a) h n = 0) ->
  exists c : K * nat -> K, forall n, (f <= n)%Z -> h n = lsum (cols_new roots) (fun t => c t * colval t n).
Proof.
  intros HR NZ Hh. pose proof HR as (ND & HP & HV).
  destruct (hom_solution (map fst roots) ND) with (rs := rlist roots) (x := h) (f := f) as (qs & Lq & Hq).
  - intros d Hd. apply in_map_iff in Hd. destruct Hd as (r & <- & Hr). now apply NZ.
  - intros r Hr. unfold rlist in Hr. apply in_flat_map in Hr. destruct Hr as (s & Hs & Hr).
    apply repeat_spec in Hr. subst r. now apply in_map.
  - intros n Hn. rewrite <- (roots_act a) by auto. now apply Hh.
  - (* index of a root *)
    pose (ix := fun b : K => fix go (l : list (K * nat)) := match l with [] => O | r :: l => if b =? fst r then O else S (go l) end).
    exists (fun t => nth (snd t) (qs (ix (fst t) roots)) 0). intros n Hn. rewrite Hq by auto.
    unfold epsum. rewrite map_length. unfold cols_new. rewrite lsum_flat_map.
    assert (G : forall (l pre : list (K * nat)), roots = pre ++ l ->
       lsum l (fun c => lsum (map (fun j => (fst c, j)) (seq 0 (snd c))) (fun t => nth (snd t) (qs (ix (fst t) roots)) 0 * colval t n))
       = bsum (length l) (fun i => ep (nth (length pre + i) (map fst roots) 0) (qs (length pre + i)%nat) n)).
    { induction l as [|r l IH]; intros pre E; [reflexivity|].
      cbn [length]. rewrite bsum_first. unfold lsum at 1. cbn [fold_right]. fold (lsum (A:=K*nat)). f_equal.
      - rewrite lsum_map. cbn [fst snd].
        rewrite (lsum_ext _ _ (fun j => nth j (qs (length pre)) 0 * (ofz n ^ j * zpow (fst r) n))).
        + rewrite lsum_seq. rewrite Nat.add_0_r.
          assert (E2 : nth (length pre) (map fst roots) 0 = fst r).
          { rewrite E, map_app, app_nth2; rewrite map_length; auto. rewrite Nat.sub_diag. reflexivity. }
          rewrite E2. unfold ep. rewrite peval_bsum. rewrite Lq by (rewrite map_length, E, app_length; cbn [length]; lia).
          rewrite E2, cnt_rlist by (auto; rewrite E; apply in_or_app; right; left; auto).
          rewrite <- bsum_scal_r. apply bsum_ext. intros; ring.
        + intros j Hj. unfold colval. cbn [fst snd].
          assert (E3 : ix (fst r) roots = length pre).
          { rewrite E in ND |- *. clear - ND. induction pre as [|s pre IH]; cbn [app ix length map] in *.
            - now rewrite feqb_refl.
            - inversion ND as [|? ? N1 N2]; subst. destruct (feqb (fst r) (fst s)) eqn:F.
              + apply feqb_eq in F. exfalso. apply N1. rewrite map_app. apply in_or_app. right. left. auto.
              + f_equal. apply IH; auto. }
          rewrite E3. reflexivity.
      - specialize (IH (pre ++ [r]) ltac:(rewrite <- app_assoc; auto)).
        transitivity (bsum (length l) (fun i => ep (nth (length (pre ++ [r]) + i) (map fst roots) 0) (qs (length (pre ++ [r]) + i)%nat) n)).
        + exact IH.
        + apply bsum_ext. intros i Hi. rewrite app_length. cbn [length].
          replace (length pre + 1 + i)%nat with (length pre + S i)%nat by lia. reflexivity. }
    symmetry. apply (G roots []). reflexivity.
Qed.

(** * Existence of the solution of a recurrence *)
Lemma solves_exists (a : list K) p f ic : exists x, solves a p f ic x.
Proof.
  pose (k := Z.of_nat (length a)).
  pose (F := fix F (m : nat) : Z -> K := match m with
    | O => ic
    | S m => fun z => if (z =? f + k + Z.of_nat m)%Z then lincomb a (F m) z + p z else F m z end).
  assert (St : forall m d z, (z < f + k + Z.of_nat m)%Z -> F (d + m)%nat z = F m z).
  { intros m d z Hz. induction d as [|d IH]; auto. cbn [plus F]. fold F.
    replace (z =? f + k + Z.of_nat (d + m))%Z with false by (symmetry; apply Z.eqb_neq; lia). exact IH. }
  exists (fun z => F (Z.to_nat (z - f - k + 1)) z). split.
  - intros i Hi. replace (Z.to_nat (i - f - k + 1)) with 0%nat by (unfold k; lia). reflexivity.
  - intros n Hn. replace (Z.to_nat (n - f - k + 1)) with (S (Z.to_nat (n - f - k))) by (unfold k; lia).
    cbn [F]. fold F. fold k in Hn.
    replace (n =? f + k + Z.of_nat (Z.to_nat (n - f - k)))%Z with true by (symmetry; apply Z.eqb_eq; lia).
    f_equal. apply lincomb_ext. intros m Hm. fold k in Hm.
    set (M := Z.to_nat (n - f - k)). set (M' := Z.to_nat (m - f - k + 1)).
    replace M with ((M - M') + M')%nat by (unfold M, M'; lia). apply St. unfold M'. lia.
Qed.

(** * Fitting the general solution *)
Section WithSolver.
Variable ls : nat -> list (list K * K) -> option (list K).
Hypothesis lsok : lsolve_ok ls.

Lemma fit_general_correct a roots p s x f : roots_of a roots -> a <> [] -> last a 0 <> 0 ->
  (forall n, (f + Z.of_nat (length a) <= n)%Z -> s n = lincomb a s n + p n) ->
  exists X, fit_general ls roots s x f = Some X /\ solves a p f x X.
Proof.
  intros HR Ha Hl Hs. pose proof (roots_nonzero a roots HR Ha Hl) as NZ.
  pose proof (roots_count a roots HR) as CT. pose proof (length_cols_new roots) as LC.
  unfold fit_general. specialize (lsok (length (cols_new roots))
    (rev (map (fun i => (map (fun c => colval c (f + Z.of_nat i)%Z) (cols_new roots),
       x (f + Z.of_nat i)%Z - s (f + Z.of_nat i)%Z)) (seq 0 (length (cols_new roots)))))).
  destruct (ls _ _) as [u|].
  - destruct lsok as (Lu & Hu). eexists. split; [reflexivity|]. split.
    + intros i Hi. rewrite Forall_forall in Hu.
      assert (I : In (Z.to_nat (i - f)) (seq 0 (length (cols_new roots)))) by (apply in_seq; lia).
      specialize (Hu _ (proj1 (in_rev _ _) (in_map (fun i => (map (fun c => colval c (f + Z.of_nat i)%Z) (cols_new roots), x (f + Z.of_nat i)%Z - s (f + Z.of_nat i)%Z)) _ _ I))). unfold sat in Hu. cbn [fst snd] in Hu.
      replace (f + Z.of_nat (Z.to_nat (i - f)))%Z with i in Hu by lia.
      rewrite dot_comm, Hu. ring.
    + intros n Hn. rewrite lincomb_add, (Hs n Hn).
      assert (E : dot u (map (fun c => colval c n) (cols_new roots)) - lincomb a (fun m => dot u (map (fun c => colval c m) (cols_new roots))) n = 0).
      { pose proof (act_charpoly a (fun m => dot u (map (fun c => colval c m) (cols_new roots))) n) as A. cbv beta in A. rewrite <- A. apply act_dot. intros c Hc m. apply (cols_kill a roots); auto. }
      apply sub_eq0 in E. rewrite E. ring.
  - exfalso. apply lsok. clear lsok.
    destruct (solves_exists a p f x) as (y & Y1 & Y2).
    destruct (cols_span a roots (fun n => y n - s n) f HR NZ) as (c & Hc).
    { intros n Hn. replace n with (n + Z.of_nat (length a) - Z.of_nat (length a))%Z by lia.
      rewrite act_charpoly, lincomb_sub. rewrite Y2, Hs by lia. ring. }
    exists (map c (cols_new roots)). split; [now rewrite map_length|].
    apply Forall_rev. apply Forall_map, Forall_forall. intros i Hi. apply in_seq in Hi. unfold sat. cbn [fst snd].
    rewrite dot_comm, dot_map, <- Hc by lia. rewrite Y1 by lia. reflexivity.
Qed.
End WithSolver.

(** * Undetermined coefficients *)
Lemma lincomb_cons (a1 : K) a x n : lincomb (a1 :: a) x n = a1 * x (n - 1)%Z + lincomb a x (n - 1)%Z.
Proof.
  unfold lincomb. cbn [length]. rewrite bsum_first. cbn [nth]. replace (n - 1 - Z.of_nat 0)%Z with (n - 1)%Z by lia.
  f_equal. apply bsum_ext. intros i Hi. cbn [nth]. do 2 f_equal. lia.
Qed.
Lemma shsum_value b a (p : list K) n : b <> 0 -> ep b (shsum b a p) n = lincomb a (ep b p) n.
Proof.
  intros Hb. revert p n. induction a as [|a1 a IH]; intros p n; cbn [shsum]; [apply ep_nil|].
  assert (E : forall m, ep b (pscal (/ b) (pshift p)) m = ep b p (m - 1)%Z).
  { intros m. unfold ep. rewrite peval_pscal, peval_pshift. rewrite ofz_sub, ofz_1.
    replace m with (m - 1 + 1)%Z at 2 by lia. rewrite zpow_succ by auto. field; auto. }
  rewrite ep_padd, ep_pscal, IH, E, lincomb_cons. f_equal.
  unfold lincomb. apply bsum_ext. intros i Hi. rewrite E. do 2 f_equal. lia.
Qed.
Lemma nth_pshift_over (p : list K) i : (length p <= i)%nat -> nth i (pshift p) 0 = 0.
Proof.
  revert i. induction p as [|c p IH]; intros i Hi; cbn [pshift length] in *; [destruct i; reflexivity|].
  rewrite nth_padd. rewrite (nth_overflow [c]) by (cbn; lia). cbn [pmul].
  rewrite !nth_padd, nth_pscal. destruct i as [|i]; [lia|]. cbn [nth].
  rewrite nth_padd, nth_pscal. rewrite (IH (S i)), (IH i) by lia. destruct i as [|[|i]]; cbn [nth]; ring.
Qed.
Lemma nth_shsum_over b a (p : list K) m i : (forall j, (m <= j)%nat -> nth j p 0 = 0) -> (m <= i)%nat -> nth i (shsum b a p) 0 = 0.
Proof.
  revert p. induction a as [|a1 a IH]; intros p Hp Hi; cbn [shsum]; [destruct i; reflexivity|].
  assert (Hsh : forall j, (m <= j)%nat -> nth j (pshift p) 0 = 0).
  { clear - Hp. revert m Hp. induction p as [|c p IH]; intros m Hp j Hj; cbn [pshift]; [destruct j; reflexivity|].
    destruct m as [|m].
    - assert (A : allzero (c :: p)) by (apply allzero_nth; intros; apply Hp; lia).
      inversion A; subst. rewrite nth_padd. cbn [pmul]. rewrite !nth_padd, nth_pscal.
      assert (Z : forall j, nth j (pshift p) 0 = 0).
      { intros t. apply (IH 0%nat); [|lia]. intros s _. now apply allzero_nth'. }
      rewrite Z. destruct j as [|[|j]]; cbn [nth]; rewrite ?nth_padd, ?nth_pscal, ?Z; try (cbn [nth]; ring).
      destruct j; cbn [nth]; ring.
    - assert (Z : forall j, (m <= j)%nat -> nth j (pshift p) 0 = 0).
      { intros t Ht. apply (IH m); auto. intros s Hs. apply (Hp (S s)). lia. }
      rewrite nth_padd. cbn [pmul]. rewrite !nth_padd, nth_pscal.
      destruct j as [|j]; [lia|]. cbn [nth]. rewrite nth_padd, nth_pscal. rewrite (Z (S j)), (Z j) by lia.
      destruct j as [|[|j]]; cbn [nth]; ring. }
  rewrite nth_padd, !nth_pscal, Hsh by auto. rewrite IH; [ring| |auto].
  intros j Hj. rewrite nth_pscal, Hsh by auto. ring.
Qed.

(** The polynomial T q, T q = sum_j q_j diff_col_j. *)
Definition Tlin (a : list K) (b : K) (q : list K) : list K := padd q (pscal (- (1)) (shsum b a q)).
Lemma Tlin_value a b q n : b <> 0 -> ep b (Tlin a b q) n = ep b q n - lincomb a (ep b q) n.
Proof. intros Hb. unfold Tlin. rewrite ep_padd, ep_pscal, shsum_value by auto. ring. Qed.
Lemma peval_mono j x : peval (mono j) x = (x : K) ^ j.
Proof. unfold mono. rewrite peval_repeat0. cbn [peval]. ring. Qed.

(** coefficient i of T q as a linear form in q *)
Lemma ep_zero_allzero b (p : list K) : b <> 0 -> (forall n, ep b p n = 0) -> allzero p.
Proof.
  intros Hb H. apply (too_many_roots (npts (length p))); [apply npts_NoDup|rewrite npts_length; auto|].
  intros x Hx. unfold npts in Hx. apply in_map_iff in Hx. destruct Hx as (m & <- & _).
  specialize (H (Z.of_nat m)). unfold ep in H. rewrite ofz_ofnat in H. apply mul_eq0 in H.
  destruct H as [H|H]; auto. now apply zpow_neq0 in H.
Qed.
Lemma Tlin_nth a b q i : b <> 0 ->
  nth i (Tlin a b q) 0 = dot (map (fun j => nth i (diff_col a b j) 0) (seq 0 (length q))) q.
Proof.
  intros Hb.
  (* T q - sum_j q_j col_j is the zero polynomial *)
  pose (W := fold_right (fun j acc => padd (pscal (nth j q 0) (diff_col a b j)) acc) [] (seq 0 (length q))).
  assert (EW : forall n, ep b W n = lsum (seq 0 (length q)) (fun j => nth j q 0 * ep b (diff_col a b j) n)).
  { intros n. unfold W, lsum. induction (seq 0 (length q)) as [|j l IH]; cbn [fold_right]; [apply ep_nil|].
    rewrite ep_padd, ep_pscal, IH. reflexivity. }
  assert (Z : allzero (padd (Tlin a b q) (pscal (- (1)) W))).
  { apply (ep_zero_allzero b); auto. intros n. rewrite ep_padd, ep_pscal, EW, Tlin_value by auto.
    assert (E1 : forall m, ep b q m = lsum (seq 0 (length q)) (fun j => nth j q 0 * ep b (mono j) m)).
    { intros m. rewrite lsum_seq. unfold ep at 1. rewrite peval_bsum, <- bsum_scal_r. apply bsum_ext.
      intros j _. unfold ep. rewrite peval_mono. ring. }
    rewrite E1.
    assert (E2 : lincomb a (ep b q) n = lsum (seq 0 (length q)) (fun j => nth j q 0 * lincomb a (ep b (mono j)) n)).
    { unfold lincomb. rewrite lsum_seq.
      rewrite (bsum_ext (length q) (fun j => nth j q 0 * bsum (length a) (fun t => nth t a 0 * ep b (mono j) (n - 1 - Z.of_nat t)%Z))
         (fun j => bsum (length a) (fun t => nth j q 0 * (nth t a 0 * ep b (mono j) (n - 1 - Z.of_nat t)%Z)))).
      2:{ intros j _. now rewrite bsum_scal. }
      rewrite bsum_swap. apply bsum_ext. intros t _. rewrite E1, lsum_seq, <- bsum_scal. apply bsum_ext. intros; ring. }
    rewrite E2. rewrite !lsum_seq.
    rewrite (bsum_ext (length q) (fun j => nth j q 0 * ep b (diff_col a b j) n)
      (fun j => nth j q 0 * ep b (mono j) n - nth j q 0 * lincomb a (ep b (mono j)) n)).
    - rewrite bsum_sub. ring.
    - intros j _. assert (D : ep b (diff_col a b j) n = ep b (mono j) n - lincomb a (ep b (mono j)) n) by (apply (Tlin_value a b (mono j)); auto).
      rewrite D. ring. }
  pose proof (allzero_nth' _ i Z) as E. rewrite nth_padd, nth_pscal in E.
  assert (EN : nth i W 0 = lsum (seq 0 (length q)) (fun j => nth j q 0 * nth i (diff_col a b j) 0)).
  { clear E Z EW. unfold W, lsum. induction (seq 0 (length q)) as [|j l IH]; cbn [fold_right]; [destruct i; reflexivity|].
    rewrite nth_padd, nth_pscal, IH. reflexivity. }
  assert (E3 : nth i (Tlin a b q) 0 = nth i W 0) by (apply sub_eq0; etransitivity; [|exact E]; ring).
  rewrite E3, EN. rewrite dot_comm.
  transitivity (dot (map (fun j => nth j q 0) (seq 0 (length q))) (map (fun j => nth i (diff_col a b j) 0) (seq 0 (length q)))).
  - now rewrite dot_map.
  - f_equal. apply nth_ext with (d := 0) (d' := 0); [now rewrite map_length, seq_length|].
    intros m Hm. rewrite map_length, seq_length in Hm.
    rewrite (nth_indep _ 0 (nth 0 q 0)) by (now rewrite map_length, seq_length).
    rewrite (map_nth (fun j => nth j q 0)), seq_nth by auto. reflexivity.
Qed.

Lemma mult_of_cnt roots (b : K) : NoDup (map fst roots) -> mult_of roots b = cnt b (rlist roots).
Proof.
  intros ND. unfold mult_of.
  assert (G : forall (l : list (K * nat)), fold_left (fun m r => if fst r =? b then snd r else m) (rev l) O
     = fold_right (fun r m => if fst r =? b then snd r else m) O l).
  { intros l. rewrite <- fold_left_rev_right, rev_involutive. reflexivity. }
  rewrite G. clear G.
  destruct (in_dec (@feq_dec K) b (map fst roots)) as [I|I].
  - apply in_map_iff in I. destruct I as (r & Er & Hr). rewrite <- Er, cnt_rlist by auto.
    clear Er b. induction roots as [|s roots IH]; cbn [fold_right In map] in *; [tauto|].
    inversion ND as [|? ? N1 N2]; subst. destruct Hr as [->|Hr].
    + now rewrite feqb_refl.
    + destruct (feqb (fst s) (fst r)) eqn:E; [|auto]. apply feqb_eq in E. exfalso. apply N1. rewrite E. now apply in_map.
  - transitivity O.
    + clear ND. induction roots as [|s roots IH]; cbn [fold_right map In] in *; auto.
      destruct (feqb (fst s) b) eqn:E; [apply feqb_eq in E; tauto|]. apply IH. tauto.
    + unfold cnt. symmetry. destruct (filter _ _) as [|y l] eqn:E; auto. exfalso.
      assert (J : In y (filter (feqb b) (rlist roots))) by (rewrite E; left; auto).
      apply filter_In in J. destruct J as (J1 & J2). apply feqb_eq in J2. subst y.
      unfold rlist in J1. apply in_flat_map in J1. destruct J1 as (s & Hs & J1). apply repeat_spec in J1.
      apply I. rewrite J1. now apply in_map.
Qed.

Section WithSolver2.
Variable ls : nat -> list (list K * K) -> option (list K).
Hypothesis lsok : lsolve_ok ls.

Lemma compute_special_solution_correct a roots poly b f : roots_of a roots -> a <> [] -> last a 0 <> 0 -> b <> 0 ->
  (0 <= f)%Z ->
  exists s, compute_special_solution ls a poly b (mult_of roots b) = Some s /\
    forall n, (f + Z.of_nat (length a) <= n)%Z -> s n = lincomb a s n + ep b poly n.
Proof.
  intros HR Ha Hl Hb Hf. unfold compute_special_solution.
  destruct ((b =? 1) && match a with [a1] => a1 =? 1 | _ => false end) eqn:FP.
  - apply andb_true_iff in FP. destruct FP as [F1 F2]. apply feqb_eq in F1. subst b.
    destruct a as [|a1 [|a2 a]]; try discriminate. apply feqb_eq in F2. subst a1.
    eexists. split; [reflexivity|]. intros n Hn. cbn [length] in Hn. rewrite lincomb_1.
    rewrite !sum_poly_alt_correct. replace (Z.to_nat n) with (S (Z.to_nat (n - 1))) by lia.
    cbn [bsum]. unfold ep. rewrite (ofz_to_nat n) by lia.
    assert (Z1 : zpow (1 : K) n = 1) by (replace n with (Z.of_nat (Z.to_nat n)) by lia; rewrite zpow_ofnat; apply fpow_1l).
    rewrite Z1. replace (Z.to_nat n) with (S (Z.to_nat (n - 1))) by lia. ring.
  - set (deg := (pdegree poly + mult_of roots b)%nat).
    specialize (lsok (deg + 1)%nat (rev (map (fun i => (map (fun j => nth i (diff_col a b j) 0) (seq 0 (deg + 1)), nth i poly 0)) (seq 0 (deg + 1))))).
    destruct (ls _ _) as [q|].
    + destruct lsok as (Lq & Hq). eexists. split; [reflexivity|].
      assert (Z : forall i, nth i (Tlin a b q) 0 = nth i poly 0).
      { intros i. destruct (Nat.lt_ge_cases i (deg + 1)) as [L|L].
        - rewrite Tlin_nth, Lq by auto. rewrite Forall_forall in Hq.
          assert (I : In i (seq 0 (deg + 1))) by (apply in_seq; lia).
          exact (Hq _ (proj1 (in_rev _ _) (in_map (fun i => (map (fun j => nth i (diff_col a b j) 0) (seq 0 (deg + 1)), nth i poly 0)) _ _ I))).
        - unfold Tlin. rewrite nth_padd, nth_pscal.
          rewrite (nth_shsum_over b a q (deg + 1)); [|intros; apply nth_overflow; lia|auto].
          rewrite (nth_overflow q) by lia.
          assert (E : nth i poly 0 = 0).
          { rewrite <- trim_nth. apply nth_overflow. unfold deg, pdegree in L. lia. }
          rewrite E. ring. }
      intros n _. fold (ep b q n). change (fun n0 => peval q (ofz n0) * zpow b n0) with (ep b q).
      assert (E : ep b (Tlin a b q) n = ep b poly n).
      { unfold ep. f_equal. apply sub_eq0.
        transitivity (peval (padd (Tlin a b q) (pscal (- (1)) poly)) (ofz n)).
        - rewrite peval_padd, peval_pscal. ring.
        - apply peval_allzero, allzero_nth. intros i. rewrite nth_padd, nth_pscal, Z. ring. }
      rewrite Tlin_value in E by auto. rewrite <- E. ring.
    + exfalso. apply lsok. clear lsok.
      destruct (rootpoly_onto b (rlist roots) (trim poly) Hb) as (q & Lq & Hq).
      (* x(n) - lincomb x n = act charpoly x (n-k): solve for p shifted *)
      pose (k := Z.of_nat (length a)).
      (* right-hand side as a sequence of m = n - k: poly(m+k) b^(m+k) *)
      assert (Sh : exists p2, length p2 = length (trim poly) /\ forall n, ep b p2 n = ep b poly (n + k)%Z).
      { assert (SH : forall (t : list K) (c : K), exists t2, length t2 = length t /\ forall y, peval t2 y = peval t (y + c)).
        { intros t c. induction t as [|d t (t2 & L & H)]; [exists []; split; auto|].
          destruct t as [|d2 t].
          - exists [d]. split; auto. intros y. cbn [peval]. ring.
          - exists (padd [d] (padd (pscal c t2) (0 :: t2))). split.
            + rewrite !length_padd, length_pscal. cbn [length] in *. lia.
            + intros y. rewrite !peval_padd, peval_pscal. cbn [peval]. rewrite H. cbn [peval]. ring. }
        destruct (SH (trim poly) (ofz k)) as (t2 & L & H). exists (pscal (zpow b k) t2).
        split; [now rewrite length_pscal|]. intros n. unfold ep. rewrite peval_pscal, H, peval_trim, ofz_add, zpow_add by auto. ring. }
      destruct Sh as (p2 & L2 & H2). clear q Lq Hq.
      destruct (rootpoly_onto b (rlist roots) p2 Hb) as (q & Lq & Hq).
      assert (Lq2 : (length q <= deg + 1)%nat).
      { rewrite Lq, L2. unfold deg. rewrite mult_of_cnt by (destruct HR; auto). unfold pdegree. lia. }
      exists (q ++ repeat 0 (deg + 1 - length q)). split; [rewrite app_length, repeat_length; lia|].
      assert (Q0 : forall n, ep b (q ++ repeat 0 (deg + 1 - length q)) n = ep b q n).
      { intros n. unfold ep. f_equal. rewrite peval_app. rewrite (peval_allzero (repeat _ _)); [ring|].
        apply Forall_forall. intros y Hy. now apply repeat_spec in Hy. }
      set (q' := q ++ repeat 0 (deg + 1 - length q)) in *.
      assert (Lq' : length q' = (deg + 1)%nat) by (unfold q'; rewrite app_length, repeat_length; lia).
      assert (V : forall n, ep b (Tlin a b q') n = ep b poly n).
      { intros n. rewrite Tlin_value by auto. rewrite <- act_charpoly. rewrite (roots_act a roots) by auto.
        rewrite (act_ext _ _ (ep b q)) by (intros; apply Q0). rewrite Hq, H2. f_equal. unfold k. lia. }
      assert (Z : allzero (padd (Tlin a b q') (pscal (- (1)) poly))).
      { apply (ep_zero_allzero b); auto. intros n. rewrite ep_padd, ep_pscal, V. ring. }
      apply Forall_rev, Forall_map, Forall_forall. intros i Hi. unfold sat. cbn [fst snd].
      rewrite <- Lq'. rewrite <- Tlin_nth by auto. pose proof (allzero_nth' _ i Z) as E.
      rewrite nth_padd, nth_pscal in E. apply sub_eq0. etransitivity; [|exact E]. ring.
Qed.

Lemma special_solutions_correct a roots inh f sol p0 : roots_of a roots -> a <> [] -> last a 0 <> 0 ->
  (forall e, In e inh -> fst e <> 0) -> (0 <= f)%Z ->
  (forall n, (f + Z.of_nat (length a) <= n)%Z -> sol n = lincomb a sol n + p0 n) ->
  exists s, special_solutions ls a roots inh sol = Some s /\
    forall n, (f + Z.of_nat (length a) <= n)%Z -> s n = lincomb a s n + (p0 n + exp_poly inh n).
Proof.
  intros HR Ha Hl Hb Hf. revert sol p0. induction inh as [|(b, poly) inh IH]; intros sol p0 Hs; cbn [special_solutions].
  - exists sol. split; auto. intros n Hn. rewrite Hs by auto. unfold exp_poly. cbn [fold_right]. ring.
  - destruct (compute_special_solution_correct a roots poly b f) as (s & Es & Hs1); auto.
    { apply (Hb (b, poly)). left; auto. }
    rewrite Es. destruct (IH ltac:(intros; apply Hb; right; auto) (fun n => sol n + s n) (fun n => p0 n + ep b poly n)) as (t & Et & Ht).
    + intros n Hn. rewrite lincomb_add, Hs, Hs1 by auto. ring.
    + exists t. split; auto. intros n Hn. rewrite Ht by auto. unfold exp_poly. cbn [fold_right fst snd]. unfold ep. ring.
Qed.

Theorem solve_new_correct a roots inh f x : roots_of a roots -> a <> [] -> last a 0 <> 0 ->
  (forall e, In e inh -> fst e <> 0) -> (0 <= f)%Z ->
  exists X, solve_new ls a roots inh f x = Some X /\ solves a (exp_poly inh) f x X.
Proof.
  intros HR Ha Hl Hb Hf. unfold solve_new.
  destruct (special_solutions_correct a roots inh f (fun _ => 0) (fun _ => 0)) as (s & Es & Hs); auto.
  { intros n _. unfold lincomb. rewrite bsum_0; [ring|]. intros; ring. }
  rewrite Es.
  assert (Hs' : forall n, (f + Z.of_nat (length a) <= n)%Z -> s n = lincomb a s n + exp_poly inh n).
  { intros n Hn. rewrite Hs by auto. ring. }
  destruct a as [|a1 a]; [congruence|]. destruct a as [|a2 a].
  - eexists. split; [reflexivity|]. apply order_1_new_correct; [exact Hl|].
    intros n Hn. rewrite Hs' by (cbn [length]; lia). now rewrite lincomb_1.
  - now apply fit_general_correct.
Qed.
End WithSolver2.
End S.
