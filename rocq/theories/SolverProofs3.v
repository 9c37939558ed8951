From Coq Require Import ZArith List Lia Field Arith Bool Permutation.
From Verif Require Import Fld FPoly SeqSpec SeqLemmas LinSolve SolverModel SolverSpec ShiftOp GenSol SolverProofs1 SolverProofs2.
Import ListNotations.

Section S.
Context {K : Fld}.
Add Field KFsp3 : (fth K).
Local Open Scope fld_scope.
Implicit Types (a u : list K) (roots : list (K * nat)).

Lemma sys_inner_eq (c : list K) (tmp : list K) i cnt j acc :
  sys_inner c tmp i cnt j acc = acc + bsum cnt (fun t => nth (j + t + 1) c 0 * nth (i - (j + t) - 1) tmp 0).
Proof.
  revert j acc. induction cnt as [|m IH]; intros j acc; cbn [sys_inner]; [cbn [bsum]; ring|].
  rewrite IH, bsum_first. rewrite Nat.add_0_r.
  rewrite (bsum_ext m (fun t => nth (S j + t + 1) c 0 * nth (i - (S j + t) - 1) tmp 0)
    (fun t => nth (j + S t + 1) c 0 * nth (i - (j + S t) - 1) tmp 0)).
  - ring.
  - intros t Ht. replace (S j + t)%nat with (j + S t)%nat by lia. reflexivity.
Qed.
Lemma sys_rhs_length (c : list K) m : length (sys_rhs c m) = m.
Proof.
  induction m as [|m IH]; auto. cbn [sys_rhs]. destruct m; auto. rewrite app_length, IH. cbn; lia.
Qed.
Lemma sys_rhs_prefix (c : list K) m m' i : (i < m)%nat -> (m <= m')%nat -> nth i (sys_rhs c m') 0 = nth i (sys_rhs c m) 0.
Proof.
  intros Hi. induction 1 as [|m' Hm IH]; auto. rewrite <- IH. destruct m' as [|m'']; [lia|].
  change (sys_rhs c (S (S m''))) with (sys_rhs c (S m'') ++ [sys_inner c (sys_rhs c (S m'')) (S m'') (S m'') 0 0]).
  rewrite app_nth1; auto. rewrite sys_rhs_length. lia.
Qed.
Lemma sys_rhs_0 (c : list K) m : (0 < m)%nat -> nth 0 (sys_rhs c m) 0 = 1.
Proof. intros H. rewrite (sys_rhs_prefix c 1 m) by lia. reflexivity. Qed.
Lemma sys_rhs_rec (c : list K) m i : (0 < i < m)%nat ->
  nth i (sys_rhs c m) 0 = bsum i (fun t => nth (S t) c 0 * nth (i - 1 - t) (sys_rhs c m) 0).
Proof.
  intros H. rewrite (sys_rhs_prefix c (S i) m) by lia. destruct i as [|i]; [lia|].
  change (sys_rhs c (S (S i))) with (sys_rhs c (S i) ++ [sys_inner c (sys_rhs c (S i)) (S i) (S i) 0 0]).
  rewrite app_nth2; rewrite sys_rhs_length; auto. rewrite Nat.sub_diag. cbn [nth].
  rewrite sys_inner_eq.
  rewrite (bsum_ext (S i) (fun t => nth (S t) c 0 * _) (fun t => nth (0 + t + 1) c 0 * nth (S i - (0 + t) - 1) (sys_rhs c (S i)) 0)).
  - ring.
  - intros t Ht. replace (0 + t + 1)%nat with (S t) by lia. f_equal.
    replace (S i - (0 + t) - 1)%nat with (S i - 1 - t)%nat by lia. apply sys_rhs_prefix; lia.
Qed.

(** From the first k values to the values at -1, ..., -(k-1). *)
Lemma fundamental_of_values a (g : Z -> K) (c0 : K) : a <> [] -> last a 0 <> 0 ->
  (forall n, g n = lincomb a g n) ->
  (forall i, (i < length a)%nat -> g (Z.of_nat i) = nth i (sys_rhs (c0 :: a) (length a)) 0) ->
  g 0%Z = 1 /\ forall j, (- Z.of_nat (length a) < j < 0)%Z -> g j = 0.
Proof.
  intros Ha Hl Hrec Hv. assert (Hk : (0 < length a)%nat) by (destruct a; [congruence|cbn; lia]).
  split.
  - pose proof (Hv 0%nat Hk) as E. rewrite sys_rhs_0 in E by auto. exact E.
  - (* g(-m) = 0 for 1 <= m < k, by strong induction, from the recurrence at n = k - m *)
    assert (G : forall m : nat, (0 < m < length a)%nat -> g (- Z.of_nat m)%Z = 0).
    { intros m. induction m as [m IH] using (well_founded_induction lt_wf). intros Hm.
      pose proof (Hrec (Z.of_nat (length a - m))) as E. unfold lincomb in E.
      rewrite Hv in E by lia. rewrite sys_rhs_rec in E by lia.
      set (i := (length a - m)%nat) in *.
      replace (length a) with (i + (m - 1) + 1)%nat in E by (unfold i; lia).
      rewrite !bsum_app in E. cbn [bsum] in E.
      rewrite (bsum_ext i (fun j => nth j a 0 * g (Z.of_nat i - 1 - Z.of_nat j)%Z)
        (fun t => nth (S t) (c0 :: a) 0 * nth (i - 1 - t) (sys_rhs (c0 :: a) (i + (m - 1) + 1)) 0)) in E.
      2:{ intros t Ht. cbn [nth]. f_equal.
          replace (Z.of_nat i - 1 - Z.of_nat t)%Z with (Z.of_nat (i - 1 - t)) by lia. rewrite Hv by (unfold i in *; lia).
          replace (i + (m - 1) + 1)%nat with (length a) by (unfold i; lia). reflexivity. }
      rewrite (bsum_0 (m - 1)) in E.
      2:{ intros t Ht. replace (Z.of_nat i - 1 - Z.of_nat (i + t))%Z with (- Z.of_nat (S t))%Z by lia.
          rewrite IH by lia. ring. }
      replace (Z.of_nat i - 1 - Z.of_nat (i + (m - 1) + 0))%Z with (- Z.of_nat m)%Z in E by lia.
      assert (Lst : nth (i + (m - 1) + 0) a 0 = last a 0).
      { replace (i + (m - 1) + 0)%nat with (length a - 1)%nat by (unfold i; lia).
        destruct (exists_last Ha) as (a' & z & ->). rewrite last_last, app_length. cbn [length].
        rewrite app_nth2 by lia. replace (length a' + 1 - 1 - length a')%nat with 0%nat by lia. reflexivity. }
      rewrite Lst in E.
      assert (P : last a 0 * g (- Z.of_nat m)%Z = 0).
      { match type of E with ?S = ?S + 0 + (0 + ?Q) => transitivity (S + 0 + (0 + Q) - S); [ring|rewrite <- E; ring] end. }
      apply mul_eq0 in P. tauto. }
    intros j Hj. replace j with (- Z.of_nat (Z.to_nat (- j)))%Z by lia. apply G. lia.
Qed.

Lemma rev_map_perm {A B} (h : A -> B) l : Permutation (map h (rev l)) (map h l).
Proof. apply Permutation_map. symmetry. apply Permutation_rev. Qed.
Lemma flat_map_perm {A B} (h h' : A -> list B) l l' : Permutation l l' -> (forall x, Permutation (h x) (h' x)) ->
  Permutation (flat_map h l) (flat_map h' l').
Proof.
  intros P H. induction P; cbn [flat_map].
  - constructor.
  - apply Permutation_app; auto.
  - rewrite !app_assoc. apply Permutation_app.
    + rewrite Permutation_app_comm. apply Permutation_app; auto.
    + clear - H. induction l; cbn [flat_map]; [constructor|]. apply Permutation_app; auto.
  - assert (R : Permutation (flat_map h' l') (flat_map h l')).
    { clear - H. induction l'; cbn [flat_map]; [constructor|]. apply Permutation_app; [symmetry|]; auto. }
    rewrite IHP1, R. exact IHP2.
Qed.
Lemma cols_old_perm all_distinct roots : (all_distinct = true -> Forall (fun r => snd r = 1%nat) roots) ->
  Permutation (cols_old all_distinct roots) (cols_new roots).
Proof.
  intros H. unfold cols_old, cols_new. destruct all_distinct.
  - specialize (H eq_refl). induction H as [|r roots Hr H IH]; cbn [map flat_map]; [constructor|].
    rewrite Hr. cbn [seq map app]. constructor. exact IH.
  - apply flat_map_perm; [symmetry; apply Permutation_rev|]. intros r. apply rev_map_perm.
Qed.

Section WithSolver.
Variable ls : nat -> list (list K * K) -> option (list K).
Hypothesis lsok : lsolve_ok ls.

Lemma solve_system_correct all_distinct a roots c0 : roots_of a roots -> a <> [] -> last a 0 <> 0 ->
  (all_distinct = true -> Forall (fun r => snd r = 1%nat) roots) ->
  exists sol, solve_system ls all_distinct (c0 :: a) roots = Some sol /\
    let g := find_g_n all_distinct sol roots in
    g 0%Z = 1 /\ (forall j, (- Z.of_nat (length a) < j < 0)%Z -> g j = 0) /\ (forall n, g n = lincomb a g n).
Proof.
  intros HR Ha Hl HD. pose proof (roots_nonzero a roots HR Ha Hl) as NZ.
  pose proof (cols_old_perm all_distinct roots HD) as CP.
  pose proof (roots_count a roots HR) as CT. pose proof (length_cols_new roots) as LC.
  unfold solve_system. replace (length (c0 :: a) - 1)%nat with (length a) by (cbn; lia).
  pose proof (lsok (length a) (map (fun h => (map (fun col => colval col (Z.of_nat h)) (cols_old all_distinct roots), nth h (sys_rhs (c0 :: a) (length a)) 0)) (seq 0 (length a)))) as L.
  destruct (ls _ _) as [sol|].
  - destruct L as (Ls & Hs). exists sol. split; auto.
    assert (Rec : forall n, find_g_n all_distinct sol roots n = lincomb a (find_g_n all_distinct sol roots) n).
    { intros n. apply sub_eq0. rewrite <- act_charpoly. unfold find_g_n. apply act_dot.
      intros c Hc m. apply (cols_kill a roots); auto. now apply (Permutation_in c CP). }
    destruct (fundamental_of_values a (find_g_n all_distinct sol roots) c0) as (F1 & F2); auto.
    intros i Hi. rewrite Forall_forall in Hs.
    assert (I : In i (seq 0 (length a))) by (apply in_seq; lia).
    specialize (Hs _ (in_map (fun h => (map (fun col => colval col (Z.of_nat h)) (cols_old all_distinct roots), nth h (sys_rhs (c0 :: a) (length a)) 0)) _ _ I)).
    unfold sat in Hs. cbn [fst snd] in Hs. unfold find_g_n. rewrite dot_comm. exact Hs.
  - exfalso. apply L. clear L.
    destruct (solves_exists a (fun _ => 0) 0 (fun z => nth (Z.to_nat z) (sys_rhs (c0 :: a) (length a)) 0)) as (y & Y1 & Y2).
    destruct (cols_span a roots y 0 HR NZ) as (c & Hc).
    { intros n Hn. replace n with (n + Z.of_nat (length a) - Z.of_nat (length a))%Z by lia.
      rewrite act_charpoly. rewrite Y2 at 1 by lia. ring. }
    exists (map c (cols_old all_distinct roots)). split.
    + rewrite map_length. apply Permutation_length in CP. lia.
    + apply Forall_map, Forall_forall. intros i Hi. apply in_seq in Hi. unfold sat. cbn [fst snd].
      rewrite dot_comm, dot_map. rewrite (lsum_perm _ _ _ CP), <- Hc by lia.
      rewrite Y1 by lia. now rewrite Nat2Z.id.
Qed.

(** Order 2, distinct roots, closed form of g_n. *)
Lemma g_order_2_correct a (l1 l2 : K) : roots_of a [(l1, 1%nat); (l2, 1%nat)] -> a <> [] -> last a 0 <> 0 ->
  let g := g_order_2 l1 l2 in
  g 0%Z = 1 /\ (forall j, (- 2 < j < 0)%Z -> g j = 0) /\ (forall n, g n = lincomb a g n).
Proof.
  intros HR Ha Hl g. pose proof (roots_nonzero a _ HR Ha Hl) as NZ.
  assert (N12 : l1 - l2 <> 0).
  { destruct HR as (ND & _). inversion ND as [|? ? N1 N2]; subst. apply sub_neq0. intros ->. apply N1. left; auto. }
  assert (N1 : l1 <> 0) by (apply (NZ (l1, 1%nat)); left; auto).
  assert (N2 : l2 <> 0) by (apply (NZ (l2, 1%nat)); right; left; auto).
  unfold g, g_order_2. split; [|split].
  - change (zpow l1 (0 + 1)) with (l1 ^ 1%nat). change (zpow l2 (0 + 1)) with (l2 ^ 1%nat). cbn [fpow]. field; auto.
  - intros j Hj. replace j with (-1)%Z by lia. change (zpow l1 (-1 + 1)) with (1 : K). change (zpow l2 (-1 + 1)) with (1 : K). field; auto.
  - intros n. apply sub_eq0. rewrite <- (act_charpoly a (fun m => (zpow l1 (m + 1) - zpow l2 (m + 1)) / (l1 - l2))).
    rewrite (act_ext _ _ (fun m => (l1 / (l1 - l2)) * colval (l1, 0%nat) m + (- (l2 / (l1 - l2))) * colval (l2, 0%nat) m)).
    + rewrite act_add, !act_scal.
      rewrite !(cols_kill a [(l1, 1%nat); (l2, 1%nat)]); auto; [ring| |]; unfold cols_new; cbn; auto.
    + intros m _. unfold colval. cbn [fst snd fpow]. rewrite !zpow_succ by auto. field; auto.
Qed.

Theorem solve_old_correct all_distinct a roots c0 p f x : roots_of a roots -> (2 <= length a)%nat -> last a 0 <> 0 ->
  (all_distinct = true -> Forall (fun r => snd r = 1%nat) roots) ->
  exists X, solve_old ls all_distinct (c0 :: a) roots p f x = Some X /\ solves a p f x X.
Proof.
  intros HR Hlen Hl HD. assert (Ha : a <> []) by (intros ->; cbn in Hlen; lia).
  destruct (solve_system_correct all_distinct a roots c0 HR Ha Hl HD) as (sol & Es & G0 & G1 & G2).
  assert (GEN : exists X,
    match solve_system ls all_distinct (c0 :: a) roots with
    | None => None
    | Some sol =>
      Some (fun n => compute_term_about_initial_conditions (find_g_n all_distinct sol roots) (c0 :: a) f x n
                     + non_homogeneous_sum (find_g_n all_distinct sol roots) (length (c0 :: a) - 1) p f n)
    end = Some X /\ solves a p f x X).
  { rewrite Es. eexists. split; [reflexivity|].
    replace (length (c0 :: a) - 1)%nat with (length a) by (cbn; lia).
    apply fundamental_solution; auto. }
  unfold solve_old. destruct all_distinct; [|exact GEN].
  destruct (length (c0 :: a) - 1)%nat as [|[|[|m]]] eqn:EL; [exact GEN|exact GEN| |exact GEN].
  destruct roots as [|(l1, m1) [|(l2, m2) [|r roots]]]; try exact GEN.
  assert (m1 = 1%nat /\ m2 = 1%nat) as [-> ->].
  { specialize (HD eq_refl). inversion HD as [|? ? A1 A2]; subst. inversion A2; subst. auto. }
  eexists. split; [reflexivity|].
  destruct (g_order_2_correct a l1 l2 HR Ha Hl) as (H0 & H1 & H2).
  assert (EL2 : length a = 2%nat) by (cbn in EL; lia).
  pose proof (fundamental_solution a (g_order_2 l1 l2) H0) as FS. rewrite EL2 in FS.
  specialize (FS H1 (fun n _ => H2 n) c0 p f x).
  destruct FS as (F1 & F2).
  assert (EQ : forall n, order_2_distinct l1 l2 p f n = non_homogeneous_sum (g_order_2 l1 l2) 2 p f n).
  { intros n. unfold order_2_distinct, non_homogeneous_sum.
    pose proof (roots_nonzero a _ HR Ha Hl) as NZ.
    assert (N1 : l1 <> 0) by (apply (NZ (l1, 1%nat)); left; auto).
    assert (N2 : l2 <> 0) by (apply (NZ (l2, 1%nat)); right; left; auto).
    assert (N12 : l1 - l2 <> 0).
    { destruct HR as (ND & _). inversion ND as [|? ? M1 M2]; subst. apply sub_neq0. intros ->. apply M1. left; auto. }
    rewrite <- !zsum_scal, <- zsum_sub, <- zsum_scal. replace (f + Z.of_nat 2)%Z with (f + 2)%Z by lia. apply zsum_ext. intros h Hh.
    unfold g_order_2. replace (n - h + 1)%Z with (n + 1 + - h)%Z by lia.
    rewrite !zpow_add by auto. field; auto. }
  split.
  - intros i Hi. rewrite <- F1 by auto. now rewrite EQ.
  - intros n Hn. rewrite EQ. rewrite F2 by auto. f_equal. apply lincomb_ext. intros m _. now rewrite EQ.
Qed.
End WithSolver.

(** The characteristic equation: value of the polynomial. *)
Lemma build_characteristic_equation_value m c0 a (y : K) :
  peval (build_characteristic_equation m (c0 :: a)) y = m * char_value a y.
Proof.
  unfold build_characteristic_equation, char_value. replace (length (c0 :: a) - 1)%nat with (length a) by (cbn; lia).
  rewrite peval_app, map_length, seq_length. cbn [peval]. rewrite peval_bsum, map_length, seq_length.
  rewrite (bsum_rev (length a) (fun j => nth j a 0 * _)).
  assert (E : bsum (length a) (fun i => nth i (map (fun i => - (m * nth (length a - i) (c0 :: a) 0)) (seq 0 (length a))) 0 * y ^ i)
    = - (m * bsum (length a) (fun i => nth (length a - 1 - i) a 0 * y ^ (length a - 1 - (length a - 1 - i))%nat))).
  { rewrite <- bsum_scal, <- bsum_opp. apply bsum_ext. intros i Hi.
    rewrite (nth_indep _ 0 (- (m * nth (length a - 0) (c0 :: a) 0))) by (now rewrite map_length, seq_length).
    rewrite (map_nth (fun i => - (m * nth (length a - i) (c0 :: a) 0))), seq_nth by auto. cbn [plus].
    replace (length a - 1 - (length a - 1 - i))%nat with i by lia.
    replace (length a - i)%nat with (S (length a - 1 - i)) by lia. cbn [nth]. ring. }
  rewrite E. ring.
Qed.
End S.
