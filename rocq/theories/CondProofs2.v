(** Proofs for C66: non-linear recurrences, accepted conditions. *)
From Coq Require Import ZArith List Bool Reals Lia Lra Arith.
From Verif Require Import Fld SeqSpec RecModel CondModel CondSpec CondProofs.
Import ListNotations.
Local Open Scope list_scope.
Local Open Scope R_scope.

Lemma bsum_RF n (g : nat -> R) : bsum (K:=RF) n g = match n with O => 0 | S n => bsum (K:=RF) n g + g n end.
Proof. destruct n; reflexivity. Qed.
Section Powers.
Context (k : nat) (a : Z -> nat -> R) (c : Z -> R) (b : R) (Hb : 0 < b) (Hb1 : b <> 1).
Lemma lnb : ln b <> 0.
Proof. intros E. apply Hb1. rewrite <- ln_1 in E. apply ln_inv in E; lra. Qed.
Lemma pow_log v : 0 < v -> Rpower b (ln v / ln b) = v.
Proof. intros H. unfold Rpower. replace (ln v / ln b * ln b) with (ln v) by (field; exact lnb). now apply exp_ln. Qed.
Lemma log_pow w : ln (Rpower b w) / ln b = w.
Proof. unfold Rpower. rewrite ln_exp. field. exact lnb. Qed.
Lemma pow_sum (g y : nat -> R) n : Rpower b (bsum (K:=RF) n (fun j => g j * y j)) = fold_right Rmult 1 (map (fun j => Rpower (Rpower b (y j)) (g j)) (seq 0 n)).
Proof.
  induction n as [|n IH].
  - cbn. change (f0 : RF) with 0. apply Rpower_O. exact Hb.
  - rewrite bsum_RF, Rpower_plus, IH, seq_S, map_app, fold_right_app. cbn [map fold_right Nat.add]. rewrite Rmult_1_r, Rpower_mult, (Rmult_comm (y n)).
    set (q := Rpower b (g n * y n)). clearbody q. generalize (map (fun j => Rpower (Rpower b (y j)) (g j)) (seq 0 n)). intros l.
    induction l as [|u l IHl]; cbn [fold_right]; [ring|]. rewrite <- IHl. ring.
Qed.
Hypothesis cpos : forall n, 0 < c n.
Lemma power_of_linear y s : obeys (K:=RF) k a (fun n => ln (c n) / ln b) y s -> obeys_power k a c (fun n => Rpower b (y n)) s.
Proof.
  intros H n Hn. cbv beta. rewrite (H n Hn). change (@fadd RF) with Rplus. rewrite Rpower_plus, pow_log by apply cpos. rewrite Rmult_comm. f_equal. exact (pow_sum (a n) (fun j => y (n - 1 - Z.of_nat j)%Z) k).
Qed.
Lemma ln_prod l : Forall (fun v => 0 < v) l -> 0 < fold_right Rmult 1 l /\ ln (fold_right Rmult 1 l) = fold_right Rplus 0 (map ln l).
Proof.
  induction 1 as [|v l Hv Hl [IH1 IH2]]; cbn [fold_right map]; [split; [lra|apply ln_1]|]. split; [now apply Rmult_lt_0_compat|]. now rewrite ln_mult, IH2.
Qed.
Lemma sum_logs (g y : nat -> R) n : fold_right Rplus 0 (map ln (map (fun j => Rpower (y j) (g j)) (seq 0 n))) = ln b * bsum (K:=RF) n (fun j => g j * (ln (y j) / ln b)).
Proof.
  induction n as [|n IH]; [cbn; change (f0 : RF) with 0; ring|]. rewrite seq_S, !map_app, fold_right_app, bsum_RF, Rmult_plus_distr_l, <- IH. cbn [map fold_right Nat.add]. rewrite Rplus_0_r.
  replace (ln (Rpower (y n) (g n))) with (g n * ln (y n)) by (unfold Rpower; now rewrite ln_exp). replace (ln b * (g n * (ln (y n) / ln b))) with (g n * ln (y n)) by (field; exact lnb).
  set (q := g n * ln (y n)). clearbody q. generalize (map ln (map (fun j => Rpower (y j) (g j)) (seq 0 n))). intros l.
  induction l as [|u l IHl]; cbn [fold_right]; [ring|]. rewrite IHl. ring.
Qed.
Lemma linear_of_power x f : (forall n, (f <= n)%Z -> 0 < x n) -> obeys_power k a c x (f + Z.of_nat k) -> obeys (K:=RF) k a (fun n => ln (c n) / ln b) (fun n => ln (x n) / ln b) (f + Z.of_nat k).
Proof.
  intros P H n Hn. rewrite (H n Hn) at 1. set (l := map (fun j => Rpower (x (n - 1 - Z.of_nat j)%Z) (a n j)) (seq 0 k)).
  assert (Pl : Forall (fun v => 0 < v) l). { apply Forall_forall. intros v I. unfold l in I. apply in_map_iff in I as (j & <- & _). apply exp_pos. }
  destruct (ln_prod l Pl) as [P1 P2]. rewrite ln_mult, P2 by (auto using cpos). unfold l. rewrite (sum_logs (a n) (fun j => x (n - 1 - Z.of_nat j)%Z)).
  change (@fadd RF) with Rplus. change (@fmul RF) with Rmult. match goal with |- @eq _ ?u ?w => change (@eq R u w) end. field. exact lnb.
Qed.
End Powers.

Lemma nodup_tail {A} (l1 l2 : list A) : NoDup (l1 ++ l2) -> NoDup l2.
Proof. induction l1 as [|u l1 IH]; intros H; [exact H|]. cbn in H. inversion_clear H. auto. Qed.
Section NonLinear.
Context (k : nat) (a : Z -> nat -> R) (c : Z -> R) (f : Z) (b : R) (Hb : 0 < b) (Hb1 : b <> 1) (Kpos : (1 <= k)%nat).
Hypothesis cpos : forall n, 0 < c n.
Hypothesis last_nonzero : forall n, (f + Z.of_nat k <= n)%Z -> a n (k - 1)%nat <> 0.
Lemma zero_none (cs : list (Z * R)) m v rest n : rev cs = (m, v) :: rest -> 0 < v -> zero_found cs n = Val false.
Proof. intros R P. induction n as [|n IH]; [reflexivity|]. cbn [zero_found]. rewrite R. destruct (Req_EM_T v 0); [lra|exact IH]. Qed.
Lemma logs_ok (cs : list (Z * R)) : Forall (fun q => 0 < snd q) cs -> logs b cs = Val (map (fun q => (fst q, ln (snd q) / ln b)) cs).
Proof. induction 1 as [|[i v] l Hv Hl IH]; [reflexivity|]. cbn [logs]. cbn in Hv. unfold glog. destruct (Req_EM_T v 0); [lra|]. now rewrite IH. Qed.
Context (sol lin : (Z -> R) -> Z -> R).
Hypothesis gl : general (K:=RF) k a (fun n => ln (c n) / ln b) f lin.
Hypothesis gs : forall ic, (forall i, (f <= i < f + Z.of_nat k)%Z -> 0 < ic i) -> (forall i, (f <= i < f + Z.of_nat k)%Z -> sol ic i = ic i) /\ obeys_power k a c (sol ic) (f + Z.of_nat k).
Theorem non_linear_ok ls m (older last cs : list (Z * R)) y ic : lsolve_contract (K:=RF) ls -> length y = k -> (f + Z.of_nat k - 1 <= m)%Z -> ends_with (K:=RF) k m older last cs -> NoDup (map fst cs) ->
  Forall (fun q => 0 < snd q) last ->
  exists x, non_linear_on_i_c ls f k false b sol lin cs y ic = Val x /\ obeys_power k a c x (f + Z.of_nat k) /\ meets (K:=RF) x last /\ (forall n, (f <= n)%Z -> 0 < x n) /\
  forall x', (forall n, (f <= n)%Z -> 0 < x' n) -> obeys_power k a c x' (f + Z.of_nat k) -> meets (K:=RF) x' last -> forall n, (f <= n)%Z -> x' n = x n.
Proof.
  intros C Ly Hm E ND P. 
  assert (D : exists x, non_linear_on_i_c ls f k false b sol lin cs y ic = Val x /\ obeys_power k a c x (f + Z.of_nat k) /\ meets (K:=RF) x last /\ forall n, (f <= n)%Z -> 0 < x n).
  { assert (R0 : exists (v : R) rest, rev (A := Z * R) cs = (m, v) :: rest) by exact (ends_last (K:=RF) k Kpos m older last cs E). destruct R0 as (v & rest & Rv).
    assert (F0 : firstn k (rev (A := Z * R) cs) = rev last /\ length last = k) by exact (ends_firstn (K:=RF) k Kpos m older last cs E). destruct F0 as [F L].
    assert (Pv : 0 < v). { rewrite Forall_forall in P. apply (P (m, v)). assert (I : In (m, v) (rev last)) by (rewrite <- F, Rv; destruct k; [lia|left; reflexivity]). exact (proj2 (in_rev last (m, v)) I). }
    unfold non_linear_on_i_c. rewrite (zero_none cs m v rest k Rv Pv), Rv. destruct (Z.leb_spec (f + Z.of_nat k) m) as [Le|Gt].
    - rewrite <- Rv, F, rev_involutive. rewrite (logs_ok last P). set (lcs := map _ last).
      assert (El : ends_with (K:=RF) k m [] lcs lcs). { split; [reflexivity|]. unfold lcs. rewrite map_map. cbn [fst]. exact (proj2 E). }
      assert (Nl : NoDup (map fst lcs)). { unfold lcs. rewrite map_map. cbn [fst]. destruct E as [Ec _]. rewrite Ec, map_app in ND. exact (nodup_tail _ _ ND). }
      destruct (linear_on_i_c_ok (K:=RF) k a (fun n => ln (c n) / ln b) f Kpos last_nonzero lin gl (fun i => ln (ic i) / ln b) ls m [] lcs lcs y C Ly Hm El Nl) as (z & Ez & Oz & Mz & _).
      destruct (ends_last (K:=RF) k Kpos m [] lcs lcs El) as (w & rest' & R'). unfold linear_on_i_c in Ez. rewrite R' in Ez. destruct (Z.leb_spec (f + Z.of_nat k) m); [|lia].
      assert (Mx : meets (K:=RF) (fun n => Rpower b (z n)) last).
      { unfold meets in *. unfold lcs in Mz. rewrite Forall_map in Mz. rewrite Forall_forall in *. intros q I. specialize (Mz q I). cbn [fst snd] in Mz. change (Rpower b (z (fst q)) = snd q). transitivity (Rpower b (ln (snd q) / ln b)); [f_equal; exact Mz|apply pow_log; auto]. }
      destruct (equations (K:=RF) k _ lcs) as [es|]; [|discriminate]. destruct (ls k es) as [s|]; injection Ez as Ez; (eexists; split; [reflexivity|]); rewrite Ez; (split; [apply power_of_linear; auto|split; [exact Mx|intros n _; apply exp_pos]]).
    - exists (sol (given (K:=RF) cs ic)). split; [reflexivity|].
      assert (W : forall i, (f <= i < f + Z.of_nat k)%Z -> exists w, In (i, w) last /\ given (K:=RF) cs ic i = w).
      { intros i Hi. destruct (ends_at (K:=RF) k Kpos m older last cs i E ltac:(lia)) as [w I]. exists w. split; [exact I|]. destruct E as [Ec _]. assert (Ic : In (i, w) cs) by (rewrite Ec; apply in_or_app; auto).
        rewrite (given_lookup (K:=RF)) by (now apply (in_map fst) in Ic). exact (lookup_in (K:=RF) cs (i, w) ND Ic). }
      destruct (gs (given (K:=RF) cs ic)) as [G1 G2].
      { intros i Hi. destruct (W i Hi) as (w & I & ->). rewrite Forall_forall in P. exact (P _ I). }
      split; [exact G2|]. split; cycle 1.
      { intros n Hn. destruct (Z_lt_dec n (f + Z.of_nat k)) as [Lt|Ge].
        - rewrite G1 by lia. destruct (W n ltac:(lia)) as (w & I & ->). rewrite Forall_forall in P. exact (P _ I).
        - rewrite (G2 n) by lia. apply Rmult_lt_0_compat; [apply cpos|]. apply ln_prod. apply Forall_forall. intros v' I. apply in_map_iff in I as (j & <- & _). apply exp_pos. }
      unfold meets. apply Forall_forall. intros q I. pose proof (ends_index (K:=RF) k Kpos m older last cs q E I) as Ri. rewrite G1 by lia.
      destruct (W (fst q) ltac:(lia)) as (w & I' & Ew). rewrite Ew. pose proof (ends_nodup (K:=RF) k Kpos m older last cs E) as N. 
      transitivity (lookup (K:=RF) last (fst q)); [symmetry; exact (lookup_in (K:=RF) last (fst q, w) N I')|exact (lookup_in (K:=RF) last q N I)]. }
  destruct D as (x & A & B & D & Px). exists x. split; [exact A|]. split; [exact B|]. split; [exact D|]. split; [exact Px|]. intros x' P' O' M' n Hn.
  assert (Q : ln (x' n) / ln b = ln (x n) / ln b).
  { apply (backward (K:=RF) k a (fun n => ln (c n) / ln b) f Kpos last_nonzero (fun n => ln (x' n) / ln b) (fun n => ln (x n) / ln b) m); try exact Hm; try exact Hn; try (apply linear_of_power; auto).
    intros i Hi. destruct (ends_at (K:=RF) k Kpos m older last cs i E Hi) as [w I]. unfold meets in *. rewrite Forall_forall in D, M'. pose proof (D _ I) as Q1. pose proof (M' _ I) as Q2. cbn in Q1, Q2. congruence. }
  assert (Q' : ln (x' n) = ln (x n)). { pose proof (lnb b Hb Hb1). apply (f_equal (fun t => t * ln b)) in Q. field_simplify in Q; auto. }
  apply ln_inv in Q'; auto.
Qed.
End NonLinear.
(** x(n) = c x(n-1)^q. *)
Theorem simple_ok ls (c q : R) b sol lin (older : list (Z * R)) m h y ic :
  (forall ic, 0 < ic 0%Z -> sol ic 0%Z = ic 0%Z /\ obeys_power 1 (fun _ _ => q) (fun _ => c) (sol ic) 1) -> 0 < h -> (1 <= m)%Z ->
  exists x, non_linear_on_i_c ls 0 1 true b sol lin (older ++ [(m, h)]) y ic = Val x /\ x m = h /\ obeys_power 1 (fun _ _ => q) (fun _ => c) x (m + 1).
Proof.
  intros G Hh Hm. set (ic' := given (K:=RF) [(0%Z, h)] ic). assert (E0 : ic' 0%Z = h) by reflexivity. destruct (G ic') as [G1 G2]; [now rewrite E0|].
  exists (fun n => sol ic' (n - m)%Z). split; [|split].
  - unfold non_linear_on_i_c. rewrite (zero_none (older ++ [(m, h)]) m h (rev older) 1); [|now rewrite rev_app_distr|exact Hh]. rewrite rev_app_distr. cbn [rev app].
    destruct (Z.leb_spec (0 + Z.of_nat 1) m); [reflexivity|lia].
  - rewrite Z.sub_diag, G1. exact E0.
  - intros n Hn. cbv beta. rewrite (G2 (n - m)%Z) by lia. f_equal. cbn [seq map fold_right]. do 3 f_equal. lia.
Qed.

(** * What set_initial_conditions accepts *)
Section Accepted.
Context (G : engine) {K : Fld} (val : E G -> K).
Definition cond_value (q : nat * E G) : Z * K := (Z.of_nat (fst q), val (snd q)).
Lemma consecutive_indices largest : forall count rest j, consecutive G rest largest j count = true ->
  exists l1 l2, rest = l1 ++ l2 /\ map (fun q => Z.of_nat (fst q)) l1 = map (fun i => (Z.of_nat largest - Z.of_nat (j + i))%Z) (seq 0 count).
Proof.
  induction count as [|n IH]; intros rest j H; [exists [], rest; auto|]. cbn [consecutive] in H. destruct rest as [|[i v] rest]; [discriminate|].
  apply andb_true_iff in H as [H1 H2]. apply Z.eqb_eq in H1. destruct (IH rest (S j) H2) as (l1 & l2 & -> & M). exists ((i, v) :: l1), l2. split; [reflexivity|].
  cbn [map fst seq]. f_equal; [rewrite H1; f_equal; lia|]. rewrite M, <- seq_shift, map_map. apply map_ext. intros t. lia.
Qed.
Theorem accepted_conditions i m : check_ic G i m = Ok true -> (i_type i = CONST_COEFF \/ i_type i = VAR_COEFF) -> (1 <= i_order i)%nat ->
  exists older last largest, ends_with (K:=K) (i_order i) largest older last (map cond_value m) /\ (Z.of_nat (i_first i) <= largest)%Z.
Proof.
  intros H T O. assert (H' : (if (length m <? i_order i)%nat then Ok false else match rev m with [] => UB | (largest, _) :: rest =>
    if (largest <? i_first i)%nat then Ok false else if negb (consecutive G rest largest 1 (i_order i - 1)) then Ok false else Ok true end) = Ok true).
  { unfold check_ic in H. destruct T as [T|T]; rewrite T in H; cbn [andb] in H; exact H. }
  clear H. destruct (length m <? i_order i)%nat; [discriminate|]. destruct (rev m) as [|[largest v] rest] eqn:R; [discriminate|].
  destruct (Nat.ltb_spec largest (i_first i)) as [|Lf]; [discriminate|]. destruct (consecutive G rest largest 1 (i_order i - 1)) eqn:C; [|discriminate].
  destruct (consecutive_indices _ _ _ _ C) as (l1 & l2 & -> & M). exists (map cond_value (rev l2)), (map cond_value (rev ((largest, v) :: l1))), (Z.of_nat largest).
  split; [|lia]. split.
  - rewrite <- map_app. f_equal. rewrite <- rev_app_distr, <- (rev_involutive m), R. reflexivity.
  - rewrite map_map. unfold cond_value. cbn [fst]. rewrite <- map_rev with (f := fun q : nat * E G => Z.of_nat (fst q)) || idtac.
    rewrite map_rev. cbn [map fst]. rewrite M. set (k := i_order i) in *. clearbody k. destruct k as [|k]; [lia|]. replace (S k - 1)%nat with k by lia.
    apply (nth_ext _ _ 0%Z 0%Z); [rewrite rev_length; cbn [length]; now rewrite !map_length, !seq_length|]. intros t Ht. rewrite rev_length in Ht. cbn [length] in Ht. rewrite map_length, seq_length in Ht.
    rewrite rev_nth by (cbn [length]; rewrite map_length, seq_length; exact Ht). cbn [length]. rewrite map_length, seq_length. rewrite (nth_map_seq (fun j => (Z.of_nat largest - Z.of_nat (S k) + 1 + Z.of_nat j)%Z)) by exact Ht.
    destruct (S k - S t)%nat as [|r] eqn:Er; cbn [nth]; [lia|]. rewrite (nth_map_seq (fun i0 => (Z.of_nat largest - Z.of_nat (1 + i0))%Z)) by lia. lia.
Qed.
End Accepted.
