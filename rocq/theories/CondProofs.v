(** Proofs for C66. *)
From Coq Require Import ZArith List Bool Reals Lia Lra Field Arith.
From Verif Require Import Fld FPoly SeqSpec LinSolve CondModel CondSpec.
Import ListNotations.
Local Open Scope list_scope.

Section Linear.
Context {K : Fld}.
Add Field KFcond : (fth K).
Local Open Scope fld_scope.
Context (k : nat) (a : Z -> nat -> K) (p : Z -> K) (f : Z).
Notation ob := (obeys k a p).
Notation zk := (Z.of_nat k).

(** Two sequences that agree on k consecutive indices agree afterwards... *)
Lemma forward x y s : ob x s -> ob y s -> (forall i, (s - zk <= i < s)%Z -> x i = y i) -> forall n, (s - zk <= n)%Z -> x n = y n.
Proof.
  intros Hx Hy W. assert (S : forall d n, (n < s + Z.of_nat d)%Z -> (s - zk <= n)%Z -> x n = y n).
  { induction d as [|d IH]; intros n H1 H2; [apply W; lia|]. destruct (Z_lt_dec n s) as [L|L]; [apply W; lia|].
    rewrite (Hx n), (Hy n) by lia. f_equal. apply bsum_ext. intros i Hi. f_equal. apply IH; lia. }
  intros n Hn. apply (S (Z.to_nat (n - s + 1))); lia.
Qed.
Hypothesis Kpos : (1 <= k)%nat.
Hypothesis last_nonzero : forall n, (f + zk <= n)%Z -> a n (k - 1)%nat <> 0.
(** the oldest value from the k following ones *)
Definition oldest (x : Z -> K) (n : Z) : K := (x n - p n - bsum (k - 1) (fun j => a n j * x (n - 1 - Z.of_nat j)%Z)) / a n (k - 1)%nat.
Lemma obeys_oldest x n : (f + zk <= n)%Z -> x n = bsum k (fun j => a n j * x (n - 1 - Z.of_nat j)%Z) + p n <-> x (n - zk)%Z = oldest x n.
Proof.
  intros Hn. pose proof (last_nonzero n Hn) as N. unfold oldest. assert (E : bsum k (fun j => a n j * x (n - 1 - Z.of_nat j)%Z) = bsum (k - 1) (fun j => a n j * x (n - 1 - Z.of_nat j)%Z) + a n (k - 1)%nat * x (n - zk)%Z).
  { replace k with (S (k - 1)) at 1 by lia. rewrite bsum_S. do 3 f_equal. lia. }
  rewrite E. set (B := bsum _ _). split; intros H.
  - rewrite H. field. exact N.
  - rewrite H. field. exact N.
Qed.
(** ... and before. *)
Lemma backward x y m : ob x (f + zk) -> ob y (f + zk) -> (f + zk - 1 <= m)%Z -> (forall i, (m - zk < i <= m)%Z -> x i = y i) -> forall n, (f <= n)%Z -> x n = y n.
Proof.
  intros Hx Hy Hm W. assert (S : forall d n, (m - zk - Z.of_nat d < n <= m)%Z -> (f <= n)%Z -> x n = y n).
  { induction d as [|d IH]; intros n H1 H2; [apply W; lia|]. destruct (Z_lt_dec (m - zk) n) as [L|L]; [apply W; lia|].
    pose proof (proj1 (obeys_oldest x (n + zk)%Z ltac:(lia)) (Hx (n + zk)%Z ltac:(lia))) as Ex. pose proof (proj1 (obeys_oldest y (n + zk)%Z ltac:(lia)) (Hy (n + zk)%Z ltac:(lia))) as Ey.
    replace (n + zk - zk)%Z with n in Ex, Ey by lia. rewrite Ex, Ey. unfold oldest. rewrite (IH (n + zk)%Z) by lia. do 2 f_equal. apply bsum_ext. intros i Hi. f_equal. apply IH; lia. }
  intros n Hn. destruct (Z_le_dec n m) as [L|L].
  - apply (S (Z.to_nat (m - n))); lia.
  - apply (forward x y (m + 1)%Z); try lia.
    + intros i Hi. apply Hx. lia.
    + intros i Hi. apply Hy. lia.
    + intros i Hi. apply W. lia.
Qed.
Context (sol : (Z -> K) -> Z -> K) (gen : general k a p f sol).
(** Every window is reached. *)
Lemma reached d : forall w : Z -> K, exists ic, forall i, (f + Z.of_nat d <= i < f + Z.of_nat d + zk)%Z -> sol ic i = w i.
Proof.
  induction d as [|d IH]; intros w.
  - exists w. intros i Hi. apply (proj1 (gen w)). lia.
  - set (n := (f + Z.of_nat d + zk)%Z). destruct (IH (fun i => if Z.eqb i (f + Z.of_nat d) then oldest w n else w i)) as [ic H]. exists ic.
    assert (A : forall i, (f + Z.of_nat d < i < n)%Z -> sol ic i = w i). { intros i Hi. rewrite H by (unfold n in *; lia). destruct (Z.eqb_spec i (f + Z.of_nat d)); [lia|reflexivity]. }
    assert (E : sol ic n = w n).
    { pose proof (proj2 (gen ic) n ltac:(unfold n; lia)) as G. apply (proj1 (obeys_oldest (sol ic) n ltac:(unfold n; lia))) in G.
      assert (O : sol ic (n - zk)%Z = oldest w n). { rewrite H by (unfold n; lia). replace (n - zk)%Z with (f + Z.of_nat d)%Z by (unfold n; lia). now rewrite Z.eqb_refl. }
      rewrite O in G. unfold oldest in G. assert (N := last_nonzero n ltac:(unfold n; lia)).
      assert (B : bsum (k - 1) (fun j => a n j * w (n - 1 - Z.of_nat j)%Z) = bsum (k - 1) (fun j => a n j * sol ic (n - 1 - Z.of_nat j)%Z)).
      { apply bsum_ext. intros j Hj. rewrite A by (unfold n; lia). reflexivity. }
      rewrite B in G. set (b := bsum _ _) in *. 
      assert (X : w n - p n - b = sol ic n - p n - b). { transitivity ((w n - p n - b) / a n (k - 1)%nat * a n (k - 1)%nat); [field; exact N|]. rewrite G. field. exact N. }
      transitivity (sol ic n - p n - b + (p n + b)); [ring|]. rewrite <- X. ring. }
    intros i Hi. destruct (Z.eq_dec i n) as [->|N]; [exact E|]. apply A. unfold n in *. lia.
Qed.

(** * Linearity in the initial conditions *)
Lemma put_in (u : list K) (ic : Z -> K) j : (j < length u)%nat -> put f u ic (f + Z.of_nat j)%Z = nth j u 0.
Proof.
  intros H. unfold put. destruct (Z.leb_spec f (f + Z.of_nat j)); [|lia]. destruct (Z.ltb_spec (f + Z.of_nat j) (f + Z.of_nat (length u))); [|lia].
  cbn. f_equal. lia.
Qed.
Lemma nth_map_seq {A} (g : nat -> A) d n j : (j < n)%nat -> nth j (map g (seq 0 n)) d = g j.
Proof. intros H. rewrite (nth_indep _ d (g 0%nat)) by now rewrite map_length, seq_length. rewrite map_nth. f_equal. now rewrite seq_nth. Qed.
Lemma unit_length j : length (unit k j : list K) = k. Proof. unfold unit. now rewrite map_length, seq_length. Qed.
Lemma unit_nth j i : (i < k)%nat -> nth i (unit k j : list K) 0 = if Nat.eqb i j then 1 else 0.
Proof. intros H. unfold unit. now rewrite nth_map_seq. Qed.
Context (ic : Z -> K).
Let e (u : list K) : Z -> K := sol (put f u ic).
Lemma bsum_pick n (g : nat -> K) i : (i < n)%nat -> bsum n (fun j => g j * (if Nat.eqb i j then 1 else 0)) = g i.
Proof.
  revert i. induction n as [|n IH]; intros i H; [lia|]. rewrite bsum_S. destruct (Nat.eqb_spec i n) as [->|N].
  - rewrite bsum_0; [ring|]. intros j Hj. destruct (Nat.eqb_spec n j); [lia|ring].
  - rewrite IH by lia. ring.
Qed.
Lemma bsum_exchange n m (g : nat -> nat -> K) : bsum n (fun i => bsum m (fun j => g i j)) = bsum m (fun j => bsum n (fun i => g i j)).
Proof. induction n as [|n IH]; cbn [bsum]; [now rewrite bsum_zero|]. rewrite IH. now rewrite <- bsum_add. Qed.
Lemma affine (u : list K) n : length u = k -> (f <= n)%Z -> e u n = e (repeat 0 k) n + bsum k (fun j => nth j u 0 * (e (unit k j) n - e (repeat 0 k) n)).
Proof.
  intros Lu Hn. set (z := e (repeat 0 k)).
  apply (forward (e u) (fun n => z n + bsum k (fun j => nth j u 0 * (e (unit k j) n - z n))) (f + zk)%Z); try lia.
  - exact (proj2 (gen _)).
  - intros i Hi. cbv beta.
    assert (Ez : z i = bsum k (fun j => a i j * z (i - 1 - Z.of_nat j)%Z) + p i) by (apply (proj2 (gen _)); lia).
    transitivity (z i + bsum k (fun j => nth j u 0 * bsum k (fun l => a i l * (e (unit k j) (i - 1 - Z.of_nat l)%Z - z (i - 1 - Z.of_nat l)%Z)))).
    + f_equal. apply bsum_ext. intros j Hj. f_equal. pose proof (proj2 (gen (put f (unit k j) ic)) i ltac:(lia)) as E. change (e (unit k j) i) with (sol (put f (unit k j) ic) i). rewrite E, Ez.
      rewrite (bsum_ext k (fun l => a i l * (e (unit k j) (i - 1 - Z.of_nat l)%Z - z (i - 1 - Z.of_nat l)%Z)) (fun l => a i l * e (unit k j) (i - 1 - Z.of_nat l)%Z - a i l * z (i - 1 - Z.of_nat l)%Z)) by (intros; ring).
      rewrite bsum_sub. unfold e. ring.
    + rewrite Ez at 1. transitivity (bsum k (fun j => a i j * z (i - 1 - Z.of_nat j)%Z) + bsum k (fun j => nth j u 0 * bsum k (fun l => a i l * (e (unit k j) (i - 1 - Z.of_nat l)%Z - z (i - 1 - Z.of_nat l)%Z))) + p i); [ring|]. f_equal.
      rewrite (bsum_ext k (fun j => nth j u 0 * bsum k _) (fun j => bsum k (fun l => nth j u 0 * (a i l * (e (unit k j) (i - 1 - Z.of_nat l)%Z - z (i - 1 - Z.of_nat l)%Z))))) by (intros; now rewrite bsum_scal).
      rewrite bsum_exchange, <- bsum_add. apply bsum_ext. intros l Hl.
      rewrite (bsum_ext k (fun i0 => nth i0 u 0 * (a i l * _)) (fun j => a i l * (nth j u 0 * (e (unit k j) (i - 1 - Z.of_nat l)%Z - z (i - 1 - Z.of_nat l)%Z)))) by (intros; ring).
      rewrite bsum_scal. ring.
  - intros i Hi. set (j := Z.to_nat (i - f)). assert (Ej : i = (f + Z.of_nat j)%Z) by lia. assert (Hj : (j < k)%nat) by lia. clearbody j. subst i.
    assert (V : forall w, length w = k -> e w (f + Z.of_nat j)%Z = nth j w 0). { intros w Lw. unfold e. rewrite (proj1 (gen _)) by lia. apply put_in. lia. }
    rewrite V by exact Lu. unfold z. rewrite (V (repeat 0 k)) by apply repeat_length. rewrite (bsum_ext k _ (fun l => nth l u 0 * (if Nat.eqb j l then 1 else 0))).
    + rewrite bsum_pick by exact Hj. assert (R0 : nth j (repeat (0 : K) k) 0 = 0) by apply nth_repeat. rewrite R0. ring.
    + intros l Hl. rewrite V by apply unit_length. rewrite unit_nth by exact Hj. assert (R0 : nth j (repeat (0 : K) k) 0 = 0) by apply nth_repeat. rewrite R0. ring.
Qed.
Lemma form_value (u : list K) n v : length u = k -> (f <= n)%Z -> value (fst (linear_form k (fun u => e u n) v)) u = snd (linear_form k (fun u => e u n) v) <-> e u n = v.
Proof.
  intros Lu Hn. unfold linear_form, value. cbn [fst snd]. rewrite Lu, (affine u n Lu Hn).
  rewrite (bsum_ext k (fun j => nth j (map _ _) 0 * nth j u 0) (fun j => nth j u 0 * (e (unit k j) n - e (repeat 0 k) n))).
  - set (B := bsum _ _). split; intros H.
    + rewrite H. ring.
    + rewrite <- H. ring.
  - intros j Hj. rewrite nth_map_seq by exact Hj. ring.
Qed.
Lemma ends_firstn m (older last cs : list (Z * K)) : ends_with k m older last cs -> firstn k (rev cs) = rev last /\ length last = k.
Proof.
  intros [-> E]. assert (L : length last = k). { rewrite <- (map_length fst last), E, map_length, seq_length. reflexivity. }
  split; [|exact L]. rewrite rev_app_distr, firstn_app, rev_length, L, Nat.sub_diag, firstn_O, app_nil_r. apply firstn_all2. rewrite rev_length. lia.
Qed.
Lemma ends_last m (older last cs : list (Z * K)) : ends_with k m older last cs -> exists v rest, rev cs = (m, v) :: rest.
Proof.
  intros E. destruct (ends_firstn _ _ _ _ E) as [F L]. destruct E as [-> E]. destruct last as [|c l] using rev_ind; [cbn in L; lia|]. clear IHl. destruct c as [i v].
  rewrite !rev_app_distr. cbn [rev app]. rewrite map_app in E. cbn [map] in E. exists v. eexists. repeat f_equal.
  assert (X : nth (k - 1) (map fst l ++ [fst (i, v)]) 0%Z = i). { rewrite app_nth2; rewrite map_length; rewrite app_length in L; cbn in L; [|lia]. replace (k - 1 - length l)%nat with 0%nat by lia. reflexivity. }
  rewrite E in X. rewrite nth_map_seq in X by lia. lia.
Qed.
Lemma ends_index m (older last cs : list (Z * K)) c : ends_with k m older last cs -> In c last -> (m - zk < fst c <= m)%Z.
Proof.
  intros [_ E] H. apply (in_map fst) in H. rewrite E in H. apply in_map_iff in H as (j & <- & Hj). apply in_seq in Hj. lia.
Qed.
Lemma ends_at m (older last cs : list (Z * K)) i : ends_with k m older last cs -> (m - zk < i <= m)%Z -> exists v, In (i, v) last.
Proof.
  intros [_ E] H. assert (I : In i (map fst last)). { rewrite E. apply in_map_iff. exists (Z.to_nat (i - (m - zk + 1))). split; [lia|]. apply in_seq. lia. }
  apply in_map_iff in I as ((j & v) & <- & I). cbn. eauto.
Qed.
(** the values on the last window *)
Fixpoint lookup (cs : list (Z * K)) (i : Z) : K := match cs with [] => 0 | c :: cs => if Z.eqb i (fst c) then snd c else lookup cs i end.
Lemma lookup_in (cs : list (Z * K)) c : NoDup (map fst cs) -> In c cs -> lookup cs (fst c) = snd c.
Proof.
  induction cs as [|d cs IH]; intros N I; [easy|]. cbn [lookup map] in *. inversion_clear N as [|? ? N1 N2]. destruct I as [->|I].
  - now rewrite Z.eqb_refl.
  - destruct (Z.eqb_spec (fst c) (fst d)) as [E|]; [|auto]. exfalso. apply N1. rewrite <- E. now apply in_map.
Qed.
Lemma ends_nodup m (older last cs : list (Z * K)) : ends_with k m older last cs -> NoDup (map fst last).
Proof. intros [_ ->]. apply FinFun.Injective_map_NoDup; [intros x y; lia|apply seq_NoDup]. Qed.
Lemma given_lookup (cs : list (Z * K)) i ic' : In i (map fst cs) -> given cs ic' i = lookup cs i.
Proof.
  induction cs as [|c cs IH]; intros I; [easy|]. cbn [map given fold_right lookup] in *. destruct (Z.eqb_spec i (fst c)); [reflexivity|].
  destruct I as [E|I]; [congruence|]. exact (IH I).
Qed.
Lemma lookup_app (cs : list (Z * K)) ds i : ~ In i (map fst cs) -> lookup (cs ++ ds) i = lookup ds i.
Proof. induction cs as [|c cs IH]; intros N; [reflexivity|]. cbn in *. destruct (Z.eqb_spec i (fst c)); [exfalso; auto|]. apply IH. auto. Qed.

Theorem linear_on_i_c_ok ls m older last cs y : lsolve_contract ls -> length y = k -> (f + zk - 1 <= m)%Z -> ends_with k m older last cs -> NoDup (map fst cs) ->
  exists x, linear_on_i_c ls f k sol cs y ic = Val x /\ ob x (f + zk) /\ meets x last /\
  forall x', ob x' (f + zk) -> meets x' last -> forall n, (f <= n)%Z -> x' n = x n.
Proof.
  intros C Ly Hm E ND. assert (U : forall x, ob x (f + zk)%Z -> meets x last -> forall x', ob x' (f + zk)%Z -> meets x' last -> forall n, (f <= n)%Z -> x' n = x n).
  { intros x Ox Mx x' Ox' Mx'. apply (backward x' x m Ox' Ox Hm). intros i Hi. destruct (ends_at _ _ _ _ _ E Hi) as [v I]. unfold meets in *. rewrite Forall_forall in Mx, Mx'.
    pose proof (Mx _ I) as A. pose proof (Mx' _ I) as B. cbn in A, B. congruence. }
  destruct (ends_last _ _ _ _ E) as (v & rest & R). destruct (ends_firstn _ _ _ _ E) as [F L].
  assert (D : exists x, linear_on_i_c ls f k sol cs y ic = Val x /\ ob x (f + zk)%Z /\ meets x last);
    [|destruct D as (x & A & B & D); exists x; split; [exact A|]; split; [exact B|]; split; [exact D|]; now apply U].
  unfold linear_on_i_c. rewrite R. destruct (Z.leb_spec (f + zk) m) as [Le|Gt].
  - unfold equations. rewrite F, rev_length, L, Nat.ltb_irrefl, <- map_rev, rev_involutive. change (fun u => sol (put f u ic)) with e.
    set (es := map _ last) in *.
    assert (Hes : forall u, length u = k -> (solves_all u es <-> meets (e u) last)).
    { intros u Lu. unfold solves_all, meets, es. rewrite Forall_map, !Forall_forall. split; intros H c I; specialize (H c I).
      - apply form_value in H; [exact H|exact Lu|]. pose proof (ends_index _ _ _ _ _ E I). lia.
      - apply form_value; [exact Lu| |exact H]. pose proof (ends_index _ _ _ _ _ E I). lia. }
    assert (Sz : forall e0, In e0 es -> length (fst e0) = k). { intros e0 I. unfold es in I. apply in_map_iff in I as (c & <- & _). unfold linear_form. cbn [fst]. now rewrite map_length, seq_length. }
    specialize (C k es Sz). destruct (ls k es) as [s|].
    + destruct (C y Ly) as [Ls Hs]. exists (e (s y)). split; [reflexivity|]. split; [exact (proj2 (gen _))|]. apply Hes; assumption.
    + exfalso. apply C. destruct (reached (Z.to_nat (m - zk + 1 - f)) (lookup last)) as [ic' W].
      set (u := map (fun j => ic' (f + Z.of_nat j)%Z) (seq 0 k)). assert (Lu : length u = k) by (unfold u; now rewrite map_length, seq_length).
      exists u. split; [exact Lu|]. apply Hes; [exact Lu|]. unfold meets. apply Forall_forall. intros c I. pose proof (ends_index _ _ _ _ _ E I) as Ri.
      rewrite <- (lookup_in last c (ends_nodup _ _ _ _ E) I), <- (W (fst c)) by lia.
      apply (forward (e u) (sol ic') (f + zk)%Z); try lia; [exact (proj2 (gen _))|exact (proj2 (gen _))|]. intros i Hi.
      unfold e. rewrite !(proj1 (gen _)) by lia. replace i with (f + Z.of_nat (Z.to_nat (i - f)))%Z by lia. rewrite put_in by lia. unfold u. rewrite nth_map_seq by lia. reflexivity.
  - exists (sol (given cs ic)). split; [reflexivity|]. split; [exact (proj2 (gen _))|]. unfold meets. apply Forall_forall. intros c I. pose proof (ends_index _ _ _ _ _ E I) as Ri.
    rewrite (proj1 (gen _)) by lia. destruct E as [Ecs El]. assert (Ic : In c cs) by (rewrite Ecs; apply in_or_app; auto).
    rewrite given_lookup by now apply in_map. now apply lookup_in.
Qed.
End Linear.
