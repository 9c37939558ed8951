From Coq Require Import ZArith List Lia Field Bool.
From Verif Require Import Fld SeqSpec.
Import ListNotations.

Section L.
Context {K : Fld}.
Add Field KFsl : (fth K).
Local Open Scope fld_scope.

Lemma zsum_empty lo hi (f : Z -> K) : (hi < lo)%Z -> zsum lo hi f = 0.
Proof. intros H. unfold zsum. replace (Z.to_nat (hi - lo + 1)) with 0%nat by lia. reflexivity. Qed.
Lemma zsum_last lo hi (f : Z -> K) : (lo <= hi)%Z -> zsum lo hi f = zsum lo (hi - 1) f + f hi.
Proof.
  intros H. unfold zsum. replace (Z.to_nat (hi - lo + 1)) with (S (Z.to_nat (hi - 1 - lo + 1))) by lia.
  rewrite bsum_S. do 2 f_equal. lia.
Qed.
Lemma zsum_first lo hi (f : Z -> K) : (lo <= hi)%Z -> zsum lo hi f = f lo + zsum (lo + 1) hi f.
Proof.
  intros H. unfold zsum. replace (Z.to_nat (hi - lo + 1)) with (S (Z.to_nat (hi - (lo + 1) + 1))) by lia.
  rewrite bsum_first. f_equal; [f_equal; lia|]. apply bsum_ext. intros i _. f_equal. lia.
Qed.
Lemma zsum_ext lo hi (f g : Z -> K) : (forall i, (lo <= i <= hi)%Z -> f i = g i) -> zsum lo hi f = zsum lo hi g.
Proof. intros H. unfold zsum. apply bsum_ext. intros i Hi. apply H. lia. Qed.
Lemma zsum_scal lo hi c (f : Z -> K) : zsum lo hi (fun i => c * f i) = c * zsum lo hi f.
Proof. unfold zsum. apply bsum_scal. Qed.
Lemma zsum_scal_r lo hi c (f : Z -> K) : zsum lo hi (fun i => f i * c) = zsum lo hi f * c.
Proof. unfold zsum. apply bsum_scal_r. Qed.
Lemma zsum_add lo hi (f g : Z -> K) : zsum lo hi (fun i => f i + g i) = zsum lo hi f + zsum lo hi g.
Proof. unfold zsum. apply bsum_add. Qed.
Lemma zsum_sub lo hi (f g : Z -> K) : zsum lo hi (fun i => f i - g i) = zsum lo hi f - zsum lo hi g.
Proof. unfold zsum. apply bsum_sub. Qed.
Lemma zsum_0 lo hi (f : Z -> K) : (forall i, (lo <= i <= hi)%Z -> f i = 0) -> zsum lo hi f = 0.
Proof. intros H. unfold zsum. apply bsum_0. intros i Hi. apply H. lia. Qed.
Lemma zsum_split lo mid hi (f : Z -> K) : (lo - 1 <= mid <= hi)%Z ->
  zsum lo hi f = zsum lo mid f + zsum (mid + 1) hi f.
Proof.
  intros H. unfold zsum.
  replace (Z.to_nat (hi - lo + 1)) with (Z.to_nat (mid - lo + 1) + Z.to_nat (hi - (mid + 1) + 1))%nat by lia.
  rewrite bsum_app. f_equal. apply bsum_ext. intros i Hi. f_equal. lia.
Qed.
Lemma zsum_shift lo hi d (f : Z -> K) : zsum lo hi f = zsum (lo - d) (hi - d) (fun i => f (i + d)%Z).
Proof.
  unfold zsum. replace (hi - d - (lo - d) + 1)%Z with (hi - lo + 1)%Z by lia.
  apply bsum_ext. intros i _. f_equal. lia.
Qed.
Lemma zsum_bsum (n : nat) (f : Z -> K) : zsum 0 (Z.of_nat n - 1) f = bsum n (fun i => f (Z.of_nat i)).
Proof. unfold zsum. replace (Z.to_nat (Z.of_nat n - 1 - 0 + 1)) with n by lia. apply bsum_ext. intros i _. f_equal. Qed.

Lemma zprod_empty lo hi (f : Z -> K) : (hi < lo)%Z -> zprod lo hi f = 1.
Proof. intros H. unfold zprod. replace (Z.to_nat (hi - lo + 1)) with 0%nat by lia. reflexivity. Qed.
Lemma zprod_last lo hi (f : Z -> K) : (lo <= hi)%Z -> zprod lo hi f = zprod lo (hi - 1) f * f hi.
Proof.
  intros H. unfold zprod. replace (Z.to_nat (hi - lo + 1)) with (S (Z.to_nat (hi - 1 - lo + 1))) by lia.
  rewrite bprod_S. do 2 f_equal. lia.
Qed.
Lemma zprod_first lo hi (f : Z -> K) : (lo <= hi)%Z -> zprod lo hi f = f lo * zprod (lo + 1) hi f.
Proof.
  intros H. unfold zprod. replace (Z.to_nat (hi - lo + 1)) with (S (Z.to_nat (hi - (lo + 1) + 1))) by lia.
  rewrite bprod_first. f_equal; [f_equal; lia|]. apply bprod_ext. intros i _. f_equal. lia.
Qed.
Lemma zprod_ext lo hi (f g : Z -> K) : (forall i, (lo <= i <= hi)%Z -> f i = g i) -> zprod lo hi f = zprod lo hi g.
Proof. intros H. unfold zprod. apply bprod_ext. intros i Hi. apply H. lia. Qed.
Lemma zprod_neq0 lo hi (f : Z -> K) : (forall i, (lo <= i <= hi)%Z -> f i <> 0) -> zprod lo hi f <> 0.
Proof. intros H. unfold zprod. apply bprod_neq0. intros i Hi. apply H. lia. Qed.
Lemma zprod_split lo mid hi (f : Z -> K) : (lo - 1 <= mid <= hi)%Z ->
  zprod lo hi f = zprod lo mid f * zprod (mid + 1) hi f.
Proof.
  intros H. unfold zprod.
  replace (Z.to_nat (hi - lo + 1)) with (Z.to_nat (mid - lo + 1) + Z.to_nat (hi - (mid + 1) + 1))%nat by lia.
  rewrite bprod_app. f_equal. apply bprod_ext. intros i Hi. f_equal. lia.
Qed.
Lemma zprod_mul lo hi (f g : Z -> K) : zprod lo hi (fun i => f i * g i) = zprod lo hi f * zprod lo hi g.
Proof. unfold zprod. apply bprod_mul. Qed.
Lemma zprod_const lo hi (c : K) : (lo <= hi + 1)%Z -> zprod lo hi (fun _ => c) = c ^ Z.to_nat (hi - lo + 1).
Proof. intros. unfold zprod. apply bprod_const. Qed.

Lemma lincomb_ext a (x y : Z -> K) n :
  (forall m, (n - Z.of_nat (length a) <= m < n)%Z -> x m = y m) -> lincomb a x n = lincomb a y n.
Proof. intros H. unfold lincomb. apply bsum_ext. intros j Hj. f_equal. apply H. lia. Qed.
Lemma lincomb_add a (x y : Z -> K) n : lincomb a (fun m => x m + y m) n = lincomb a x n + lincomb a y n.
Proof. unfold lincomb. rewrite <- bsum_add. apply bsum_ext. intros; ring. Qed.
Lemma lincomb_sub a (x y : Z -> K) n : lincomb a (fun m => x m - y m) n = lincomb a x n - lincomb a y n.
Proof. unfold lincomb. rewrite <- bsum_sub. apply bsum_ext. intros; ring. Qed.
Lemma lincomb_scal a c (x : Z -> K) n : lincomb a (fun m => c * x m) n = c * lincomb a x n.
Proof. unfold lincomb. rewrite <- bsum_scal. apply bsum_ext. intros; ring. Qed.

(** Uniqueness of the solution. *)
Lemma solves_unique a p f ic (x y : Z -> K) : solves a p f ic x -> solves a p f ic y ->
  forall n, (f <= n)%Z -> x n = y n.
Proof.
  intros [X1 X2] [Y1 Y2].
  assert (H : forall m : nat, x (f + Z.of_nat m)%Z = y (f + Z.of_nat m)%Z).
  { intros m. induction m as [m IH] using (well_founded_induction lt_wf).
    destruct (Nat.lt_ge_cases m (length a)) as [L|L].
    - rewrite X1, Y1 by lia. reflexivity.
    - rewrite X2, Y2 by lia. f_equal. apply lincomb_ext. intros k Hk.
      replace k with (f + Z.of_nat (Z.to_nat (k - f)))%Z by lia. apply IH. lia. }
  intros n Hn. replace n with (f + Z.of_nat (Z.to_nat (n - f)))%Z by lia. apply H.
Qed.

(** * Convolution with the fundamental solution *)
Section Conv.
Variables (a : list K) (g : Z -> K).
Let k := Z.of_nat (length a).
Hypothesis g0 : g 0%Z = 1.
Hypothesis gneg : forall j, (- k < j < 0)%Z -> g j = 0.
Hypothesis grec : forall n, (1 <= n)%Z -> g n = lincomb a g n.

Definition conv (s : Z) (e : Z -> K) (n : Z) : K := zsum s n (fun h => g (n - h)%Z * e h).

Lemma conv_below s e n : (n < s)%Z -> conv s e n = 0.
Proof. apply zsum_empty. Qed.

Lemma conv_extend s e n m : (n <= m)%Z -> (m - n < k)%Z ->
  conv s e n = zsum s m (fun h => g (n - h)%Z * e h).
Proof.
  intros H1 H2. unfold conv. destruct (Z.lt_ge_cases n (s - 1)) as [L|L].
  - rewrite zsum_empty by lia. rewrite zsum_0; auto. intros i Hi. rewrite gneg by lia. ring.
  - rewrite (zsum_split s n m) by lia. rewrite (zsum_0 (n + 1) m); [ring|].
    intros i Hi. rewrite gneg by lia. ring.
Qed.

Lemma zsum_bsum_swap s t m (F : Z -> nat -> K) :
  zsum s t (fun h => bsum m (F h)) = bsum m (fun j => zsum s t (fun h => F h j)).
Proof. unfold zsum. apply bsum_swap. Qed.

Lemma conv_rec s e n : (s <= n)%Z -> conv s e n = lincomb a (conv s e) n + e n.
Proof.
  intros Hn. unfold conv at 1. rewrite zsum_last by auto. rewrite Z.sub_diag, g0.
  assert (E : zsum s (n - 1) (fun h => g (n - h)%Z * e h) = lincomb a (conv s e) n).
  { unfold lincomb.
    transitivity (zsum s (n - 1) (fun h => bsum (length a) (fun j => nth j a 0 * g (n - 1 - Z.of_nat j - h)%Z * e h))).
    - apply zsum_ext. intros h Hh. rewrite grec by lia. unfold lincomb. rewrite <- bsum_scal_r.
      apply bsum_ext. intros j Hj. do 3 f_equal. lia.
    - rewrite zsum_bsum_swap. apply bsum_ext. intros j Hj.
      rewrite (conv_extend s e (n - 1 - Z.of_nat j) (n - 1)) by (unfold k; lia).
      rewrite <- zsum_scal. apply zsum_ext. intros h Hh. ring. }
  rewrite E. ring.
Qed.
End Conv.
End L.
