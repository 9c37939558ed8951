(** C85: sums and differences of intervals have no other members than the sums and differences of the members. *)
From Coq Require Import ZArith QArith Qcanon Reals Lra Lia Bool.
From Verif Require Import Bool3Model Ast IvlModel IvlSpec IvlCases IvlFinal IvlTightSpec IvlTight.
Local Open Scope R_scope.
Set Bullet Behavior "Strict Subproofs".

(** Two intervals of the same type, with members; the boundaries of intervals of integers are integers. Where the boundaries are
    added without error, every member of the sum is a sum of members, however the boundaries are closed, open or infinite. *)
Theorem C85_add_tight : forall A rep, directed A rep -> forall x y a0 b0 r, formed rep x -> formed rep y -> typed x -> typed y -> fl x = fl y ->
  (fl x = INTEGER -> integral (lo x) /\ integral (up x) /\ integral (lo y) /\ integral (up y)) ->
  exact_sum A false (bv (lo x)) (bv (lo y)) -> exact_sum A true (bv (up x)) (bv (up y)) -> member a0 x -> member b0 y ->
  member r (i_add A x y) -> exists a b, member a x /\ member b y /\ r = a + b.
Proof. exact add_tight. Qed.
Theorem C85_sub_tight : forall A rep, directed A rep -> forall x y a0 b0 r, formed rep x -> formed rep y -> typed x -> typed y -> fl x = fl y ->
  (fl x = INTEGER -> integral (lo x) /\ integral (up x) /\ integral (lo y) /\ integral (up y)) ->
  exact_sum A false (bv (lo x)) (vneg (bv (up y))) -> exact_sum A true (bv (up x)) (vneg (bv (lo y))) -> member a0 x -> member b0 y ->
  member r (i_sub A x y) -> exists a b, member a x /\ member b y /\ r = a - b.
Proof. exact sub_tight. Qed.

(** [1..3] + (0..2) = (1..5). *)
Lemma toy_sum dir z w s t : (Z.abs (z + w) <= 1000)%Z -> exact_sum toy dir (Fin s (zq z)) (Fin t (zq w)).
Proof.
  intros H s1 q t1 p E1 E2. injection E1 as _ <-. injection E2 as _ <-. unfold exact_at. replace (zq z + zq w)%Qc with (zq (z + w)) by (apply rv_inj; rewrite rv_add, !rv_zq, plus_IZR; reflexivity).
  exact (small_exact _ toy_exact dir (z + w)%Z H).
Qed.
Lemma open_member : member 1 (open 0 2).
Proof. split; [split|discriminate]; unfold above, below, open, num; cbn; rewrite rv_zq; lra. Qed.
Lemma open_good : formed toy_rep (open 0 2) /\ typed (open 0 2).
Proof.
  split; [split; intros s q E; cbn in E; injection E as _ <-; (split; [discriminate|apply (rep_small toy toy_rep toy_directed toy_exact); lia])|split; right; discriminate].
Qed.
Example C85_tight_case : (forall r, member r (i_add toy (closed 1 3 REAL) (open 0 2)) -> exists a b, member a (closed 1 3 REAL) /\ member b (open 0 2) /\ r = a + b) /\
  member 2 (i_add toy (closed 1 3 REAL) (open 0 2)) /\ ~ member 5 (i_add toy (closed 1 3 REAL) (open 0 2)).
Proof.
  destruct (closed_good 1 3 REAL) as (H1 & _ & H3 & _); [lia|]. destruct open_good as [K1 K2].
  assert (M : member 1 (closed 1 3 REAL)) by (apply closed_member; [lra|discriminate]). pose proof open_member as M'.
  assert (T : forall r, member r (i_add toy (closed 1 3 REAL) (open 0 2)) -> exists a b, member a (closed 1 3 REAL) /\ member b (open 0 2) /\ r = a + b).
  { intros r. apply (C85_add_tight toy toy_rep toy_directed _ _ 1 1 r H1 K1 H3 K2 eq_refl); try assumption; [discriminate| |]; apply toy_sum; lia. }
  split; [exact T|]. split.
  - replace 2 with (1 + 1) by ring. apply (IvlProofs2.add_in toy toy_rep toy_directed); assumption.
  - intros H. destruct (T 5 H) as (a & b & [[_ H1'] _] & [[_ H2'] _] & E). unfold below, closed, open, point, b_value, num in *. cbn in H1', H2'. rewrite rv_zq in *. lra.
Qed.

Print Assumptions C85_add_tight.
Print Assumptions C85_sub_tight.
