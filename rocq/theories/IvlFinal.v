(** The statements of IvlProps that need a little more. *)
From Coq Require Import ZArith QArith Qcanon Reals Lra Lia Bool.
From Verif Require Import Bool3Model Ast IvlModel IvlSpec IvlProofs IvlProofs2 IvlProofs3 IvlProofs4 IvlProofs5 IvlProofs6 IvlProofs7 IvlProofs8 IvlMult IvlCases IvlCases2.
Local Open Scope R_scope.
Set Bullet Behavior "Strict Subproofs".

Section Set_.
Variables (A : arith) (rep : Qc -> Prop).
Hypothesis Hd : directed A rep.
Lemma lt_iff x y : formed rep x -> formed rep y -> normal x -> normal y -> (exists a, member a x) -> (exists b, member b y) ->
  lt x y = true <-> forall a b, member a x -> member b y -> a < b.
Proof. intros. split; [intros L a b Ha Hb; apply (lt_sound x y); assumption|apply (lt_complete rep); assumption]. Qed.
Lemma le_iff x y : formed rep x -> formed rep y -> normal x -> normal y -> (exists a, member a x) -> (exists b, member b y) ->
  le x y = true <-> forall a b, member a x -> member b y -> a <= b.
Proof. intros. split; [intros L a b Ha Hb; apply (le_sound x y); assumption|apply (le_complete rep); assumption]. Qed.
Lemma tri_decides (p n : bool) x y (P : R -> R -> Prop) : (exists a, member a x) -> (exists b, member b y) ->
  (p = true <-> forall a b, member a x -> member b y -> P a b) -> (n = true <-> forall a b, member a x -> member b y -> ~ P a b) -> decides (tri3 p n) x y P.
Proof.
  intros [a Ha] [b Hb] H1 H2. unfold decides, tri3. destruct p.
  - split; [split; [intros _; apply H1; reflexivity|reflexivity]|]. split; [discriminate|]. intros K. destruct (K a b Ha Hb). apply H1; auto.
  - split; [split; [destruct n; discriminate|intros K; apply H1 in K; discriminate]|]. destruct n.
    + split; [intros _; apply H2; reflexivity|reflexivity].
    + split; [discriminate|]. intros K. apply H2 in K. discriminate.
Qed.
Lemma compare_decides x y : formed rep x -> formed rep y -> normal x -> normal y -> (exists a, member a x) -> (exists b, member b y) ->
  decides (lt3 x y) x y Rlt /\ decides (gt3 x y) x y Rgt /\ decides (le3 x y) x y Rle /\ decides (ge3 x y) x y Rge.
Proof.
  intros W W' N N' M M'.
  assert (L := lt_iff x y W W' N N' M M'). assert (L' := lt_iff y x W' W N' N M' M). assert (E := le_iff x y W W' N N' M M'). assert (E' := le_iff y x W' W N' N M' M).
  unfold lt3, gt3, le3, ge3, gt, ge. split; [|split; [|split]]; apply tri_decides; auto.
  - rewrite E'. split; intros H a b Ha Hb; [specialize (H b a Hb Ha); lra|apply Rnot_lt_le; auto].
  - rewrite L'. split; intros H a b Ha Hb; [specialize (H b a Hb Ha); lra|apply Rgt_lt; auto].
  - rewrite E. split; intros H a b Ha Hb; [specialize (H a b Ha Hb); lra|apply Rnot_gt_le; auto].
  - rewrite L'. split; intros H a b Ha Hb; [specialize (H b a Hb Ha); lra|apply Rnot_le_lt; auto].
  - rewrite E'. split; intros H a b Ha Hb; [specialize (H b a Hb Ha); lra|apply Rge_le; auto].
  - rewrite L. split; intros H a b Ha Hb; [specialize (H a b Ha Hb); lra|apply Rnot_ge_lt; auto].
Qed.
(** The two answers of eq3 are right, ALWAYS is given whenever it can be. *)
Lemma equal_decides x y : formed rep x -> formed rep y -> normal x -> normal y -> (exists a, member a x) -> (exists b, member b y) ->
  (eq3 x y = ALWAYS <-> forall a b, member a x -> member b y -> a = b) /\ (eq3 x y = NEVER -> forall a b, member a x -> member b y -> a <> b) /\
  (ne3 x y = NEVER <-> forall a b, member a x -> member b y -> a = b) /\ (ne3 x y = ALWAYS -> forall a b, member a x -> member b y -> a <> b).
Proof.
  intros W W' N N' M M'.
  assert (L := lt_iff x y W W' N N' M M'). assert (L' := lt_iff y x W' W N' N M' M). assert (E := le_iff x y W W' N N' M M'). assert (E' := le_iff y x W' W N' N M' M).
  assert (Q : eq x y = true <-> forall a b, member a x -> member b y -> a = b).
  { unfold eq, ge. rewrite Bool.andb_true_iff, E, E'. split.
    - intros [H1 H2] a b Ha Hb. specialize (H1 a b Ha Hb). specialize (H2 b a Hb Ha). lra.
    - intros H. split; intros a b Ha Hb; [rewrite (H a b Ha Hb)|rewrite (H b a Hb Ha)]; lra. }
  assert (NE : ne x y = true -> forall a b, member a x -> member b y -> a <> b).
  { unfold ne, gt. rewrite Bool.orb_true_iff, L, L'. intros [H|H] a b Ha Hb; [specialize (H a b Ha Hb)|specialize (H b a Hb Ha)]; lra. }
  assert (X : ne x y = true -> eq x y = true -> False).
  { intros H1 H2. destruct M as [a Ha], M' as [b Hb]. apply (NE H1 a b Ha Hb), Q; assumption. }
  unfold eq3, ne3, tri3. rewrite <- Q. destruct (eq x y), (ne x y); try (destruct (X eq_refl eq_refl)); repeat split; intros; try discriminate; auto.
Qed.
(** The constructor, intersection and hull give well formed intervals. *)
Lemma make_good l u t : formed rep (mkI l u t) -> infinities_open (mkI l u t) -> (bv l <> Inf false /\ bv l <> NaN) -> (bv u <> Inf true /\ bv u <> NaN) ->
  b_le l u = true -> (t = INTEGER -> within_fract A (mkI l u t)) ->
  normal (i_make A l u t) /\ forall r, member r (i_make A l u t) <-> above l r /\ below u r /\ (t = INTEGER -> integer r).
Proof.
  intros W [LI UI] L U G F. apply (make_normal A rep Hd); auto.
  - intros _. unfold b_le in G. destruct (b_gt l u); [discriminate|reflexivity].
  - intros E. exact (fract_bounds A (mkI l u t) (F E)).
Qed.
Lemma and_good x y : formed rep x -> formed rep y -> normal x -> normal y -> within_fract A x -> within_fract A y ->
  (exists a, member a x) -> (exists b, member b y) -> normal (i_and A x y) /\ normal (i_or x y).
Proof.
  intros W W' N N' F F' M M'. destruct (fract_bounds A x F), (fract_bounds A y F'). split; [apply (and_normal A rep Hd); assumption|apply (or_normal rep); assumption].
Qed.

(** Evaluation over intervals. *)
Lemma eval_in e (env : nat -> ivl) (v : nat -> R) : (forall n, wf rep (env n)) -> (forall n, member (v n) (env n)) ->
  wf rep (ieval A env e) /\ member (reval v e) (ieval A env e).
Proof.
  intros W M. induction e as [n|e IH1 f IH2|e IH1 f IH2|e IH1 f IH2|e IH|e IH]; cbn [ieval reval]; try (destruct IH1 as [W1 M1], IH2 as [W2 M2]); try (destruct IH as [W1 M1]).
  - split; auto.
  - split; [apply (add_wf A rep Hd _ _ _ W1 (proj1 M1))|apply (add_in A rep Hd); try assumption; first [apply W1|apply W2]].
  - split; [apply (sub_wf A rep Hd _ _ _ W1 (proj1 M1))|apply (sub_in A rep Hd); try assumption; first [apply W1|apply W2]].
  - split; [apply (mul_wf A rep Hd _ _ _ _ W1 W2 (proj1 M1) (proj1 M2))|apply (mul_in A rep Hd); try assumption; first [apply W1|apply W2]].
  - split; [apply (neg_wf A rep Hd _ _ W1 (proj1 M1))|apply (proj1 (neg_in _ _)); assumption].
  - split; [apply (abs_wf A rep Hd _ _ W1 (proj1 M1))|apply (abs_in A rep Hd); [apply W1|assumption]].
Qed.
End Set_.

(** * Concrete intervals *)
Lemma rep_z z : toy_rep (zq z).
Proof. left. exists z. apply rv_zq. Qed.
Lemma closed_good z w t : (z <= w)%Z -> formed toy_rep (closed z w t) /\ normal (closed z w t) /\ typed (closed z w t) /\ member (IZR z) (closed z w t).
Proof.
  intros H. apply IZR_le in H. split; [|split; [|split]].
  - split; intros s q E; unfold closed, point, b_value, num in E; cbn [lo up bv] in E; assert (q = zq z \/ q = zq w) as [-> | ->] by (first [left; congruence|right; congruence]); (split; [discriminate|apply rep_z]).
  - right. split; [exists (IZR z); split; unfold above, below; cbn; rewrite rv_zq; lra|]. split; [intros E; discriminate E|]. split; [intros E; discriminate E|].
    intros _. split; intros s q E; unfold closed, point, b_value, num in E; cbn [lo up bv] in E; (split; [reflexivity|]); [exists z|exists w]; congruence.
  - split; right; discriminate.
  - apply closed_member; [lra|intros _; exists z; reflexivity].
Qed.
Lemma closed_member' z w a : (z <= a <= w)%Z -> member (IZR a) (closed z w INTEGER).
Proof. intros [H1 H2]. apply IZR_le in H1, H2. apply closed_member; [lra|intros _; exists a; reflexivity]. Qed.
