(** C84-C88: the interval library. *)
From Coq Require Import ZArith QArith Qcanon Reals Lra Lia Bool.
From Verif Require Import Bool3Model Ast IvlModel IvlSpec IvlProofs IvlProofs2 IvlProofs3 IvlProofs4 IvlProofs5 IvlProofs6 IvlProofs7 IvlProofs8 IvlMult IvlCases IvlCases2 IvlFinal.
Local Open Scope R_scope.

(** * C84: predicates and set operations *)
Theorem C84_empty : forall rep x, formed rep x -> normal x -> (is_empty x = true <-> forall r, ~ member r x).
Proof. exact empty_iff. Qed.
Theorem C84_contains_value : forall A rep, directed A rep -> forall x s q, formed rep x -> rep q -> no_nan x -> (i_has A x (Fin s q) = true <-> member (rv q) x).
Proof. intros A rep Hd x s q W R [N1 N2]. exact (has_iff A rep Hd x s q W R N1 N2). Qed.
Theorem C84_intersection : forall A rep, directed A rep -> forall x y r, formed rep x -> formed rep y -> normal x -> normal y ->
  (member r (i_and A x y) <-> member r x /\ member r y).
Proof. exact and_iff. Qed.
(** The hull: everything (every integer, for two intervals of integers) between two values of x or y. *)
Theorem C84_hull : forall rep x y r, formed rep x -> formed rep y -> normal x -> normal y -> (exists a, member a x) -> (exists b, member b y) ->
  (member r (i_or x y) <-> (exists a, (member a x \/ member a y) /\ a <= r) /\ (exists b, (member b x \/ member b y) /\ r <= b) /\ (fl x = INTEGER -> fl y = INTEGER -> integer r)).
Proof. exact or_iff. Qed.
Theorem C84_subset_eq : forall rep x y, formed rep x -> formed rep y -> normal x -> normal y -> tidy x -> (exists a, member a x) -> (exists b, member b y) ->
  (subset_eq x y = true <-> forall r, member r x -> member r y).
Proof. exact subset_eq_iff. Qed.
Theorem C84_subset : forall rep x y, formed rep x -> formed rep y -> normal x -> normal y -> tidy x -> tidy y -> (exists a, member a x) -> (exists b, member b y) ->
  (subset x y = true <-> (forall r, member r x -> member r y) /\ exists r, member r y /\ ~ member r x).
Proof. exact subset_iff. Qed.
Theorem C84_equal : forall rep x y, formed rep x -> formed rep y -> normal x -> normal y -> tidy x -> tidy y -> (exists a, member a x) -> (exists b, member b y) ->
  (i_eq x y = true <-> forall r, member r x <-> member r y).
Proof. exact i_eq_iff. Qed.
(** The comparisons of three values. *)
Theorem C84_compare : forall rep x y, formed rep x -> formed rep y -> normal x -> normal y -> (exists a, member a x) -> (exists b, member b y) ->
  decides (lt3 x y) x y Rlt /\ decides (gt3 x y) x y Rgt /\ decides (le3 x y) x y Rle /\ decides (ge3 x y) x y Rge.
Proof. exact compare_decides. Qed.
Theorem C84_compare_equal : forall rep x y, formed rep x -> formed rep y -> normal x -> normal y -> (exists a, member a x) -> (exists b, member b y) ->
  (eq3 x y = ALWAYS <-> forall a b, member a x -> member b y -> a = b) /\ (eq3 x y = NEVER -> forall a b, member a x -> member b y -> a <> b) /\
  (ne3 x y = NEVER <-> forall a b, member a x -> member b y -> a = b) /\ (ne3 x y = ALWAYS -> forall a b, member a x -> member b y -> a <> b).
Proof. exact equal_decides. Qed.
Example C84_case : formed toy_rep (closed 1 3 INTEGER) /\ normal (closed 1 3 INTEGER) /\ member 1 (closed 1 3 INTEGER) /\ formed toy_rep (closed 2 5 REAL) /\ normal (closed 2 5 REAL) /\
  member 2 (i_and toy (closed 1 3 INTEGER) (closed 2 5 REAL)) /\ subset (closed 2 3 INTEGER) (closed 2 5 REAL) = true /\ lt3 (closed 1 3 INTEGER) (closed 4 5 REAL) = ALWAYS.
Proof.
  destruct (closed_good 1 3 INTEGER) as (H1 & H2 & _ & H4); [lia|]. destruct (closed_good 2 5 REAL) as (K1 & K2 & _ & K4); [lia|].
  split; [exact H1|]. split; [exact H2|]. split; [exact H4|]. split; [exact K1|]. split; [exact K2|]. split; [|split; reflexivity].
  apply (and_iff toy toy_rep toy_directed); auto. split; [exact (closed_member' 1 3 2 ltac:(lia))|exact K4].
Qed.

(** * C85: arithmetic *)
Theorem C85_add : forall A rep, directed A rep -> forall x y a b, formed rep x -> formed rep y -> typed x -> typed y -> member a x -> member b y -> member (a + b) (i_add A x y).
Proof. exact add_in. Qed.
Theorem C85_sub : forall A rep, directed A rep -> forall x y a b, formed rep x -> formed rep y -> typed x -> typed y -> member a x -> member b y -> member (a - b) (i_sub A x y).
Proof. exact sub_in. Qed.
Theorem C85_mul : forall A rep, directed A rep -> forall x y a b, formed rep x -> formed rep y -> typed x -> typed y -> member a x -> member b y -> member (a * b) (i_mul A x y).
Proof. exact mul_in. Qed.
(** Missing: divisors that are intervals of integers with values on both sides of 0 when x does not contain 0; divisors with a zero of the
    wrong sign as a boundary: see below. *)
Theorem C85_div_partial : forall A rep, directed A rep -> forall x y a b, formed rep x -> formed rep y -> typed x -> typed y -> normal y -> signed y -> member a x -> member b y -> b <> 0 ->
  (fl y = INTEGER -> one_signed y \/ member 0 x) -> member (a / b) (i_div A x y).
Proof. exact div_in. Qed.
Theorem C85_neg : forall x a, member a x <-> member (- a) (i_neg x).
Proof. exact neg_in. Qed.
Theorem C85_abs : forall A rep, directed A rep -> forall x a, formed rep x -> member a x -> member (Rabs a) (i_abs x).
Proof. exact abs_in. Qed.
(** Missing: intervals of negative numbers, see below. *)
Theorem C85_sqr_partial : forall A rep, directed A rep -> forall x a, formed rep x -> typed x -> member a x -> ltv x (num 0) = false -> member (a * a) (i_sqr A x).
Proof. exact sqr_in. Qed.
Theorem C85_functions : forall A rep, directed A rep -> directed_functions A rep -> forall x a, formed rep x -> typed x -> member a x ->
  member (exp a) (i_exp A x) /\ (0 <= a -> member (sqrt a) (i_sqrt A x)) /\ (0 < a -> member (ln a) (i_log A x)).
Proof. intros A rep Hd Hf x a W T M. split; [exact (exp_in A rep Hd Hf x a W T M)|split; [exact (sqrt_in A rep Hd Hf x a W T M)|exact (log_in A rep Hd Hf x a W T M)]]. Qed.
Theorem C85_round : forall A rep, directed A rep -> forall x a z, formed rep x -> member a x ->
  (IZR z <= a < IZR z + 1 -> member (IZR z) (i_floor A x)) /\ (a <= IZR z < a + 1 -> member (IZR z) (i_ceil A x)) /\
  ((0 <= a -> IZR z <= a < IZR z + 1) -> (a <= 0 -> a <= IZR z < a + 1) -> member (IZR z) (i_integer A x)).
Proof. intros A rep Hd x a z W M. split; [exact (floor_in A rep Hd x a z W M)|split; [exact (ceil_in A rep Hd x a z W M)|exact (trunc_in A rep Hd x a z W M)]]. Qed.
(** Quotient, rounded towards zero, and remainder.  Missing: as for the division. *)
Theorem C85_quotient_partial : forall A rep, directed A rep -> forall x y a b z, formed rep x -> formed rep y -> typed x -> typed y -> normal y -> signed y -> member a x -> member b y -> b <> 0 ->
  (fl y = INTEGER -> one_signed y \/ member 0 x) -> (0 <= a / b -> IZR z <= a / b < IZR z + 1) -> (a / b <= 0 -> a / b <= IZR z < a / b + 1) ->
  member (IZR z) (i_quo A x y) /\ member (a - IZR z * b) (i_mod A x y).
Proof.
  intros A rep Hd x y a b z W W' T T' N S M M' B H Z1 Z2.
  exact (conj (proj1 (quo_in A rep Hd x y a b z (conj W T) (conj W' T') N S M M' B H Z1 Z2)) (proj1 (mod_in A rep Hd x y a b z (conj W T) (conj W' T') N S M M' B H Z1 Z2))).
Qed.
(** Missing: intervals of different types, see below. *)
Theorem C85_min_max_partial : forall rep x y a b, formed rep x -> formed rep y -> fl x = fl y -> member a x -> member b y -> member (Rmin a b) (i_min x y) /\ member (Rmax a b) (i_max x y).
Proof. intros rep x y a b W W' E M M'. exact (conj (min_in rep x y a b W W' E M M') (max_in rep x y a b W W' E M M')). Qed.
(** Evaluation of an expression over intervals: the results are well formed and contain the values. *)
Theorem C85_evaluation : forall A rep, directed A rep -> forall e (env : nat -> ivl) (v : nat -> R), (forall n, formed rep (env n) /\ typed (env n)) -> (forall n, member (v n) (env n)) ->
  (formed rep (ieval A env e) /\ typed (ieval A env e)) /\ member (reval v e) (ieval A env e).
Proof. exact eval_in. Qed.
Example C85_case : directed toy toy_rep /\ directed_functions toy toy_rep /\
  formed toy_rep (closed 1 3 REAL) /\ typed (closed 1 3 REAL) /\ formed toy_rep (closed (-3) 2 INTEGER) /\ typed (closed (-3) 2 INTEGER) /\
  i_eq (i_mul toy (closed 1 3 REAL) (closed (-3) 2 INTEGER)) (closed (-9) 6 REAL) = true /\ i_eq (i_div toy (closed 4 6 REAL) (closed 1 4 REAL)) (closed 1 6 REAL) = true.
Proof.
  destruct (closed_good 1 3 REAL) as (H1 & _ & H3 & _); [lia|]. destruct (closed_good (-3) 2 INTEGER) as (K1 & _ & K3 & _); [lia|].
  split; [exact toy_directed|]. split; [exact toy_functions|]. split; [exact H1|]. split; [exact H3|]. split; [exact K1|]. split; [exact K3|]. split; vm_compute; reflexivity.
Qed.
(** The square of [-3..-2] has no values. *)
Theorem C85_sqr_refuted : forall A rep, directed A rep -> exact_integers A -> forall t, member (-2) (closed (-3) (-2) t) /\ forall r, ~ member r (i_sqr A (closed (-3) (-2) t)).
Proof. intros A rep Hd Hx t. split; [apply closed_member; [lra|intros _; exists (-2)%Z; reflexivity]|exact (sqr_fails A rep Hd Hx t)]. Qed.
(** [-6..-6] / [-1..2], intervals of integers, does not contain -6 / -1. *)
Theorem C85_div_refuted : forall A rep, directed A rep -> exact_integers A ->
  member (-6) (closed (-6) (-6) INTEGER) /\ member (-1) (closed (-1) 2 INTEGER) /\ ~ member (-6 / -1) (i_div A (closed (-6) (-6) INTEGER) (closed (-1) 2 INTEGER)).
Proof.
  intros A rep Hd Hx. split; [exact (closed_member' (-6) (-6) (-6) ltac:(lia))|]. split; [exact (closed_member' (-1) 2 (-1) ltac:(lia))|].
  replace (-6 / -1) with 6 by lra. exact (div_fails A rep Hd Hx).
Qed.
(** [1..2] / (-5..0) does not contain 1 / -1. *)
Theorem C85_div_zero_refuted : forall A, member 1 (closed 1 2 REAL) /\ member (-1) (open (-5) 0) /\ ~ member (1 / -1) (i_div A (closed 1 2 REAL) (open (-5) 0)).
Proof.
  intros A. split; [apply closed_member; [lra|discriminate]|]. split; [|apply div_zero_fails].
  split; [split; unfold above, below, open; cbn; rewrite rv_zq; lra|discriminate].
Qed.
Theorem C85_min_refuted : member (3/2) (closed 1 10 REAL) /\ member 5 (closed 0 5 INTEGER) /\ ~ member (Rmin (3/2) 5) (i_min (closed 1 10 REAL) (closed 0 5 INTEGER)).
Proof. exact min_fails. Qed.
(** An arithmetic unit that is not switched to directed rounding, and rounds p + q to another number. *)
Theorem C85_rounding_refuted : forall A s s' p q v w, (forall dir, rnd A dir (p + q)%Qc = (Fin w v, false)) -> rv v <> rv p + rv q -> rv p <> 0 ->
  ~ member (rv p + rv q) (i_add A (mkI (b_value (Fin s p)) (b_value (Fin s p)) REAL) (mkI (b_value (Fin s' q)) (b_value (Fin s' q)) REAL)).
Proof. exact undirected_fails. Qed.

(** * C86: empty intervals, ok() *)
(** What the constructor, the intersection and the hull give is ok and is empty only in the canonical way. *)
Theorem C86_constructor_partial : forall A rep, directed A rep -> forall l u t, formed rep (mkI l u t) -> infinities_open (mkI l u t) -> (bv l <> Inf false /\ bv l <> NaN) -> (bv u <> Inf true /\ bv u <> NaN) ->
  b_le l u = true -> (t = INTEGER -> within_fract A (mkI l u t)) ->
  normal (i_make A l u t) /\ forall r, member r (i_make A l u t) <-> above l r /\ below u r /\ (t = INTEGER -> integer r).
Proof. exact make_good. Qed.
Theorem C86_results_partial : forall A rep, directed A rep -> forall x y, formed rep x -> formed rep y -> normal x -> normal y -> within_fract A x -> within_fract A y ->
  (exists a, member a x) -> (exists b, member b y) -> normal (i_and A x y) /\ normal (i_or x y).
Proof. exact and_good. Qed.
Example C86_case : normal (i_and toy (closed 1 3 INTEGER) (closed 2 5 REAL)) /\ normal (i_or (closed 1 3 INTEGER) (closed 2 5 REAL)).
Proof.
  destruct (closed_good 1 3 INTEGER) as (H1 & H2 & _ & H4); [lia|]. destruct (closed_good 2 5 REAL) as (K1 & K2 & _ & K4); [lia|].
  assert (F : forall z w t, (0 <= z <= 100)%Z -> (0 <= w <= 100)%Z -> within_fract toy (closed z w t)).
  { assert (P : forall z, (0 <= z <= 100)%Z -> Rabs (rv (zq z)) <= rv (fract toy)).
    { intros z [Z1 Z2]. cbn [fract toy]. rewrite !rv_zq. apply IZR_le in Z1, Z2. rewrite Rabs_pos_eq; lra. }
    intros z w t Hz Hw. split; intros s q E; unfold closed, point, b_value, num in E; cbn [lo up bv] in E; [assert (q = zq z) as -> by congruence|assert (q = zq w) as -> by congruence]; apply P; assumption. }
  apply (and_good toy toy_rep toy_directed); auto; [apply F; lia|apply F; lia|exists 1; exact H4|exists 2; exact K4].
Qed.
(** The opposite of the empty interval is another empty interval, a proper subset of it. *)
Theorem C86_neg_refuted : (forall r, ~ member r (i_neg i_empty)) /\ i_eq (i_neg i_empty) i_empty = false /\ subset (i_neg i_empty) i_empty = true.
Proof. exact neg_empty_fails. Qed.
(** The empty interval times 0 contains 0. *)
Theorem C86_mul_refuted : forall A s q, rv q = 0 -> (forall r, ~ member r i_empty) /\ member 0 (i_mul_v A i_empty (Fin s q)).
Proof. intros A s q Z. exact (conj empty_no_member (mul_empty_fails A s q Z)). Qed.
(** The empty interval plus (-inf..5]: no values, but it is not recognised. *)
Theorem C86_add_refuted : forall A, (forall r, ~ member r (i_add A i_empty below_five)) /\ is_empty (i_add A i_empty below_five) = false /\ ok (i_add A i_empty below_five) = true.
Proof. exact add_empty_fails. Qed.
(** exp of the empty interval is not ok(). *)
Theorem C86_exp_refuted : forall A rep, directed_functions A rep -> (forall r, ~ member r (i_exp A i_empty)) /\ ok (i_exp A i_empty) = false.
Proof. exact exp_empty_fails. Qed.
(** (w..w+1), an interval of integers beyond BOUNDARY_MAX_FRACT, has no values, but it is not recognised. *)
Theorem C86_large_refuted : forall A rep w, directed A rep -> rv (fract A) < IZR w -> rep (zq w) -> rep (zq (w + 1)) ->
  let x := i_make A (mkB (num w) POS) (mkB (num (w + 1)) NEG) INTEGER in (forall r, ~ member r x) /\ is_empty x = false.
Proof. exact large_open_fails. Qed.

(** * C87: widening and narrowing *)
Theorem C87_widening_contains : forall A rep x old r, formed rep x -> normal x -> 1000 <= rv (fract A) -> member r x -> member r (i_widen A x old).
Proof. exact widen_in. Qed.
(** A sequence of real intervals in which each one is the widening of an interval that contains its predecessor stops. *)
Theorem C87_widening_stops : forall A (z x : nat -> ivl),
  (forall n, typed (z n)) -> (forall n, infinities_open (z n)) -> (forall n, no_nan (z n)) -> no_nan (x 0%nat) -> (forall n, fl (z n) = REAL) ->
  (forall n, subset_eq (x n) (z n) = true) -> (forall n, x (S n) = i_widen A (z n) (x n)) -> exists k, (k <= 15)%nat /\ i_eq (x (S k)) (x k) = true.
Proof. exact widen_stops. Qed.
Theorem C87_narrowing_between : forall rep x old r, formed rep x -> formed rep old ->
  (member r x -> member r old -> member r (i_narrow x old)) /\ ((fl old = INTEGER -> fl x = INTEGER) -> member r (i_narrow x old) -> member r old).
Proof. intros rep x old r W W'. exact (conj (narrow_keeps rep x old r W W') (narrow_within rep x old r W W')). Qed.
Theorem C87_narrowing_stops : forall (t : ty) (z x : nat -> ivl),
  (forall n, typed (z n)) -> (forall n, infinities_open (z n)) -> infinities_open (x 0%nat) -> (forall n, no_nan (z n)) -> no_nan (x 0%nat) ->
  (forall n, fl (z n) = t) -> (forall n, x (S n) = i_narrow (z n) (x n)) ->
  exists k, (k <= 15)%nat /\ (i_eq (x (S k)) (x k) = true \/ is_empty (x (S k)) = true).
Proof. exact narrow_stops. Qed.
Example C87_case : i_eq (i_widen toy (closed (-3) 5 REAL) (closed 0 1 REAL)) (mkI b_min b_max REAL) = true /\ i_eq (i_narrow (closed (-3) 5 REAL) (mkI b_min b_max REAL)) (closed (-3) 5 REAL) = true.
Proof. split; vm_compute; reflexivity. Qed.
(** Of intervals of integers there are widening sequences with any number of steps. *)
Theorem C87_widening_integers_refuted : forall A (n : nat), exists z x : nat -> ivl,
  (forall k, typed (z k)) /\ (forall k, infinities_open (z k)) /\ (forall k, no_nan (z k)) /\ no_nan (x 0%nat) /\ (forall k, fl (z k) = INTEGER) /\
  (forall k, subset_eq (x k) (z k) = true) /\ (forall k, x (S k) = i_widen A (z k) (x k)) /\ forall k, (k < n)%nat -> i_eq (x (S k)) (x k) = false.
Proof. exact widen_integers_fail. Qed.

(** * C88: contains_multiple *)
(** A multiple of a positive period, plus the offset, between the boundaries is found. *)
Theorem C88_found : forall A rep, directed A rep -> forall x s o t p k, typed x -> 0 < rv p -> hull x (rv o + IZR k * rv p) -> contains_multiple A x (Fin s o) (Fin t p) = true.
Proof. exact multiple_found. Qed.
(** With an exact arithmetic only then. *)
Theorem C88_found_only : forall A rep x s o t p, typed x -> formed rep x -> 0 < rv p -> (exists a, hull x a) -> exact_quotient A false (lo x) o p -> exact_quotient A true (up x) o p ->
  contains_multiple A x (Fin s o) (Fin t p) = true -> exists k, hull x (rv o + IZR k * rv p).
Proof. exact multiple_found_only. Qed.
Example C88_case : typed (closed 4 7 REAL) /\ hull (closed 4 7 REAL) (rv (zq 1) + IZR 1 * rv (zq 5)) /\ contains_multiple toy (closed 4 7 REAL) (num 1) (num 5) = true /\
  exact_quotient toy false (point 4) (zq 1) (zq 1) /\ contains_multiple toy (open 1 6) (num 1) (num 5) = false.
Proof.
  split; [split; right; discriminate|]. split; [rewrite !rv_zq; split; unfold above, below; cbn; rewrite rv_zq; lra|]. split; [vm_compute; reflexivity|]. split; [|vm_compute; reflexivity].
  intros s q E. unfold point, b_value, num in E. cbn [bv] in E. assert (q = zq 4) as -> by congruence.
  assert (E1 : (zq 4 - zq 1)%Qc = zq 3) by (apply rv_inj; rewrite rv_sub, !rv_zq; lra). assert (E2 : (zq 3 / zq 1)%Qc = zq 3) by (apply rv_inj; rewrite RatRootProofs.rv_div; rewrite !rv_zq; lra).
  rewrite E1, E2. split; [exact (small_exact toy toy_exact false 3 ltac:(lia))|]. split; [exact (small_exact toy toy_exact false 3 ltac:(lia))|].
  cbn [fract toy]. rewrite !rv_zq. rewrite Rabs_pos_eq; lra.
Qed.
(** A negative period: 2 = -1 * -2 is in [1..3], but not found. *)
Theorem C88_negative_refuted : exists A rep, directed A rep /\ hull (closed 1 3 REAL) (rv (zq 0) + IZR (-1) * rv (zq (-2))) /\ contains_multiple A (closed 1 3 REAL) (num 0) (num (-2)) = false.
Proof.
  exists toy, toy_rep. split; [exact toy_directed|]. split; [rewrite !rv_zq; split; unfold above, below; cbn; rewrite rv_zq; lra|vm_compute; reflexivity].
Qed.

Print Assumptions C84_empty.
Print Assumptions C84_contains_value.
Print Assumptions C84_intersection.
Print Assumptions C84_hull.
Print Assumptions C84_subset_eq.
Print Assumptions C84_subset.
Print Assumptions C84_equal.
Print Assumptions C84_compare.
Print Assumptions C84_compare_equal.
Print Assumptions C85_add.
Print Assumptions C85_sub.
Print Assumptions C85_mul.
Print Assumptions C85_div_partial.
Print Assumptions C85_neg.
Print Assumptions C85_abs.
Print Assumptions C85_sqr_partial.
Print Assumptions C85_functions.
Print Assumptions C85_round.
Print Assumptions C85_quotient_partial.
Print Assumptions C85_min_max_partial.
Print Assumptions C85_evaluation.
Print Assumptions C85_sqr_refuted.
Print Assumptions C85_div_refuted.
Print Assumptions C85_div_zero_refuted.
Print Assumptions C85_min_refuted.
Print Assumptions C85_rounding_refuted.
Print Assumptions C86_constructor_partial.
Print Assumptions C86_results_partial.
Print Assumptions C86_neg_refuted.
Print Assumptions C86_mul_refuted.
Print Assumptions C86_add_refuted.
Print Assumptions C86_exp_refuted.
Print Assumptions C86_large_refuted.
Print Assumptions C87_widening_contains.
Print Assumptions C87_widening_stops.
Print Assumptions C87_narrowing_between.
Print Assumptions C87_narrowing_stops.
Print Assumptions C87_widening_integers_refuted.
Print Assumptions C88_found.
Print Assumptions C88_found_only.
Print Assumptions C88_negative_refuted.
