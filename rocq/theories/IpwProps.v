(** C97: powers of intervals. *)
From Coq Require Import ZArith QArith Qcanon Reals Lra Lia Bool.
From Verif Require Import Bool3Model Ast IvlModel IvlSpec IvlCases IvlFinal IpwModel IpwSpec IpwProofs2 IpwProofs3 IpwCases.
Local Open Scope R_scope.
Set Bullet Behavior "Strict Subproofs".

(** The exponent has more than one value. *)
Theorem C97_range : forall A rep pw, directed A rep -> directed_functions A rep -> directed_power pw rep -> forall x y a b r, formed rep x -> formed rep y -> typed x ->
  is_one_point y = false -> member a x -> member b y -> rpow a b = Some r -> member r (i_pow A pw x y).
Proof. exact pow_range. Qed.
(** The exponent is one natural number. *)
Theorem C97_natural : forall A rep pw, directed A rep -> directed_functions A rep -> directed_power pw rep -> forall x y a b r, formed rep x -> formed rep y -> typed y ->
  is_one_point y = true -> fl y = INTEGER -> member a x -> member b y -> 0 <= b -> rpow a b = Some r -> member r (i_pow A pw x y).
Proof. exact pow_natural. Qed.
(** The exponent is one number which is not an integer; a negative one needs a base that does not start at 0. *)
Theorem C97_fraction : forall A rep pw, directed A rep -> directed_functions A rep -> directed_power pw rep -> forall x y a b r, formed rep x -> formed rep y -> typed y ->
  is_one_point y = true -> fl y = REAL -> fl x = REAL -> member a x -> member b y -> ~ integer b -> (b < 0 -> forall s q, bv (lo x) = Fin s q -> rv q <> 0) ->
  rpow a b = Some r -> member r (i_pow A pw x y).
Proof. exact pow_fraction. Qed.
Example C97_case : directed toy toy_rep /\ directed_functions toy toy_rep /\ directed_power toy_pw toy_rep /\
  (formed toy_rep (closed (-3) 2 REAL) /\ typed (closed (-3) 2 REAL) /\ member (-2) (closed (-3) 2 REAL)) /\
  (formed toy_rep (closed 1 3 INTEGER) /\ typed (closed 1 3 INTEGER) /\ is_one_point (closed 1 3 INTEGER) = false /\ member 3 (closed 1 3 INTEGER)) /\
  (formed toy_rep (closed 2 2 INTEGER) /\ typed (closed 2 2 INTEGER) /\ is_one_point (closed 2 2 INTEGER) = true /\ member 2 (closed 2 2 INTEGER)) /\
  (formed toy_rep (half_point true) /\ typed (half_point true) /\ is_one_point (half_point true) = true /\ member (- / 2) (half_point true) /\ ~ integer (- / 2)) /\
  rpow (-2) 2 = Some 4 /\ member 9 (i_pow toy toy_pw (closed (-3) 2 REAL) (closed 2 2 INTEGER)) /\ ~ member (-1) (i_pow toy toy_pw (closed (-3) 2 REAL) (closed 2 2 INTEGER)).
Proof.
  assert (Q : forall k, rpow (IZR k) 2 = Some (IZR (k * k))).
  { intros k. change 2 with (IZR (Z.of_nat 2)). rewrite rpow_nat. f_equal. cbn. rewrite mult_IZR. ring. }
  assert (T : forall z w t, typed (closed z w t)) by (intros; split; right; discriminate).
  assert (I : forall z, integer (IZR z)) by (intros z; exists z; reflexivity).
  destruct (half_point_good true) as (H1 & H2 & H3 & H4).
  split; [exact toy_directed|]. split; [exact toy_functions|]. split; [exact toy_power|].
  split; [split; [apply small_formed; lia|split; [apply T|apply closed_member; [lra|discriminate]]]|].
  split; [split; [apply small_formed; lia|split; [apply T|split; [vm_compute; reflexivity|apply closed_member; [lra|intros _; apply I]]]]|].
  split; [split; [apply small_formed; lia|split; [apply T|split; [vm_compute; reflexivity|apply closed_member; [lra|intros _; apply I]]]]|].
  split; [split; [exact H1|split; [exact H2|split; [exact H3|split; [exact H4|exact (proj2 half_frac)]]]]|].
  split; [exact (Q (-2)%Z)|]. split.
  - apply (C97_natural toy toy_rep toy_pw toy_directed toy_functions toy_power (closed (-3) 2 REAL) (closed 2 2 INTEGER) (-3) 2).
    + apply small_formed; lia.
    + apply small_formed; lia.
    + apply T.
    + vm_compute; reflexivity.
    + reflexivity.
    + apply closed_member; [lra|discriminate].
    + apply closed_member; [lra|intros _; apply I].
    + lra.
    + exact (Q (-3)%Z).
  - intros [[H _] _]. assert (E : lo (i_pow toy toy_pw (closed (-3) 2 REAL) (closed 2 2 INTEGER)) = point 0) by reflexivity. rewrite E in H.
    unfold above, point, b_value, num in H. cbn [bv bf] in H. rewrite rv_zq in H. lra.
Qed.
(** A negative integer: the boundaries are not exchanged, and [1..2]^-1 does not have 1/2. *)
Theorem C97_negative_refuted : forall A pw t, member 2 (closed 1 2 t) /\ member (-1) (closed (-1) (-1) INTEGER) /\ rpow 2 (-1) = Some (/ 2) /\
  ~ member (/ 2) (i_pow A pw (closed 1 2 t) (closed (-1) (-1) INTEGER)).
Proof.
  intros A pw t. split; [apply closed_member; [lra|intros _; exists 2%Z; reflexivity]|]. split; [apply closed_member; [lra|intros _; exists (-1)%Z; reflexivity]|]. apply inverse_fails.
Qed.
(** (0..1]^(-1/2) is an interval without values. *)
Theorem C97_zero_refuted : exists x y, formed toy_rep x /\ typed x /\ formed toy_rep y /\ typed y /\ member 1 x /\ member (- / 2) y /\ rpow 1 (- / 2) = Some 1 /\
  forall A pw, no_member (i_pow A pw x y).
Proof.
  exists (mkI (mkB (num 0) POS) (point 1) REAL), (half_point true). destruct (half_point_good true) as (K1 & K2 & _ & K3).
  split; [split; intros s q E; cbn in E; injection E as _ <-; (split; [discriminate|apply (rep_small toy toy_rep toy_directed toy_exact); lia])|]. split; [split; right; discriminate|].
  split; [exact K1|]. split; [exact K2|]. destruct (zero_fails toy toy_pw) as (H1 & H2 & _). split; [exact H2|]. split; [exact K3|]. split; [exact H1|]. intros A pw. apply zero_fails.
Qed.
(** The power of an interval of integers with the exponent 1/2 is marked as an interval of integers. *)
Theorem C97_root_refuted : exists x y, formed toy_rep x /\ typed x /\ formed toy_rep y /\ typed y /\ member 2 x /\ member (/ 2) y /\ rpow 2 (/ 2) = Some (sqrt 2) /\
  forall A pw, ~ member (sqrt 2) (i_pow A pw x y).
Proof.
  exists (closed 2 2 INTEGER), (half_point false). destruct (half_point_good false) as (K1 & K2 & _ & K3). destruct (root_fails toy toy_pw) as (H1 & _).
  split; [apply small_formed; lia|]. split; [split; right; discriminate|]. split; [exact K1|]. split; [exact K2|].
  split; [apply closed_member; [lra|intros _; exists 2%Z; reflexivity]|]. split; [exact K3|]. split; [exact H1|]. intros A pw. apply root_fails.
Qed.

Print Assumptions C97_range.
Print Assumptions C97_natural.
Print Assumptions C97_fraction.
Print Assumptions C97_negative_refuted.
Print Assumptions C97_zero_refuted.
Print Assumptions C97_root_refuted.
