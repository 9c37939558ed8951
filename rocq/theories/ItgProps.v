(** C96: cosine, sine and tangent of intervals. *)
From Coq Require Import ZArith QArith Qcanon Reals Lra Lia Bool.
From Verif Require Import Bool3Model Ast IvlModel IvlSpec IvlProofs IvlProofs2 IvlMult IvlCases IvlFinal ItgModel ItgSpec ItgReal ItgProofs ItgCases.
Local Open Scope R_scope.
Set Bullet Behavior "Strict Subproofs".

(** pi2 stands for pi/2. Missing: intervals for which it is not exact enough, that is, contains_multiple does not find a maximum, a minimum or a pole which is there. *)
Theorem C96_cos_partial : forall A rep, directed A rep -> correctly_rounded A rep -> forall pi2 x a, formed rep x -> typed x -> no_tie rep Cos x ->
  finds x PI (2 * PI) (contains_multiple A x (half_pi pi2 2) (half_pi pi2 4)) -> finds x 0 (2 * PI) (contains_multiple A x (num 0) (half_pi pi2 4)) ->
  member a x -> member (cos a) (i_cos A pi2 x).
Proof. exact cos_in. Qed.
Theorem C96_sin_partial : forall A rep, directed A rep -> correctly_rounded A rep -> forall pi2 x a, formed rep x -> typed x -> no_tie rep Sin x ->
  finds x (- (PI / 2)) (2 * PI) (contains_multiple A x (half_pi pi2 (-1)) (half_pi pi2 4)) -> finds x (PI / 2) (2 * PI) (contains_multiple A x (half_pi pi2 1) (half_pi pi2 4)) ->
  member a x -> member (sin a) (i_sin A pi2 x).
Proof. exact sin_in. Qed.
Theorem C96_tan_partial : forall A rep, directed A rep -> correctly_rounded A rep -> forall pi2 x a, formed rep x -> typed x ->
  (forall k, touches x (PI / 2 + IZR k * PI) -> contains_multiple A x (half_pi pi2 1) (half_pi pi2 2) = true) ->
  member a x -> member (tan a) (i_tan A pi2 x).
Proof. exact tan_in. Qed.
(** Whatever number stands for pi/2, the cosine and the sine have values between -1 and 1 only. *)
Theorem C96_range : forall A rep, directed A rep -> correctly_rounded A rep -> forall pi2 x r, formed rep x -> typed x -> 0 < rv pi2 -> (exists a, member a x) ->
  (member r (i_cos A pi2 x) -> -1 <= r <= 1) /\ (member r (i_sin A pi2 x) -> -1 <= r <= 1).
Proof. intros A rep Hd Hc pi2 x r W T P E. exact (conj (cos_range A rep Hd Hc pi2 x r W T P E) (sin_range A rep Hd Hc pi2 x r W T P E)). Qed.
Example C96_case : let x := closed 1 3 REAL in let y := closed (-1) 1 REAL in
  directed (whole true) whole_rep /\ correctly_rounded (whole true) whole_rep /\ formed whole_rep x /\ typed x /\ no_tie whole_rep Cos x /\ member 2 x /\
  finds x PI (2 * PI) (contains_multiple (whole true) x (half_pi (zq 2) 2) (half_pi (zq 2) 4)) /\ finds x 0 (2 * PI) (contains_multiple (whole true) x (num 0) (half_pi (zq 2) 4)) /\
  finds x (- (PI / 2)) (2 * PI) (contains_multiple (whole true) x (half_pi (zq 2) (-1)) (half_pi (zq 2) 4)) /\
  finds x (PI / 2) (2 * PI) (contains_multiple (whole true) x (half_pi (zq 2) 1) (half_pi (zq 2) 4)) /\
  (forall k, touches y (PI / 2 + IZR k * PI) -> contains_multiple (whole true) y (half_pi (zq 2) 1) (half_pi (zq 2) 2) = true) /\ contains_multiple (whole true) y (half_pi (zq 2) 1) (half_pi (zq 2) 2) = false.
Proof.
  cbv zeta. assert (F : forall z w, formed whole_rep (closed z w REAL)).
  { intros z w. split; intros s q E; (split; [discriminate|]); unfold closed, point, b_value, num in E; cbn [lo up bv] in E; [assert (q = zq z) as -> by congruence; exists z|assert (q = zq w) as -> by congruence; exists w]; apply rv_zq. }
  assert (T : forall z w, typed (closed z w REAL)) by (intros; split; right; discriminate).
  split; [apply whole_directed|]. split; [exact whole_rounded|]. split; [apply F|]. split; [apply T|]. split; [apply closed_tie|]. split; [split; [apply closed_hull; lra|discriminate]|].
  split; [intros k K; apply closed_hull in K; destruct (no_odd k K)|]. split; [intros k K; apply closed_hull in K; destruct (no_even k K)|].
  split; [intros k K; apply closed_hull in K; destruct (no_half k K)|]. split; [intros k _; vm_compute; reflexivity|].
  split; [|vm_compute; reflexivity]. intros k K. apply (proj1 (closed_hull (-1) 1 REAL _)) in K. destruct (no_pole k K).
Qed.
(** A unit that rounds correctly but does not tell that a result is inexact: the cosine of [1..3] is [0..0]. *)
Theorem C96_unmarked_refuted : exists A B rep, directed A rep /\ correctly_rounded B rep /\ (forall f dir v, fst (fn A f dir v) = fst (fn B f dir v)) /\
  member 1 (closed 1 3 REAL) /\ (forall k, ~ hull (closed 1 3 REAL) (PI + IZR k * (2 * PI)) /\ ~ hull (closed 1 3 REAL) (0 + IZR k * (2 * PI))) /\
  ~ member (cos 1) (i_cos A (zq 2) (closed 1 3 REAL)).
Proof.
  exists (whole false), (whole true), whole_rep. split; [apply whole_directed|]. split; [exact whole_rounded|]. split; [exact whole_values|].
  split; [split; [apply closed_hull; lra|discriminate]|]. split; [|exact unmarked_cos].
  intros k. split; intros K; apply closed_hull in K; [destruct (no_odd k K)|destruct (no_even k K)].
Qed.
(** Whatever number stands for pi/2, there is an interval whose minimum is missed. *)
Theorem C96_pi_refuted : exists A rep, directed A rep /\ forall pi2, 3 <= 2 * rv pi2 <= 4 -> 2 * rv pi2 <> PI ->
  exists x, formed rep x /\ typed x /\ normal x /\ hull x PI /\ contains_multiple A x (half_pi pi2 2) (half_pi pi2 4) = false.
Proof. exists dense, dense_rep. split; [exact dense_directed|exact pi_missed]. Qed.

Print Assumptions C96_cos_partial.
Print Assumptions C96_sin_partial.
Print Assumptions C96_tan_partial.
Print Assumptions C96_range.
Print Assumptions C96_unmarked_refuted.
Print Assumptions C96_pi_refuted.
