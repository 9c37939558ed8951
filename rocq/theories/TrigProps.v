(** C06: closed forms of sum_{j=0}^{N} p(j) alpha^j cos(j theta) and ... sin(j theta). *)
From Coq Require Import Reals List Lra.
From Coquelicot Require Import Coquelicot.
From Verif Require Import Fld FPoly TrigModel TrigProofs.
Import ListNotations.
Local Open Scope R_scope.

Theorem C06_cosine : forall (p : list RF) N alpha theta, theta <> 0 -> ~ (alpha = cos theta /\ sin theta = 0) ->
  sum_cos p N alpha theta = Some (bsum (K:=RF) (S N) (fun j => peval (K:=RF) p (INR j) * alpha ^ j * cos (INR j * theta))).
Proof. intros p N a t H1 H2. apply cos_correct; [exact H1|]. intros X. apply H2, pole, X. Qed.
Print Assumptions C06_cosine.
Theorem C06_cosine_angle_zero : forall (p : list RF) N alpha, alpha <> 0 ->
  sum_cos p N alpha 0 = Some (bsum (K:=RF) (S N) (fun j => peval (K:=RF) p (INR j) * alpha ^ j * cos (INR j * 0))).
Proof. exact cos_zero. Qed.
Print Assumptions C06_cosine_angle_zero.
(** At the other points (alpha = cos theta = 1 or -1) both functions divide by zero. *)
Theorem C06_poles : forall (p : list RF) N alpha theta, theta <> 0 -> alpha = cos theta -> sin theta = 0 ->
  sum_cos p N alpha theta = None /\ sum_sin p N alpha theta = None.
Proof.
  intros p N a t H1 H2 H3. assert (E : trig_den t a = 0) by (apply pole; auto). unfold sum_cos, sum_sin. rewrite E.
  destruct (Req_EM_T t 0); [lra|]. destruct (Req_EM_T 0 0); [auto|lra].
Qed.
Print Assumptions C06_poles.
(** So the sum of p(j) (-1)^j cos(j pi) is not computed. *)
Theorem C06_poles_refuted : ~ (forall (p : list RF) N alpha theta, exists v, sum_cos p N alpha theta = Some v).
Proof.
  intros H. destruct (H [1] 0%nat (cos PI) PI) as [v E]. pose proof PI_RGT_0.
  destruct (C06_poles [1] 0%nat (cos PI) PI) as [X _]; [lra|reflexivity|apply sin_PI|]. rewrite X in E. discriminate.
Qed.
Print Assumptions C06_poles_refuted.

(** Sine: the differences between consecutive N are right ... *)
Theorem C06_sine_differences_partial : forall (p : list RF) N alpha theta, theta <> 0 -> ~ (alpha = cos theta /\ sin theta = 0) ->
  exists v w, sum_sin p N alpha theta = Some v /\ sum_sin p (S N) alpha theta = Some w /\
  w - v = peval (K:=RF) p (INR (S N)) * alpha ^ (S N) * sin (INR (S N) * theta).
Proof. intros p N a t H1 H2. apply sin_differences; [exact H1|]. intros X. apply H2, pole, X. Qed.
Print Assumptions C06_sine_differences_partial.
(** ... and so is the value when sin theta = 0 ... *)
Theorem C06_sine_multiples_of_pi_partial : forall (p : list RF) N alpha theta, sin theta = 0 -> alpha <> cos theta ->
  sum_sin p N alpha theta = Some (bsum (K:=RF) (S N) (fun j => peval (K:=RF) p (INR j) * alpha ^ j * sin (INR j * theta))).
Proof. exact sin_multiple. Qed.
Print Assumptions C06_sine_multiples_of_pi_partial.
(** ... but not in general: p = 1, alpha = 1, theta = pi/2, N = 0. *)
Theorem C06_sine_refuted : ~ (forall (p : list RF) N alpha theta v, sum_sin p N alpha theta = Some v ->
  v = bsum (K:=RF) (S N) (fun j => peval (K:=RF) p (INR j) * alpha ^ j * sin (INR j * theta))).
Proof.
  intros H. specialize (H [1] 0%nat 1 (PI / 2) (-1) sin_wrong). rewrite bsum_S in H. cbn [bsum INR pow] in H. rewrite Rmult_0_l, sin_0 in H.
  change (-1 = 0 + peval (K:=RF) [1] 0 * 1 * 0) in H. lra.
Qed.
Print Assumptions C06_sine_refuted.

Example C06_case : 0 < 1 /\ ~ (2 = cos 1 /\ sin 1 = 0) /\ PI <> 0 /\ sin PI = 0 /\ 2 <> cos PI.
Proof.
  pose proof (COS_bound 1). pose proof PI_RGT_0. rewrite sin_PI, cos_PI. split; [lra|]. split; [intros [E _]; lra|]. lra.
Qed.
