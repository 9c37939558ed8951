(** C95: the structures of a classified recurrence, and Recurrence::OK. *)
From Coq Require Import List Bool Arith.
From Verif Require Import RecModel InvModel InvSpec InvProofs.
Import ListNotations.
Local Open Scope list_scope.
Set Bullet Behavior "Strict Subproofs".

(** After any history of constructions, copies, assignments, replacements and classifications, an
    object classified with success has the structure its accessors read, whatever the classifier
    decided on the way, unless it stems from the default constructor. *)
Theorem C95_structures_exist :
  forall h w i o, no_throw h -> refusals h -> after h = Some w -> w i = Some o -> from_default h (fun _ => false) i = false ->
  r_cls o = CL_SUCCESS -> structure_present o.
Proof. exact structures. Qed.
Print Assumptions C95_structures_exist.
(** OK() accepts the classified objects whose order is not zero. *)
Theorem C95_ok_accepts_partial :
  forall h w i o, no_throw h -> refusals h -> after h = Some w -> w i = Some o -> from_default h (fun _ => false) i = false ->
  r_cls o = CL_SUCCESS -> r_type o <> ORDER_ZERO -> OK o = true.
Proof. exact ok_accepts. Qed.
Print Assumptions C95_ok_accepts_partial.
(** It rejects every object of order zero, with or without its structure. *)
Theorem C95_ok_rejects_order_zero : forall o, r_type o = ORDER_ZERO -> OK o = false.
Proof. exact ok_zero. Qed.
Print Assumptions C95_ok_rejects_order_zero.
(** x(n) = n, classified. *)
Theorem C95_ok_accepts_refuted :
  ~ (forall h w i o, no_throw h -> refusals h -> after h = Some w -> w i = Some o -> from_default h (fun _ => false) i = false ->
     r_cls o = CL_SUCCESS -> OK o = true).
Proof.
  intros H. pose proof (fun w => H [IMake 0; IClassify 0 [MkAttempt [DZero] EAll]] w 0 (MkR CL_SUCCESS ORDER_ZERO true false false false)) as H'.
  assert (X : OK (MkR CL_SUCCESS ORDER_ZERO true false false false) = true).
  { eapply H'; [| |reflexivity|reflexivity|reflexivity|reflexivity].
    - intros i l a [E|[E|[]]]; [discriminate|]. injection E as _ <-. intros [<-|[]]. discriminate.
    - intros i l a c [E|[E|[]]]; [discriminate|]. injection E as _ <-. intros [<-|[]]. discriminate. }
  discriminate.
Qed.
Print Assumptions C95_ok_accepts_refuted.
(** The object of the default constructor, documented as the recurrence x(n) = 0, passes for
    classified but has no structure. *)
Theorem C95_default_constructor_refuted :
  ~ (forall h w i o, no_throw h -> refusals h -> after h = Some w -> w i = Some o -> r_cls o = CL_SUCCESS -> structure_present o).
Proof.
  intros H. pose proof (fun w => H [IDefault 0] w 0 default_object) as H'. assert (X : structure_present default_object).
  { eapply H'; [| |reflexivity|reflexivity|reflexivity]. - intros i l a [E|[]]. discriminate. - intros i l a c [E|[]]. discriminate. }
  discriminate X.
Qed.
Print Assumptions C95_default_constructor_refuted.
(** x(n) = x(n-1) + x(n/2), refused at the second summand: OK() rejects the object. *)
Theorem C95_ok_after_refusal_refuted :
  ~ (forall h w i o, no_throw h -> refusals h -> after h = Some w -> w i = Some o -> from_default h (fun _ => false) i = false -> r_type o <> ORDER_ZERO -> OK o = true).
Proof.
  intros H. pose proof (fun w => H [IMake 0; IClassify 0 [MkAttempt [DConst] (ERefuse CL_TOO_COMPLEX)]] w 0 (MkR CL_TOO_COMPLEX CONST_COEFF false false false false)) as H'.
  assert (X : OK (MkR CL_TOO_COMPLEX CONST_COEFF false false false false) = true).
  { eapply H'; [| |reflexivity|reflexivity|reflexivity|discriminate].
    - intros i l a [E|[E|[]]]; [discriminate|]. injection E as _ <-. intros [<-|[]]. discriminate.
    - intros i l a c [E|[E|[]]]; [discriminate|]. injection E as _ <-. intros [<-|[]] [= <-]. split; discriminate. }
  discriminate.
Qed.
Print Assumptions C95_ok_after_refusal_refuted.
(** An exception in the middle of the classification (out of memory, say) leaves an object that
    passes for classified without its structure. *)
Theorem C95_exception_refuted :
  ~ (forall h w i o, refusals h -> after h = Some w -> w i = Some o -> from_default h (fun _ => false) i = false -> r_cls o = CL_SUCCESS -> structure_present o).
Proof.
  intros H. pose proof (fun w => H [IMake 0; IClassify 0 [MkAttempt [DConst] EThrow]] w 0 (MkR CL_SUCCESS CONST_COEFF false false false false)) as H'.
  assert (X : structure_present (MkR CL_SUCCESS CONST_COEFF false false false false)).
  { eapply H'; [|reflexivity|reflexivity|reflexivity|reflexivity].
    intros i l a c [E|[E|[]]]; [discriminate|]. injection E as _ <-. intros [<-|[]]. discriminate. }
  discriminate.
Qed.
Print Assumptions C95_exception_refuted.
(** A default constructed object is fine once replaced; a rewritten right-hand side; a copy. *)
Example C95_cases : exists w, after [IDefault 0; IReplace 0; IClassify 0 [MkAttempt [DConst; DConst] EAgain; MkAttempt [DVar; DVar] EAll]; ICopy 1 0; IMake 2; IClassify 2 [MkAttempt [DZero; DWeighted] EAll]] = Some w /\
  w 1 = Some (MkR CL_SUCCESS VAR_COEFF true false false false) /\ w 2 = Some (MkR CL_SUCCESS WEIGHTED_AVERAGE false false false true) /\
  from_default [IDefault 0; IReplace 0; IClassify 0 [MkAttempt [DConst; DConst] EAgain; MkAttempt [DVar; DVar] EAll]; ICopy 1 0; IMake 2; IClassify 2 [MkAttempt [DZero; DWeighted] EAll]] (fun _ => false) 1 = false.
Proof. eexists. split; [reflexivity|]. split; [reflexivity|]. split; reflexivity. Qed.
