(** C93: the values over an interval are those of the single calls, in order. *)
From Coq Require Import ZArith QArith Qcanon List Bool Arith Lia.
From Verif Require Import Ast RecModel RecSpec RecCases RngModel RngSpec RngProofs.
Import ListNotations.
Local Open Scope list_scope.
Local Open Scope nat_scope.
Set Bullet Behavior "Strict Subproofs".

(** For every interval that is not backwards, whatever its ends, the call returns (the loop ends);
    what is written are the answers of the single calls at begin, begin + 1, ... in this order.
    On normal return the numbers of [begin, end) are exactly those; otherwise the next number is
    still in the interval and the single call at it is what failed. *)
Theorem C93_range_is_the_single_calls :
  forall G kind b e (s : state G), (b <= e)%Qc -> exists s' out r, evaluate_range G kind b e s = Some (s', out, r) /\
  match r with
  | Ok tt => covers b e (length out) /\ one_by_one G kind b s out s'
  | Exc => exists s1, (number_at b (length out) < e)%Qc /\ one_by_one G kind b s out s1 /\ evaluate G kind (number_at b (length out)) s1 = (s', Exc)
  | UB => exists s1, (number_at b (length out) < e)%Qc /\ one_by_one G kind b s out s1 /\ evaluate G kind (number_at b (length out)) s1 = (s', UB)
  end.
Proof. exact range_spec. Qed.
Print Assumptions C93_range_is_the_single_calls.
(** A backwards interval is refused; nothing is written and the object is as before. *)
Theorem C93_backwards_is_refused :
  forall G kind b e (s : state G), (e < b)%Qc -> evaluate_range G kind b e s = Some (s, [], Exc).
Proof. exact range_backwards. Qed.
Print Assumptions C93_backwards_is_refused.
(** From a natural number to another: one value for each index, each the initial condition given
    there or else the value of the formula. *)
Theorem C93_values_over_an_interval :
  forall G, (forall e, e_rename G (e_rename G e) = e_rename G e) -> forall kind a b s s' (e : E G),
  read_kind G kind s = (s', Ok e) -> is_map (ics G s') -> evaluated (inf G s') -> a < b ->
  (forall k, a <= k < b -> given (ics G s') k \/ first_index (inf G s') <= k /\ 0 < k /\ (forall i, given (ics G s') i -> i < k)) ->
  exists out, evaluate_range G kind (zq (Z.of_nat a)) (zq (Z.of_nat b)) s = Some (s', out, Ok tt) /\ length out = b - a /\
  forall j v, nth_error out j = Some v -> value_at (ics G s') e (a + j) v.
Proof. exact range_values. Qed.
Print Assumptions C93_values_over_an_interval.
(** A first number below the domain is refused with nothing written, and so is any interval that is
    not empty when no solution or bound was computed. *)
Theorem C93_begin_outside_is_refused :
  forall G kind a b s s' (e : E G), read_kind G kind s = (s', Ok e) -> is_map (ics G s') -> evaluated (inf G s') -> a < b ->
  a < first_index (inf G s') -> ~ given (ics G s') a -> evaluate_range G kind (zq (Z.of_nat a)) (zq (Z.of_nat b)) s = Some (s', [], Exc).
Proof. exact range_rejected. Qed.
Print Assumptions C93_begin_outside_is_refused.
Theorem C93_nothing_computed_is_refused :
  forall G kind a b (s : state G), (a < b)%Qc -> match kind with 0 => exact G s | 1 => lower G s | _ => upper G s end = None ->
  evaluate_range G kind a b s = Some (s, [], Exc).
Proof. exact range_no_solution. Qed.
Print Assumptions C93_nothing_computed_is_refused.
(** The documented exceptions when nothing was computed and when begin is outside the domain are
    not thrown for an interval without numbers. *)
Theorem C93_empty_interval_refuted :
  ~ (forall G kind a b (s : state G), (a <= b)%Qc -> match kind with 0 => exact G s | 1 => lower G s | _ => upper G s end = None ->
     evaluate_range G kind a b s = Some (s, [], Exc)).
Proof.
  intros H. specialize (H toy 0 0%Qc 0%Qc (construct toy (Rhs 1)) (Qcle_refl _) eq_refl). rewrite range_empty in H. discriminate.
Qed.
Print Assumptions C93_empty_interval_refuted.
(** Only the first number is documented to cause an exception; the initial conditions 0 and 3 of a
    recurrence valid from 3 on make the second number of [0, 5) one, after a value was written. *)
Definition late_state : state toy :=
  MkState toy (Rhs 1) CL_SUCCESS (MkInfo CONST_COEFF 1 false false 0 3) (Some (Line 1)) None None None None None [(0, NumT 5); (3, NumT 8)] true 0.
Theorem C93_begin_inside_is_enough_refuted :
  ~ (forall G kind a b s s' (e : E G), read_kind G kind s = (s', Ok e) -> is_map (ics G s') -> evaluated (inf G s') -> a < b ->
     first_index (inf G s') <= a \/ given (ics G s') a -> exists out, evaluate_range G kind (zq (Z.of_nat a)) (zq (Z.of_nat b)) s = Some (s', out, Ok tt)).
Proof.
  intros H. destruct (H toy 0 0 5 late_state (fst (read_kind toy 0 late_state)) (LineAt 1 3 (NumT 8))) as [out H1].
  - vm_compute. reflexivity.
  - cbn. repeat constructor.
  - exact Logic.I.
  - lia.
  - right. exists (NumT 5). cbn. auto.
  - vm_compute in H1. discriminate.
Qed.
Print Assumptions C93_begin_inside_is_enough_refuted.
(** What happens there: the value at 0 is written, then the call throws. *)
Example C93_late_case : option_map (fun x => (snd (fst x), snd x)) (evaluate_range toy 0 0%Qc (zq 5) late_state) = Some ([NumT 5], Exc).
Proof. vm_compute. reflexivity. Qed.
Definition plain : state toy := fst (compute_exact_solution toy (fst (set_initial_conditions toy [(0, NumT 5); (1, NumT 8)] (construct toy (Rhs 1))))).
Example C93_cases : (forall e, e_rename toy (e_rename toy e) = e_rename toy e) /\ exists s', read_kind toy 0 plain = (s', Ok (LineAt 1 1 (NumT 8))) /\ is_map (ics toy s') /\ evaluated (inf toy s') /\
  (forall k, 0 <= k < 4 -> given (ics toy s') k \/ first_index (inf toy s') <= k /\ 0 < k /\ (forall i, given (ics toy s') i -> i < k)) /\
  option_map (fun x => snd (fst x)) (evaluate_range toy 0 0%Qc (zq 4) plain) = Some [NumT 5; NumT 8; At (LineAt 1 1 (NumT 8)) 2 1; At (LineAt 1 1 (NumT 8)) 3 1] /\
  option_map (fun x => snd (fst x)) (evaluate_range toy 0 (Q2Qc (5 # 2)) (zq 4) plain) = Some [At (LineAt 1 1 (NumT 8)) 5 2; At (LineAt 1 1 (NumT 8)) 7 2].
Proof.
  split; [reflexivity|]. eexists. split. { vm_compute. reflexivity. } split. { cbn. repeat constructor. } split. { exact Logic.I. } split.
  { intros k Hk. destruct (Nat.eq_dec k 0) as [-> |]; [left; exists (NumT 5); cbn; auto|]. destruct (Nat.eq_dec k 1) as [-> |]; [left; exists (NumT 8); cbn; auto|].
    right. cbn. split; [lia|]. split; [lia|]. intros i [v Hv]. cbn in Hv. destruct Hv as [Hv|[Hv|[]]]; injection Hv as <- _; lia. }
  split; vm_compute; reflexivity.
Qed.
Example C93_late_domain : exists s', read_kind toy 0 late_state = (s', Ok (LineAt 1 3 (NumT 8))) /\ is_map (ics toy s') /\ evaluated (inf toy s') /\ 1 < first_index (inf toy s') /\ ~ given (ics toy s') 1.
Proof.
  eexists. split. { vm_compute. reflexivity. } split. { cbn. repeat constructor. } split. { exact Logic.I. } split. { cbn. lia. }
  intros [v Hv]. cbn in Hv. destruct Hv as [Hv|[Hv|[]]]; discriminate.
Qed.
