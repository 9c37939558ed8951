(** C79: the first valid index.  C80: the classification as a whole. *)
From Coq Require Import ZArith QArith Qcanon Reals List String Bool Lia Lra.
From Verif Require Import Ast ExprModel ExprSpec SeqInterp ElimModel ElimSpec ElimCases ClassModel ClassCases DomModel DomSpec DomProps DrvModel DrvSpec DrvProofs DrvProofs2 DrvCases.
Import ListNotations.
Local Open Scope list_scope.
Local Open Scope R_scope.

(** The index is not negative, positive for functional equations, and 0 for recurrences of order 0. *)
Theorem C79_range : forall G numerator denominator expand roots fuel s z, first_valid_index G numerator denominator expand roots fuel s = Some z ->
  (0 <= z)%Z /\ (c_type s = Some FUNCTIONAL -> (1 <= z)%Z) /\ (c_type s <> Some FUNCTIONAL -> c_order s = 0%nat -> z = 0%Z).
Proof. exact index_range. Qed.
Print Assumptions C79_range.
(** Linear recurrences of order k > 0: from the index z + k on, where the recurrence is used for the first time, the inhomogeneous term is defined
    if its numerator is.  Missing: the numerator is not checked (see below); denominators that are not tame (DomSpec.v, C64). *)
Theorem C79_inhomogeneous_term_partial : forall G numerator denominator expand roots fuel I rho, standard I ->
  (forall p, is_polynomial "n" p = true -> has "n" p = true -> is_polynomial "n" (gsub G p (Num 1)) = true /\ has "n" (gsub G p (Num 1)) = true) ->
  forall s z, first_valid_index G numerator denominator expand roots fuel s = Some z -> c_type s <> Some FUNCTIONAL -> (0 < c_order s)%nat ->
  let g := c_inhom s in let d := denominator g in let tame := tame I rho "n" G numerator denominator expand roots z in
  quotient I g (numerator g) d -> quotient I d (expand (numerator d)) (expand (denominator d)) -> tame true (expand (numerator d)) -> tame true (expand (denominator d)) ->
  forall n, (z + Z.of_nat (c_order s) <= n)%Z -> eval I (upd rho "n" (IZR n)) (numerator g) <> None -> exists v, eval I (upd rho "n" (IZR n)) g = Some v.
Proof. exact inhomogeneous_defined. Qed.
Print Assumptions C79_inhomogeneous_term_partial.
(** Order 1, variable coefficient: from z + 1 on the coefficient is defined and not zero. *)
Theorem C79_coefficient_partial : forall G numerator denominator expand roots fuel I rho, standard I ->
  (forall p, is_polynomial "n" p = true -> has "n" p = true -> is_polynomial "n" (gsub G p (Num 1)) = true /\ has "n" (gsub G p (Num 1)) = true) ->
  forall s z, first_valid_index G numerator denominator expand roots fuel s = Some z -> c_type s = Some VAR_COEFF -> c_order s = 1%nat ->
  let c := nth 1 (c_coeffs s) (Num 0%Qc) in let tame := tame I rho "n" G numerator denominator expand roots z in
  quotient I c (expand (numerator c)) (expand (denominator c)) -> tame true (expand (numerator c)) -> tame true (expand (denominator c)) ->
  forall n, (z + 1 <= n)%Z -> exists v, eval I (upd rho "n" (IZR n)) c = Some v /\ v <> 0.
Proof. exact coefficient_defined. Qed.
Print Assumptions C79_coefficient_partial.
(** Functional equations: the coefficients are defined after the index. *)
Theorem C79_functional_partial : forall G numerator denominator expand roots fuel I rho, standard I ->
  (forall p, is_polynomial "n" p = true -> has "n" p = true -> is_polynomial "n" (gsub G p (Num 1)) = true /\ has "n" (gsub G p (Num 1)) = true) ->
  forall s z, first_valid_index G numerator denominator expand roots fuel s = Some z -> c_type s = Some FUNCTIONAL -> forall b a, In (b, a) (c_hom s) ->
  let tame := tame I rho "n" G numerator denominator expand roots z in
  quotient I a (expand (numerator a)) (expand (denominator a)) -> tame false (expand (numerator a)) -> tame true (expand (denominator a)) ->
  forall n, (z < n)%Z -> exists v, eval I (upd rho "n" (IZR n)) a = Some v.
Proof. exact functional_defined. Qed.
Print Assumptions C79_functional_partial.
(** x(n) = n x(n-1) + 1 / (n (n - 4)): the index is 4, and from 5 on everything is defined. *)
Example C79_case : forall I rho, standard I -> exists s, classify G0 lmax lmax iv_rhs = inr s /\ first_valid_index G0 numer0 denom0 DomProps.idE roots_ex 5 s = Some 4%Z /\
  forall n, (5 <= n)%Z -> (exists v, eval I (upd rho "n" (IZR n)) (c_inhom s) = Some v) /\ exists v, eval I (upd rho "n" (IZR n)) (nth 1 (c_coeffs s) (Num 0%Qc)) = Some v /\ v <> 0.
Proof.
  intros I rho Std. destruct iv_runs as (s & Hs & Ht & Ho & Hi & Hc). exists s. split; [exact Hs|].
  assert (F : first_valid_index G0 numer0 denom0 DomProps.idE roots_ex 5 s = Some 4%Z). { unfold first_valid_index, check_coefficient. rewrite Ht, Ho, Hc, Hi. vm_compute. reflexivity. }
  split; [exact F|]. intros n Hn. split.
  - pose proof (C79_inhomogeneous_term_partial G0 numer0 denom0 DomProps.idE roots_ex 5 I rho Std (G0_minus "n") s 4 F) as T. rewrite Ht, Ho, Hi in *. cbv zeta in T.
    apply T; [discriminate|lia|apply numer0_quotient|apply numer0_quotient|apply den_tame|apply one_tame|lia|]. change (numer0 (inv den_ex)) with (Num 1). cbn. discriminate.
  - pose proof (C79_coefficient_partial G0 numer0 denom0 DomProps.idE roots_ex 5 I rho Std (G0_minus "n") s 4 F Ht Ho) as T. cbv zeta in T. rewrite Hc in *.
    apply T; [apply numer0_quotient|apply n_tame|apply one_tame|lia].
Qed.
(** x(n) = x(n-1) + log(n-2): the index is 0, but the right-hand side is undefined at 1. *)
Theorem C79_numerator_refuted : exists rhs s, classify G0 lmax lmax rhs = inr s /\ c_type s = Some CONST_COEFF /\ c_order s = 1%nat /\
  (forall roots, first_valid_index G0 numer0 denom0 DomProps.idE roots 5 s = Some 0%Z) /\ forall I rho x, standard I -> at_n I rho x 1 rhs = None.
Proof. destruct lg_runs as (s & A & B & C & D). exists lg_rhs, s. exact (conj A (conj B (conj C (conj D lg_undefined)))). Qed.
Print Assumptions C79_numerator_refuted.
(** x(n) = x(n-1) + x(n-2) / (n-5): coefficients are not looked at if the order is 2. *)
Theorem C79_order_two_refuted : exists rhs s, classify G0 lmax lmax rhs = inr s /\ c_type s = Some VAR_COEFF /\ c_order s = 2%nat /\
  (forall roots, first_valid_index G0 numer0 denom0 DomProps.idE roots 5 s = Some 0%Z) /\ forall I rho x, at_n I rho x 5 rhs = None.
Proof. destruct t2_runs as (s & A & B & C & D). exists t2_rhs, s. exact (conj A (conj B (conj C (conj D t2_undefined)))). Qed.
Print Assumptions C79_order_two_refuted.

(** A second classification returns the same answer and changes nothing. *)
Theorem C80_cached : forall G lm ms simplify expand collect index other leftover fuel r r' f fuel',
  let run := classify_and_catch_special_cases G lm ms simplify expand collect index other leftover in run fuel r = Some (r', f) -> run fuel' r' = Some (r', f).
Proof. exact cached. Qed.
Print Assumptions C80_cached.
(** "Null decrement" and "negative decrement" are never the final answer. *)
Theorem C80_answers : forall G lm ms simplify expand collect index other leftover fuel, (forall e, other e <> Failed HAS_NEGATIVE /\ other e <> Failed HAS_NULL) ->
  forall r r' f, d_status r = None -> classify_and_catch_special_cases G lm ms simplify expand collect index other leftover fuel r = Some (r', f) -> f <> Failed HAS_NEGATIVE /\ f <> Failed HAS_NULL.
Proof. exact never_special. Qed.
Print Assumptions C80_answers.
(** A failure has a reason in the right-hand side that is stored: the elimination of x(n) (C41) or the classification (C42, with the type the object had) says so, the treatment of non-linear or
    weighted-average recurrences does, or there is no first valid index. *)
Theorem C80_failures : forall G lm ms simplify expand collect index other leftover fuel r r' st, d_status r = None ->
  classify_and_catch_special_cases G lm ms simplify expand collect index other leftover fuel r = Some (r', Failed st) -> let e := d_rhs r' in
  (st = CL_UNSOLVABLE /\ eliminate_null G collect e = Unsolvable) \/ (st = CL_INDETERMINATE /\ eliminate_null G collect e = Indeterminate) \/ (st = CL_TOO_COMPLEX /\ eliminate_null G collect e = Too_complex) \/
  (exists t, classify_from G lm ms t e = inl st) \/ other e = Failed st \/ (st = CL_TOO_COMPLEX /\ exists t s, classify_from G lm ms t e = inr s /\ index s = None).
Proof. exact failures. Qed.
Print Assumptions C80_failures.
(** x(n) = x(n) + 1, x(n) = x(n). *)
Example C80_failures_case : forall other leftover, let run := classify_and_catch_special_cases Gc lmax lmax DomProps.idE DomProps.idE keep (fun _ => Some 0%Z) other leftover 5 in
  (exists r, run (new_recurrence un_rhs) = Some (r, Failed CL_UNSOLVABLE)) /\ (exists r, run (new_recurrence x_n) = Some (r, Failed CL_INDETERMINATE)).
Proof. intros other leftover. split; eexists; vm_compute; reflexivity. Qed.
(** Solutions are kept: if every step taken (the log) is sound at the index it is reached at, starting with n and ending with k, the equation given at n and
    the one stored at k say the same about x; the object is marked as rewritten if and only if decrements have been eliminated. *)
Theorem C80_same_solutions : forall I rho G lm ms simplify expand collect index other leftover,
  (forall x, ginac_ok (with_x I x) G) -> (forall x e, refines (with_x I x) e (simplify e)) -> (forall x e, refines (with_x I x) e (expand e)) -> (forall x e, refines (with_x I x) e (collect e)) -> no_new_binders G ->
  forall fuel rhs r f, classify_and_catch_special_cases G lm ms simplify expand collect index other leftover fuel (new_recurrence rhs) = Some (r, f) ->
  (d_rewritten r = true <-> Exists elimination (d_log r)) /\
  forall x n k, sound_path I rho G collect x n (d_log r) k -> (holds_at I rho rhs x n <-> holds_at I rho (d_rhs r) x k).
Proof.
  intros I rho G lm ms si ex co index other leftover HG HS HE HC HB fuel rhs r f H. cbn [classify_and_catch_special_cases new_recurrence d_status] in H. apply drive_changes in H as (l & Cs).
  pose proof (changes_log _ _ _ _ _ _ _ _ _ _ _ _ Cs) as [E W]. cbn in E, W. rewrite E. split; [rewrite W; split; [intros [C|C]; [discriminate|exact C]|auto]|].
  intros x n k P. exact (changes_sound G lm ms si ex co index other leftover I rho x HG HS HE HC HB _ _ _ Cs n k P).
Qed.
Print Assumptions C80_same_solutions.
(** Success: what is stored is what a classification from scratch of the stored right-hand side yields, although the loop may classify an object again
    that has kept the type of a classification that failed. *)
Theorem C80_success : forall G lm ms simplify expand collect numerator denominator expand' roots dfuel other leftover, (forall e, simplify (simplify e) = simplify e) ->
  let index := first_valid_index G numerator denominator expand' roots dfuel in
  forall fuel rhs r, classify_and_catch_special_cases G lm ms simplify expand collect index other leftover fuel (new_recurrence rhs) = Some (r, Success) ->
  let e := d_rhs r in
  simplify e = e /\
  (is_max e = true \/ ((classify G lm ms e = inl NON_LINEAR \/ classify G lm ms e = inl WEIGHTED_AVERAGE) /\ other e = Success) \/
   exists s z, classify G lm ms e = inr s /\ index s = Some z /\ d_data r = Some (s, z)).
Proof.
  intros G lm ms si ex co nu de ex' ro df other leftover idem index fuel rhs r H e. cbn [classify_and_catch_special_cases new_recurrence d_status] in H.
  assert (Hi : forall s s' z, rel s s' -> unordered s -> index s' = Some z -> exists z1, index s = Some z1) by (intros s s' z; apply index_fresh).
  destruct (success_fresh G lm ms si ex co index other leftover idem Hi fuel (new_recurrence rhs) _ _ (or_introl eq_refl) H) as (A & B & _). split; [exact A|]. exact (B eq_refl).
Qed.
Print Assumptions C80_success.
(** 2 x(n+1) + 3 x(n+2) = x(n): the wrong coefficient 6 is found (C40_leading_coefficient_refuted), which leaves a null decrement; after its elimination the
    recurrence is x(n) = -2/3 x(n-1) + 1/3 x(n-2), and right. *)
Example C80_case : forall I rho, exists r s,
  classify_and_catch_special_cases Gc lmax lmax dv_simplify dv_expand (fun e => e) (first_valid_index Gc numer0 denom0 DomProps.idE (fun _ _ => []) 5) failed_other no_type 5 (new_recurrence ng_bad) = Some (r, Success) /\
  d_rhs r = dv_2 /\ d_data r = Some (s, 0%Z) /\ c_order s = 2%nat /\ d_rewritten r = true /\ (forall e, dv_simplify (dv_simplify e) = dv_simplify e) /\
  forall x n, holds_at I rho ng_bad x n <-> holds_at I rho dv_2 x (n + 2).
Proof.
  intros I rho. destruct dv_runs as (r & s & H & Er & El & Ed & Eo). exists r, s. split; [exact H|]. split; [exact Er|]. split; [exact Ed|]. split; [exact Eo|].
  destruct (C80_same_solutions I rho Gc lmax lmax dv_simplify dv_expand (fun e => e) _ _ _ (fun x => Gc_ok _) (fun x => table_ok _ _ _ (raw2_ok _)) (fun x => table_ok _ _ _ (raw1_ok _)) (fun x e rho v He => He) Gc_nb 5 ng_bad r Success H) as [W S].
  split. { apply W. rewrite El. unfold dv_log. right. left. exact Logic.I. }
  split. { apply table_idem. vm_compute. reflexivity. }
  intros x n. rewrite <- Er. apply S. rewrite El. apply dv_path.
Qed.
