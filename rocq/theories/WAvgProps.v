(** C25, C33: weighted-average recurrences. *)
From Coq Require Import ZArith Bool List.
From Verif Require Import Fld SeqSpec WAvgModel WAvgSpec WAvgProofs.
Local Open Scope fld_scope.

(** x(n) = f(n) sum(k,l,n-1,x(k)) + g(n) for n > l is equivalent to the value at l+1 together
    with the associated first-order recurrence for x(n+l+1). *)
Theorem C25_equivalence : forall (K : Fld) (f g : Z -> K) l x, (0 <= l)%Z -> (forall n, (l < n)%Z -> f n <> 0) ->
  let r := rewrite_wavg false false f g l in
  averages f g l x <->
  x (l + 1)%Z = f (l + 1)%Z * x l + g (l + 1)%Z /\
  first_order (coeff_first_order r) (inhomog_first_order r) (fun n => x (n + l + 1)%Z).
Proof. exact (fun K => wavg_equiv (K := K)). Qed.
Print Assumptions C25_equivalence.

(** The same when the sum runs up to n. *)
Theorem C25_equivalence_upper_n : forall (K : Fld) (f g : Z -> K) l x, (0 <= l)%Z -> (forall n, (l < n)%Z -> f n <> 0 /\ f n <> 1) ->
  let r := rewrite_wavg true false f g l in
  averages_incl f g l x <->
  x (l + 1)%Z = original_weight r (l + 1)%Z * x l + original_inhomogeneous r (l + 1)%Z /\
  first_order (coeff_first_order r) (inhomog_first_order r) (fun n => x (n + l + 1)%Z).
Proof. exact (fun K => wavg_incl_equiv (K := K)). Qed.
Print Assumptions C25_equivalence_upper_n.

(** The sequence x0(l), followed by the solution reported, satisfies the recurrence. *)
Theorem C25_solution : forall (K : Fld) solve (f g : Z -> K) l x0, solver_ok solve -> (0 <= l)%Z -> (forall n, (l < n)%Z -> f n <> 0) ->
  averages f g l (spliced l x0 (solve_wavg solve false (rewrite_wavg false false f g l) x0)).
Proof. exact (fun K => wavg_solution (K := K)). Qed.
Print Assumptions C25_solution.

Theorem C25_solution_upper_n : forall (K : Fld) solve (f g : Z -> K) l x0, solver_ok solve -> (0 <= l)%Z -> (forall n, (l < n)%Z -> f n <> 0 /\ f n <> 1) ->
  averages_incl f g l (spliced l x0 (solve_wavg solve false (rewrite_wavg true false f g l) x0)).
Proof. exact (fun K => wavg_incl_solution (K := K)). Qed.
Print Assumptions C25_solution_upper_n.

(** The special case f = -1: right exactly when x(0) = g(0). *)
Theorem C25_weight_minus_one_partial : forall (K : Fld) solve (g x0 : Z -> K),
  let y := spliced 0 x0 (solve_wavg solve true (rewrite_wavg false false (fun _ => - (1)) g 0) x0) in
  averages (fun _ => - (1)) g 0 y <-> x0 0%Z = g 0%Z.
Proof. exact (fun K => wavg_m1 (K := K)). Qed.
Print Assumptions C25_weight_minus_one_partial.

Theorem C25_weight_minus_one_refuted : ~ (forall (K : Fld) solve (g x0 : Z -> K), solver_ok solve ->
  averages (fun _ => - (1)) g 0 (spliced 0 x0 (solve_wavg solve true (rewrite_wavg false false (fun _ => - (1)) g 0) x0))).
Proof. exact m1_refuted. Qed.
Print Assumptions C25_weight_minus_one_refuted.

(** f = 1, upper limit n: the rewritten equation is equivalent, from n = l on, if its sum starts
    at l. *)
Theorem C25_weight_one_normal_form : forall (K : Fld) (g : Z -> K) l x,
  let r := rewrite_wavg true true (fun _ => 1) g l in
  averages_incl (fun _ => 1) g l x <->
  forall n, (l <= n)%Z -> x n = original_weight r n * zsum l (n - 1) x + original_inhomogeneous r n.
Proof. exact (fun K => w1_normal_form (K := K)). Qed.
Print Assumptions C25_weight_one_normal_form.

(** x(n) = sum(k,0,n,x(k)) + g(n): the lower limit is moved by mistake, the answer is wrong even
    if the initial value is the one of a true solution. *)
Theorem C25_weight_one_refuted : ~ (forall (K : Fld) solve (g x : Z -> K), solver_ok solve -> averages_incl (fun _ => 1) g 0 x ->
  averages_incl (fun _ => 1) g 0 (spliced 0 x (solve_wavg solve true (rewrite_wavg true true (fun _ => 1) g 0) x))).
Proof. exact w1_refuted. Qed.
Print Assumptions C25_weight_one_refuted.

Example C25_case : solver_ok (K := QcF) iter_solve /\ (forall n, (0 < n)%Z -> (/ ofz n) <> (0 : QcF)) /\
  (forall n, (0 < n)%Z -> (/ ofz (n + 1)) <> (0 : QcF) /\ (/ ofz (n + 1)) <> (1 : QcF)).
Proof. exact (conj (iter_solve_ok (K := QcF)) (conj wavg_case wavg_incl_case)). Qed.

(** C33. [m] is the lower limit, or the index of the last initial condition if that is larger:
    then it is the recurrence with the sum starting at [m] that is satisfied. *)
Theorem C33_sound : forall (K : Fld) (f g : Z -> K) l largest ic sol eq0, (0 <= l)%Z ->
  let m := match largest with Some k => Z.max l k | None => l end in
  (forall d, eq0 d = true -> forall n, (m < n)%Z -> d n = 0) ->
  verify_weighted_average false (rewrite_wavg false false f g l) largest ic sol eq0 = PROVABLY_CORRECT ->
  averages f g m (spliced m ic sol).
Proof. exact verify_sound_n1. Qed.
Print Assumptions C33_sound.

Theorem C33_sound_upper_n : forall (K : Fld) (f g : Z -> K) l largest ic sol eq0, (0 <= l)%Z ->
  let m := match largest with Some k => Z.max l k | None => l end in
  (forall n, (m < n)%Z -> f n <> 1) ->
  (forall d, eq0 d = true -> forall n, (m < n)%Z -> d n = 0) ->
  verify_weighted_average false (rewrite_wavg true false f g l) largest ic sol eq0 = PROVABLY_CORRECT ->
  averages_incl f g m (spliced m ic sol).
Proof. exact verify_sound_n. Qed.
Print Assumptions C33_sound_upper_n.

Example C33_case : (forall d : Z -> QcF, zero_test 0 d = true -> forall n, (0 < n)%Z -> d n = 0) /\
  verify_weighted_average false (rewrite_wavg (K := QcF) false false (fun _ => 1) (fun _ => 0) 0) None (fun _ => ofz 3) vw_sol (zero_test 0) = PROVABLY_CORRECT.
Proof. exact (conj (fun d => proj1 (zero_test_ok QcF 0 d)) vw_case). Qed.

Theorem C33_weight_minus_one_refuted : ~ (forall (K : Fld) (g ic sol : Z -> K) eq0, (forall d, eq0 d = true -> forall n, (0 < n)%Z -> d n = 0) ->
  verify_weighted_average true (rewrite_wavg false false (fun _ => - (1)) g 0) None ic sol eq0 = PROVABLY_CORRECT ->
  averages (fun _ => - (1)) g 0 (spliced 0 ic sol)).
Proof. exact verify_m1_refuted. Qed.
Print Assumptions C33_weight_minus_one_refuted.
