(** Model of the treatment of weighted-average recurrences
    x(n) = f(n) sum(k, lower, n or n-1, x(k)) + g(n):
    rewriting (src/rr_classifier.cc), solution (src/Recurrence.cc), verification (src/verify.cc).
    Expressions in n are functions from Z to a field: substitute(n, n+d) is a shift of the
    argument; simplify_all and expand are the identity on them. *)
From Coq Require Import ZArith Bool List.
From Verif Require Import Fld SeqSpec.
Import ListNotations.

Section Model.
Context {K : Fld}.
Local Open Scope fld_scope.

(** Weighted_Average_Info plus inhomogeneous_term and recurrence_rewritten. *)
Record wavg := MkWavg {
  weight : Z -> K; inhomogeneous : Z -> K;
  original_weight : Z -> K; original_inhomogeneous : Z -> K;
  lower_limit : Z;
  coeff_first_order : Z -> K; inhomog_first_order : Z -> K;
  rewritten : bool }.

(** rr_classifier.cc:947-962: the upper limit becomes n-1.  [w_is_one] is the result of the
    comparison weight == 1. *)
Definition normalize (upper_is_n w_is_one : bool) (f g : Z -> K) (lower : Z) : (Z -> K) * (Z -> K) * Z :=
  if upper_is_n then
    if negb w_is_one then ((fun n => f n / (1 - f n)), (fun n => g n / (1 - f n)), lower)
    else ((fun n => f n * - (1)), (fun n => - g (n + 1)%Z), (lower + 1)%Z)
  else (f, g, lower).

(** rr_classifier.cc:917-1012 rewrite_weighted_average_recurrence.  Left out: the tests that
    refuse a recurrence, first_valid_index and domain_problem.  The lower limit stored in
    Weighted_Average_Info is the one of the original sum (rr_classifier.cc:1318-1319, 1198-1199), given
    here as [lower]. *)
Definition rewrite_wavg (upper_is_n w_is_one : bool) (f g : Z -> K) (lower : Z) : wavg :=
  let '(w, h, l) := normalize upper_is_n w_is_one f g lower in
  let w' := if (0 <? l)%Z then (fun n => w (n + l)%Z) else w in
  let h' := if (0 <? l)%Z then (fun n => h (n + l)%Z) else h in
  let ws n := w' (n - 1)%Z in
  let hs n := h' (n - 1)%Z in
  let c n := w' n / ws n * (1 + ws n) in
  let i n := w' n * (h' n / w' n - hs n / ws n) in
  MkWavg w' h' w h lower (fun n => c (n + 1)%Z) (fun n => i (n + 1)%Z) (upper_is_n || (0 <? l)%Z).

(** Recurrence.cc:698-743 compute_weighted_average_recurrence.  [w_is_m1] is the result of
    weight() == -1; [solve c i y0] is the solution of the first order recurrence
    y(n) = c(n) y(n-1) + i(n) with y(0) replaced by [y0] (the subject of C22); [x] gives the
    initial condition x(lower). *)
Definition solve_wavg (solve : (Z -> K) -> (Z -> K) -> K -> Z -> K) (w_is_m1 : bool) (r : wavg) (x : Z -> K) : Z -> K :=
  if w_is_m1 then fun n => inhomogeneous r n - inhomogeneous r (n - 1)%Z
  else
    let '(wr, ir, lower) :=
      if rewritten r then (original_weight r, original_inhomogeneous r, lower_limit r)
      else (weight r, inhomogeneous r, 0%Z) in
    fun n => solve (coeff_first_order r) (inhomog_first_order r)
                   (wr (lower + 1)%Z * x lower + ir (lower + 1)%Z) (n - 1 - lower)%Z.

Inductive verify_status := PROVABLY_CORRECT | PARTIAL_PROVABLY_CORRECT | INCONCLUSIVE_VERIFICATION | PROVABLY_INCORRECT.

(** verify.cc:1057-1119 verify_weighted_average.  [largest] is the index of the last initial
    condition, if there is one; [ic] gives get_initial_condition; [sol] the (evaluated) exact
    solution; [eq0] is the answer of simplify_all(diff) == 0. *)
Definition verify_weighted_average (w_is_m1 : bool) (r : wavg) (largest : option Z) (ic sol : Z -> K) (eq0 : (Z -> K) -> bool) : verify_status :=
  let '(wr, ir, lower) :=
    if rewritten r then (original_weight r, original_inhomogeneous r, lower_limit r)
    else (weight r, inhomogeneous r, 0%Z) in
  let lower := match largest with Some m => if (lower <? m)%Z then m else lower | None => lower end in
  if w_is_m1 then PROVABLY_CORRECT
  else if negb (sol (lower + 1)%Z =? wr (lower + 1)%Z * ic lower + ir (lower + 1)%Z) then INCONCLUSIVE_VERIFICATION
  else if eq0 (fun n => sol n - wr n * ic lower - wr n * zsum (lower + 1) (n - 1) sol - ir n) then PROVABLY_CORRECT
  else INCONCLUSIVE_VERIFICATION.
End Model.
