(** C40, C41: elimination of negative and null decrements. *)
From Coq Require Import ZArith QArith Qcanon Reals List String Bool.
From Verif Require Import Ast ExprModel ExprSpec ExprProofs3 SeqInterp ElimModel ElimSpec ElimProofs ElimProofs2 ElimCases.
Import ListNotations.
Local Open Scope list_scope.
Local Open Scope R_scope.

(** The equation at n and the rewritten one at n + m are equivalent, m and c being the shift and
    the coefficient found, whenever c(n) <> 0. *)
Theorem C40_same_solutions : forall I G, (forall x, ginac_ok (with_x I x) G) ->
  forall expand collect, (forall x e, refines (with_x I x) e (expand e)) -> (forall x e, refines (with_x I x) e (collect e)) ->
  forall rho rhs m c x n k v w, find_max G rhs = (m, c) -> no_binders rhs -> no_binders c ->
  (Z.of_nat n + m)%Z = Z.of_nat k ->
  at_n I rho x n rhs = Some v -> at_n I rho x n c = Some w -> w <> 0 ->
  (holds_at I rho rhs x n <-> holds_at I rho (eliminate_negative G expand collect rhs) x k).
Proof. exact negative_equiv. Qed.
Print Assumptions C40_same_solutions.

(** If rhs(n) = w x(n+m) + r then the value of the new right-hand side at n + m is (x(n) - r) / w:
    x(n+m) itself has gone. *)
Theorem C40_standard_form : forall I G, (forall x, ginac_ok (with_x I x) G) ->
  forall expand collect, (forall x e, refines (with_x I x) e (expand e)) -> (forall x e, refines (with_x I x) e (collect e)) ->
  forall rho rhs m c x n k w r, find_max G rhs = (m, c) -> no_binders rhs -> no_binders c ->
  (Z.of_nat n + m)%Z = Z.of_nat k ->
  at_n I rho x n rhs = Some (w * x k + r) -> at_n I rho x n c = Some w -> w <> 0 ->
  at_n I rho x k (eliminate_negative G expand collect rhs) = Some ((x n - r) / w).
Proof.
  intros I G HG ex co He Hc rho rhs m c x n k w r F N1 N2 E Hv Hw W.
  rewrite (negative_value I G HG ex co He Hc rho rhs m c x n k _ w F N1 N2 E Hv Hw W). f_equal. field. exact W.
Qed.
Print Assumptions C40_standard_form.

(** m is the largest shift occurring in a sum of multiples of x(n+j) and x-free terms. *)
Theorem C40_largest_shift : forall G l m c, find_max G (Add l) = (m, c) ->
  Forall (fun t => plain_term t \/ exists j cs, x_term t j cs /\ (int_min <= j)%Z) l ->
  (exists t j cs, In t l /\ x_term t j cs) ->
  (exists t cs, In t l /\ x_term t m cs) /\ (forall t j cs, In t l -> x_term t j cs -> (j <= m)%Z).
Proof. exact find_max_shift. Qed.
Print Assumptions C40_largest_shift.

(** c is its coefficient if no product comes before that term among the operands ... *)
Theorem C40_leading_coefficient_partial : forall I G, (forall x, ginac_ok (with_x I x) G) ->
  forall rho x n l1 t l2 m cs w c, find_max G (Add (l1 ++ t :: l2)) = (m, c) -> x_term t m cs ->
  Forall (fun t' => (plain_term t' /\ not_mul t') \/ exists j, t' = Fun FX [n_plus j] /\ (j < m)%Z) l1 ->
  Forall (fun t' => plain_term t' \/ exists j cs, x_term t' j cs /\ (j < m)%Z) l2 -> (int_min < m)%Z ->
  eprod (with_x I x) (upd rho "n" (INR n)) cs = Some w -> at_n I rho x n c = Some w.
Proof. exact find_max_coeff. Qed.
Print Assumptions C40_leading_coefficient_partial.

(** ... but not in general: 2 x(n+1) + 3 x(n+2) yields 6. *)
Theorem C40_leading_coefficient_refuted : ~ (forall I G, (forall x, ginac_ok (with_x I x) G) -> forall rho x n l m c t cs w,
  find_max G (Add l) = (m, c) -> In t l -> x_term t m cs ->
  (forall t', In t' l -> t' <> t -> plain_term t' \/ exists j cs', x_term t' j cs' /\ (j < m)%Z) ->
  eprod (with_x I x) (upd rho "n" (INR n)) cs = Some w -> at_n I rho x n c = Some w).
Proof. exact coeff_refuted. Qed.
Print Assumptions C40_leading_coefficient_refuted.

Example C40_case : (forall x, ginac_ok (with_x I0 x) G0) /\ find_max G0 ng_rhs = (2%Z, Num (zq 3)) /\ no_binders ng_rhs /\ rv (zq 3) <> 0 /\
  (forall rho x n, at_n I0 rho x n ng_rhs = Some (3 * x (n + 2)%nat + 2 * x (n + 1)%nat)).
Proof.
  refine (conj (fun x => G0_ok _) (conj ng_find (conj _ (conj _ (fun rho x n => ng_values I0 rho x n))))).
  - cbn. repeat (split; [exact Logic.I|]); tauto.
  - rewrite rv_zq. apply IZR_neq. discriminate.
Qed.

(** rhs = a x(n) + b with a(n) <> 1. *)
Theorem C41_solved_for_xn : forall I G, (forall x, ginac_ok (with_x I x) G) -> forall collect, (forall x e, refines (with_x I x) e (collect e)) ->
  forall rho rhs l cs rest new x n v A, collect rhs = Add l -> one_x_n l cs rest -> eliminate_null G collect rhs = Rewritten new ->
  at_n I rho x n rhs = Some v -> eprod (with_x I x) (upd rho "n" (INR n)) cs = Some A -> A <> 1 ->
  (holds_at I rho rhs x n <-> holds_at I rho new x n).
Proof. exact null_solved. Qed.
Print Assumptions C41_solved_for_xn.

(** rhs = a x(n) with a(n) <> 1 ... *)
Theorem C41_multiple : forall I G collect, (forall x e, refines (with_x I x) e (collect e)) ->
  forall rho rhs cs f1 f2 new x n v A, collect rhs = Mul (f1 ++ Fun FX [Sym "n"] :: f2) -> cs = f1 ++ f2 ->
  eliminate_null G collect rhs = Rewritten new ->
  at_n I rho x n rhs = Some v -> eprod (with_x I x) (upd rho "n" (INR n)) cs = Some A -> A <> 1 ->
  (holds_at I rho rhs x n <-> holds_at I rho new x n).
Proof. exact null_multiple. Qed.
Print Assumptions C41_multiple.

(** ... but x(n) = n x(n) is turned into x(n) = 0 at n = 1 too. *)
Theorem C41_multiple_refuted : ~ (forall I G collect, (forall x, ginac_ok (with_x I x) G) -> (forall x e, refines (with_x I x) e (collect e)) ->
  forall rho rhs new x, eliminate_null G collect rhs = Rewritten new -> solves_from I rho 0 rhs x -> solves_from I rho 0 new x).
Proof. exact multiple_refuted. Qed.
Print Assumptions C41_multiple_refuted.

(** rhs = x(n) + b: the equation b = 0 is solved for its leading x(n+m) if the coefficient c has the
    same nonzero value at n and n + m ... *)
Theorem C41_shifted : forall I G, (forall x, ginac_ok (with_x I x) G) -> forall collect, (forall x e, refines (with_x I x) e (collect e)) -> no_new_binders G ->
  forall rho rhs l cs rest a b m c new x n k v w, collect rhs = Add l -> one_x_n l cs rest -> no_binders (Add l) ->
  coeff_x_n G (Add l) = (a, b) -> a = Num 1%Qc -> find_max G b = (m, c) ->
  eliminate_null G collect rhs = Rewritten new -> (Z.of_nat n + m)%Z = Z.of_nat k ->
  at_n I rho x n rhs = Some v -> at_n I rho x n c = Some w -> at_n I rho x k c = Some w -> w <> 0 ->
  (holds_at I rho rhs x n <-> holds_at I rho new x k).
Proof. exact null_shifted. Qed.
Print Assumptions C41_shifted.

(** ... but the coefficient is not shifted: x(n) = x(n) + n x(n-1) + 1 becomes x(n) = -1/n. *)
Theorem C41_shifted_refuted : ~ (forall I G collect, (forall x, ginac_ok (with_x I x) G) -> no_new_binders G -> (forall x e, refines (with_x I x) e (collect e)) ->
  forall rho rhs new x k, eliminate_null G collect rhs = Rewritten new -> solves_from I rho k rhs x -> exists N, solves_from I rho N new x).
Proof. exact shifted_refuted. Qed.
Print Assumptions C41_shifted_refuted.

(** "Unsolvable" is right if the rest has a nonzero value, whatever x, at some n ... *)
Theorem C41_unsolvable : forall I G, (forall x, ginac_ok (with_x I x) G) -> forall collect, (forall x e, refines (with_x I x) e (collect e)) ->
  forall rho rhs l cs rest n B, collect rhs = Add l -> one_x_n l cs rest -> eliminate_null G collect rhs = Unsolvable ->
  (forall x, esum (with_x I x) (upd rho "n" (INR n)) rest = Some B) -> B <> 0 -> forall x, ~ holds_at I rho rhs x n.
Proof. exact null_unsolvable. Qed.
Print Assumptions C41_unsolvable.

(** ... but it is also reported for x(n) = x(n) + x(n-1)^2. *)
Theorem C41_unsolvable_refuted : ~ (forall I G collect, (forall x, ginac_ok (with_x I x) G) -> (forall x e, refines (with_x I x) e (collect e)) ->
  forall rho rhs k, eliminate_null G collect rhs = Unsolvable -> forall x, ~ solves_from I rho k rhs x).
Proof. exact unsolvable_refuted. Qed.
Print Assumptions C41_unsolvable_refuted.

(** "Indeterminate": every sequence is a solution. *)
Theorem C41_indeterminate : forall I G collect, (forall x e, refines (with_x I x) e (collect e)) ->
  forall rho rhs x n v, eliminate_null G collect rhs = Indeterminate -> at_n I rho x n rhs = Some v -> holds_at I rho rhs x n.
Proof. exact null_indeterminate. Qed.
Print Assumptions C41_indeterminate.

(** 3 x(n) + x(n-1); x(n) + 1; x(n) + 2 x(n-1) + 1; x(n). *)
Example C41_case : (forall x, ginac_ok (with_x I0 x) Gc) /\ no_new_binders Gc /\
  (one_x_n (ops nd_rhs) [Num (zq 3)] [Fun FX [n_plus (-1)]] /\ exists new, eliminate_null Gc keep nd_rhs = Rewritten new) /\
  (one_x_n (ops un_rhs) [] [Num 1%Qc] /\ eliminate_null Gc keep un_rhs = Unsolvable) /\
  (one_x_n (ops sh_rhs) [] (ops sh_b) /\ coeff_x_n Gc sh_rhs = (Num 1%Qc, sh_b) /\ find_max Gc sh_b = ((-1)%Z, Num (zq 2)) /\ exists new, eliminate_null Gc keep sh_rhs = Rewritten new) /\
  eliminate_null Gc keep x_n = Indeterminate.
Proof. exact (conj (fun x => Gc_ok _) (conj Gc_nb (conj (conj nd_shape nd_runs) (conj (conj un_shape un_runs) (conj (conj sh_shape (conj sh_coeff (conj sh_find sh_runs))) eq_refl))))). Qed.
