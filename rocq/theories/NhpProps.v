(** C99: the closed form of the non-homogeneous part computed from the fundamental solution
    (src/finite_order.cc, src/compute_exact_solution.cc), for inhomogeneous terms
    p(n) = sum of poly_i(n) b_i^n ([exp_poly], SolverSpec.v; [solves] as in C23). *)
From Coq Require Import ZArith QArith Qcanon List Lia Permutation.
From Verif Require Import Fld FPoly SeqSpec SolverSpec LinSolve SumPolyModel SolverModel NhpModel NhpProofs2 NhpFinal.
Import ListNotations.
Local Close Scope Q_scope.
Local Close Scope Qc_scope.
Local Open Scope fld_scope.

(** Order two with distinct roots, also when some b_i is a root. *)
Theorem C99_order_two : forall (K : Fld) (a : list K) (l1 l2 : K),
  roots_of a [(l1, 1%nat); (l2, 1%nat)] -> a <> [] -> last a 0 <> 0 ->
  forall (c0 : K) (inh : list (K * list K)) (f : nat) (x : Z -> K),
  (forall e, In e inh -> fst e <> 0 /\ ~ allzero (snd e)) ->
  exists P, (forall n, (Z.of_nat f <= n)%Z -> order_2_poly [(l1, 1%nat); (l2, 1%nat)] inh f n = Some (P n)) /\
  solves a (exp_poly inh) (Z.of_nat f) x
    (fun n => compute_term_about_initial_conditions (g_order_2 l1 l2) (c0 :: a) (Z.of_nat f) x n + P n).
Proof. exact (fun K => @order_2_final K). Qed.
Print Assumptions C99_order_two.

(** The expression substituted there for 1/(lambda - alpha) has the same value, lambda being a
    root of  y^2 = c y + d  and alpha not. *)
Theorem C99_replaced_difference : forall (K : Fld) (c d lambda alpha : K),
  lambda ^ 2%nat = c * lambda + d -> alpha ^ 2%nat <> c * alpha + d ->
  (lambda + alpha - c) * / (- (alpha ^ 2%nat) + alpha * c + d) = / (lambda - alpha).
Proof. exact (fun K => @replaced_difference K). Qed.
Print Assumptions C99_replaced_difference.

(** Order three and more with distinct roots: [gd] lists the exponentials of the fundamental
    solution in any order. *)
Theorem C99_order_k : forall (K : Fld) (ls : nat -> list (list K * K) -> option (list K)), lsolve_ok ls ->
  forall (a : list K) (roots : list (K * nat)) (c0 : K), roots_of a roots -> (2 < length a)%nat -> last a 0 <> 0 ->
  Forall (fun r => snd r = 1%nat) roots ->
  exists sol, solve_system ls true (c0 :: a) roots = Some sol /\
  forall (gd : list (K * K)) (inh : list (K * list K)) (f : nat) (x : Z -> K),
  Permutation (map fst gd) (map fst roots) ->
  (forall n, find_g_n true sol roots n = fold_right (fun e acc => snd e * zpow (fst e) n + acc) 0 gd) ->
  (forall e, In e inh -> fst e <> 0) ->
  exists P, (forall n, (Z.of_nat f <= n)%Z -> order_k_poly gd roots inh (length a) f n = Some (P n)) /\
  solves a (exp_poly inh) (Z.of_nat f) x
    (fun n => compute_term_about_initial_conditions (find_g_n true sol roots) (c0 :: a) (Z.of_nat f) x n + P n).
Proof. exact (fun K => @order_k_final K). Qed.
Print Assumptions C99_order_k.

(** Multiple roots, first valid index 0. [gd] describes the fundamental solution. *)
Theorem C99_multiple_roots_partial : forall (K : Fld) (a : list K) (gd : list (K * list K)), a <> [] ->
  (forall e, In e gd -> fst e <> 0) -> exp_poly gd 0 = 1 ->
  (forall j, (- Z.of_nat (length a) < j < 0)%Z -> exp_poly gd j = 0) ->
  (forall n, (1 <= n)%Z -> exp_poly gd n = lincomb a (exp_poly gd) n) ->
  forall (c0 : K) (inh : list (K * list K)) (x : Z -> K), (forall e, In e inh -> fst e <> 0) ->
  solves a (exp_poly inh) 0 x
    (fun n => compute_term_about_initial_conditions (exp_poly gd) (c0 :: a) 0 x n
              + compute_non_homogeneous_part gd (length a) inh n).
Proof. exact (fun K => @multiple_roots_final K). Qed.
Print Assumptions C99_multiple_roots_partial.

(** With any other first valid index f it fails: the terms 0, ..., order-1 are subtracted from
    the sum instead of 0, ..., f+order-1. *)
Theorem C99_multiple_roots_refuted : ~ (forall (a : list QcF) (gd : list (QcF * list QcF)), a <> [] ->
  (forall e, In e gd -> fst e <> 0) -> exp_poly gd 0 = 1 ->
  (forall j, (- Z.of_nat (length a) < j < 0)%Z -> exp_poly gd j = 0) ->
  (forall n, (1 <= n)%Z -> exp_poly gd n = lincomb a (exp_poly gd) n) ->
  forall (c0 : QcF) (inh : list (QcF * list QcF)) (f : nat) (x : Z -> QcF), (forall e, In e inh -> fst e <> 0) ->
  solves a (exp_poly inh) (Z.of_nat f) x
    (fun n => compute_term_about_initial_conditions (exp_poly gd) (c0 :: a) (Z.of_nat f) x n
              + compute_non_homogeneous_part gd (length a) inh n)).
Proof. exact shifted_refuted. Qed.
Print Assumptions C99_multiple_roots_refuted.

(** x(n) = 5 x(n-1) - 6 x(n-2) + n + 2^n from index 1: p(3) = 11 and 5 p(3) + p(4) = 75. *)
Example C99_case_two :
  map (fun n => option_map this (order_2_poly (K:=QcF) [(two, 1%nat); (Q2Qc 3, 1%nat)] [(1, [0; 1]); (two, [1])] 1 n)) [1; 2; 3; 4]%Z
  = map (fun v => Some v) [0; 0; 11; 75]%Q.
Proof. vm_compute. reflexivity. Qed.
(** Roots 1, 2, 3; p(n) = (1+n) 2^n: p(3) = 32 and 6 p(3) + p(4) = 272. The fundamental solution
    is (1 - 8 2^n + 9 3^n)/2. *)
Example C99_case_k :
  map (fun n => option_map this (order_k_poly (K:=QcF) [(Q2Qc 3, Q2Qc (9#2)); (1, Q2Qc (1#2)); (two, Q2Qc (-4))] roots3 [(two, [1; 1])] 3 0 n))
    [0; 1; 2; 3; 4]%Z
  = map (fun v => Some v) [0; 0; 0; 32; 272]%Q /\
  option_map (map this) (solve_system (K:=QcF) gauss true (0 :: a3) roots3) = Some [1#2; -4; 9#2]%Q.
Proof. split; vm_compute; reflexivity. Qed.
Example C99_roots : roots_of a3 roots3 /\ roots_of [Q2Qc 5 : QcF; Q2Qc (-6)] [(two, 1%nat); (Q2Qc 3, 1%nat)].
Proof. exact roots3_ok. Qed.
(** x(n) = 4 x(n-1) - 4 x(n-2) + n: fundamental solution (1+n) 2^n. *)
Example C99_case_multiple :
  exp_poly gd2 0 = 1 /\ (forall j, (- 2 < j < 0)%Z -> exp_poly gd2 j = 0) /\
  (forall n, exp_poly gd2 n = lincomb a2 (exp_poly gd2) n) /\
  map (fun n => this (compute_non_homogeneous_part gd2 2 [(1 : QcF, [0; 1])] n)) [0; 1; 2; 3; 4]%Z = [0; 0; 2; 11; 40]%Q.
Proof.
  destruct gd2_fundamental as (H1 & H2 & H3).
  split; [exact H1|]. split; [exact H2|]. split; [exact H3|]. vm_compute. reflexivity.
Qed.
(** A vector shorter than the vector of the roots is read past its end. *)
Example C99_missing_base : order_k_poly (K:=QcF) [(two, 1 : QcF)] roots3 [(two, [1; 1])] 3 0 3 = None.
Proof. vm_compute. reflexivity. Qed.
