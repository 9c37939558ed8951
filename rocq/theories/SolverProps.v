(** C21, C22, C23: closed forms of linear finite-order recurrences
    (src/compute_exact_solution.cc, src/finite_order.cc).
    [solves a p f ic X]: X has the values ic at f, ..., f+k-1 and satisfies
    X(n) = a_1 X(n-1) + ... + a_k X(n-k) + p(n) for every n >= f+k (SeqSpec.v). *)
From Coq Require Import ZArith QArith Qcanon List Lia.
From Verif Require Import Fld FPoly SeqSpec SolverSpec LinSolve SumPolyModel SolverModel SolverProofs1 SolverProofs2 SolverProofs3 SolverProofs4.
Import ListNotations.
Local Open Scope fld_scope.

(** * C21: x(n) = lambda x(n-1) + p(n) *)

(** The method of sums.  [gos] is the summation routine used for the non-polynomial parts:
    whatever it returns must be the sum it was asked for. *)
Theorem C21_order_1_by_sums :
  forall (K : Fld) (gos : comp -> option (Z -> K)) (lambda : K) (inh : list comp) (f : nat) (x : Z -> K),
  lambda <> 0 -> (forall e, In e inh -> cbase e <> 0) ->
  (forall e z, gos e = Some z -> forall n, (Z.of_nat f <= n)%Z ->
     z n = zsum (Z.of_nat f + 1) n (fun h => zpow lambda (- h) * cnopoly e h * zpow (cbase e) h)) ->
  solves [lambda]
    (fun n => fold_right (fun e acc => (peval (cpoly e) (ofz n) + cnopoly e n) * zpow (cbase e) n + acc) 0 inh)
    (Z.of_nat f) x (order_1_old gos lambda inh f x).
Proof.
  exact (fun K gos lambda inh f x Hl Hb Hg => order_1_old_correct gos lambda inh f x Hl Hb
    (fun e z E n Hn => Hg e z E n (eq_ind _ (fun t => (t <= n)%Z) Hn _ (Z.add_simpl_r _ 1)))).
Qed.
Print Assumptions C21_order_1_by_sums.

(** The formula that turns any special solution into the one with the right initial value. *)
Theorem C21_order_1_from_special_solution :
  forall (K : Fld) (a : K) (p s x : Z -> K) (f : Z), a <> 0 ->
  (forall n, (f < n)%Z -> s n = a * s (n - 1)%Z + p n) ->
  solves [a] p f x (order_1_new a s x f).
Proof. exact (fun K => @order_1_new_correct K). Qed.
Print Assumptions C21_order_1_from_special_solution.

(** The whole method of undetermined coefficients at order one, solving linear systems by
    Gaussian elimination. *)
Theorem C21_order_1_undetermined_coefficients :
  forall (K : Fld) (a : K) (inh : list (K * list K)) (f : Z) (x : Z -> K),
  a <> 0 -> (forall e, In e inh -> fst e <> 0) -> (0 <= f)%Z ->
  exists X, solve_new gauss [a] [(a, 1%nat)] inh f x = Some X /\ solves [a] (exp_poly inh) f x X.
Proof. exact (fun K => @order_1_complete K). Qed.
Print Assumptions C21_order_1_undetermined_coefficients.

(** x(n) = 3 x(n-1) + (1+2n) 3^n + n, x(1) = 5: resonance of the base with the root. *)
Example C21_case :
  let inh := [MkComp (K:=QcF) (Q2Qc 3) [Q2Qc 1; Q2Qc 2] (fun _ => 0); MkComp (K:=QcF) (Q2Qc 1) [0; 1] (fun _ => 0)] in
  let X := order_1_old (fun _ => None) (Q2Qc 3 : QcF) inh 1 (fun _ => Q2Qc 5) in
  (Q2Qc 3 : QcF) <> 0 /\ (forall e, In e inh -> cbase e <> 0) /\
  X 1%Z = Q2Qc 5 /\ X 2%Z = Q2Qc 62 /\ X 3%Z = Q2Qc 378.
Proof.
  cbv zeta. split; [discriminate|]. split; [intros e [<-|[<-|[]]]; discriminate|].
  repeat split; apply Qc_is_canon; vm_compute; reflexivity.
Qed.
Example C21_case_new :
  let X := solve_new (K:=QcF) gauss [Q2Qc 3] [(Q2Qc 3, 1%nat)] [(Q2Qc 3, [Q2Qc 1; Q2Qc 2]); (Q2Qc 1, [Q2Qc 0; Q2Qc 1])] 1 (fun _ => Q2Qc 5) in
  option_map (fun X => map (fun n => this (X n)) [1; 2; 3]%Z) X = Some [5; 62; 378]%Q.
Proof. vm_compute. reflexivity. Qed.

(** * C22: x(n) = alpha(n) x(n-1) + p(n) *)

(** [pf] is the value of the product, [inh] the decomposition of p/pf; see C45, C48. *)
Theorem C22_variable_coefficient :
  forall (K : Fld) (gos : comp -> option (Z -> K)) (alpha p pf : Z -> K) (inh : list comp) (f : nat) (x : Z -> K),
  (forall n, (Z.of_nat f < n)%Z -> alpha n <> 0) ->
  (forall n, (Z.of_nat f <= n)%Z -> pf n = zprod (Z.of_nat f + 1) n alpha) ->
  (forall n, (Z.of_nat f < n)%Z -> inh_value inh n = p n / pf n) ->
  (forall e, In e inh -> cbase e <> 0) ->
  (forall e z, gos e = Some z -> forall n, (Z.of_nat f <= n)%Z ->
     z n = zsum (Z.of_nat f + 1) n (fun h => zpow 1 (- h) * cnopoly e h * zpow (cbase e) h)) ->
  let X := solve_variable_coeff_order_1 gos pf inh f x in
  X (Z.of_nat f) = x (Z.of_nat f) /\
  forall n, (Z.of_nat f < n)%Z -> X n = alpha n * X (n - 1)%Z + p n.
Proof.
  exact (fun K gos alpha p pf inh f x H1 H2 H3 H4 Hg => variable_order_1_correct gos alpha p pf inh f x H1 H2 H3 H4
    (fun e z E n Hn => Hg e z E n (eq_ind _ (fun t => (t <= n)%Z) Hn _ (Z.add_simpl_r _ 1)))).
Qed.
Print Assumptions C22_variable_coefficient.

(** x(n) = n x(n-1) + 1 (n > 0), x(0) = 7: x(1) = 8, x(2) = 17, x(3) = 52. *)
Example C22_case :
  let pf := fun n => zprod (K:=QcF) 1 n (fun k => ofz k) in
  let inh := [MkComp (K:=QcF) 1 [] (fun n => 1 / pf n)] in
  let X := solve_variable_coeff_order_1 (K:=QcF) (fun _ => None) pf inh 0 (fun _ => Q2Qc 7) in
  X 0%Z = Q2Qc 7 /\ X 1%Z = Q2Qc 8 /\ X 2%Z = Q2Qc 17 /\ X 3%Z = Q2Qc 52.
Proof. cbv zeta. repeat split; apply Qc_is_canon; vm_compute; reflexivity. Qed.
Example C22_hypotheses :
  let pf := fun n => zprod (K:=QcF) 1 n (fun k => ofz k) in
  (forall n, (0 < n)%Z -> (ofz n : QcF) <> 0) /\
  forall n, (0 < n)%Z -> inh_value [MkComp (K:=QcF) 1 [] (fun n => 1 / pf n)] n = 1 / pf n.
Proof. exact c22_hypotheses. Qed.

(** * C23: constant coefficients, any order *)

(** Any g with g(0) = 1, g(-1) = ... = g(1-k) = 0 that satisfies the homogeneous recurrence
    gives the solution with the given initial values. *)
Theorem C23_fundamental_solution :
  forall (K : Fld) (a : list K) (g : Z -> K), g 0%Z = 1 ->
  (forall j, (- Z.of_nat (length a) < j < 0)%Z -> g j = 0) ->
  (forall n, (1 <= n)%Z -> g n = lincomb a g n) ->
  forall (c0 : K) (p : Z -> K) (f : Z) (x : Z -> K),
  solves a p f x (fun n => compute_term_about_initial_conditions g (c0 :: a) f x n
                           + non_homogeneous_sum g (length a) p f n).
Proof. exact (fun K => @fundamental_solution K). Qed.
Print Assumptions C23_fundamental_solution.

(** The method of the fundamental solution: [ls] is the linear solver. *)
Theorem C23_solve_old : forall (K : Fld) (ls : nat -> list (list K * K) -> option (list K)), lsolve_ok ls ->
  forall (all_distinct : bool) (a : list K) (roots : list (K * nat)) (c0 : K) (p : Z -> K) (f : Z) (x : Z -> K),
  roots_of a roots -> (2 <= length a)%nat -> last a 0 <> 0 ->
  (all_distinct = true -> Forall (fun r => snd r = 1%nat) roots) ->
  exists X, solve_old ls all_distinct (c0 :: a) roots p f x = Some X /\ solves a p f x X.
Proof. exact (fun K => @solve_old_correct K). Qed.
Print Assumptions C23_solve_old.

(** The method of undetermined coefficients. *)
Theorem C23_solve_new : forall (K : Fld) (ls : nat -> list (list K * K) -> option (list K)), lsolve_ok ls ->
  forall (a : list K) (roots : list (K * nat)) (inh : list (K * list K)) (f : Z) (x : Z -> K),
  roots_of a roots -> a <> [] -> last a 0 <> 0 -> (forall e, In e inh -> fst e <> 0) -> (0 <= f)%Z ->
  exists X, solve_new ls a roots inh f x = Some X /\ solves a (exp_poly inh) f x X.
Proof. exact (fun K => @solve_new_correct K). Qed.
Print Assumptions C23_solve_new.

(** The contract assumed of the linear solver is met by Gaussian elimination. *)
Theorem C23_lsolve_contract : forall K : Fld, lsolve_ok (K:=K) gauss.
Proof. exact (fun K => @gauss_ok K). Qed.
Print Assumptions C23_lsolve_contract.

(** The polynomial whose roots are used is (a multiple of) the characteristic polynomial. *)
Theorem C23_characteristic_equation : forall (K : Fld) (m c0 : K) (a : list K) (y : K),
  peval (build_characteristic_equation m (c0 :: a)) y = m * char_value a y.
Proof. exact (fun K => @build_characteristic_equation_value K). Qed.
Print Assumptions C23_characteristic_equation.

(** x(n) = 4 x(n-1) - 4 x(n-2) + n 2^n (double root 2, resonance), x(0) = 1, x(1) = 0. *)
Example C23_roots : roots_of (K:=QcF) [Q2Qc 4; Q2Qc (-4)] [(Q2Qc 2, 2%nat)] /\
  roots_of (K:=QcF) [Q2Qc 5; Q2Qc (-6)] [(Q2Qc 2, 1%nat); (Q2Qc 3, 1%nat)].
Proof. exact c23_roots. Qed.
Example C23_case_new :
  let ic := fun n : Z => if (n =? 0)%Z then 1 else 0 : QcF in
  option_map (fun X => map (fun n => this (X n)) [0; 1; 2; 3]%Z)
    (solve_new (K:=QcF) gauss [Q2Qc 4; Q2Qc (-4)] [(Q2Qc 2, 2%nat)] [(Q2Qc 2, [Q2Qc 0; Q2Qc 1])] 0 ic)
  = Some [1; 0; 4; 40]%Q.
Proof. vm_compute. reflexivity. Qed.
Example C23_case_old :
  let ic := fun n : Z => if (n =? 0)%Z then 1 else 0 : QcF in
  let p := fun n : Z => ofz n * zpow (K:=QcF) (Q2Qc 2) n in
  option_map (fun X => map (fun n => this (X n)) [0; 1; 2; 3]%Z)
    (solve_old (K:=QcF) gauss false [Q2Qc 0; Q2Qc 4; Q2Qc (-4)] [(Q2Qc 2, 2%nat)] p 0 ic)
  = Some [1; 0; 4; 40]%Q /\
  option_map (fun X => map (fun n => this (X n)) [0; 1; 2; 3]%Z)
    (solve_old (K:=QcF) gauss true [Q2Qc 0; Q2Qc 5; Q2Qc (-6)] [(Q2Qc 2, 1%nat); (Q2Qc 3, 1%nat)] p 0 ic)
  = Some [1; 0; 2; 34]%Q.
Proof. split; vm_compute; reflexivity. Qed.
