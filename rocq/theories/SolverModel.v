(** Model of the finite-order solver: src/compute_exact_solution.cc and src/finite_order.cc.
    Sequences and closed forms are functions of the index n : Z with values in a field;
    a symbolic sum is its value ([zsum]).  Calls to [simplify_*], [expand], [collect] and
    [blackboard.rewrite] on the result are omitted (they are to preserve the value).
    [Number] and [Expr] coefficients are field elements. *)
From Coq Require Import ZArith List Bool.
From Verif Require Import Fld FPoly SeqSpec SumPolyModel LinSolve.
Import ListNotations.

Section M.
Context {K : Fld}.
Local Open Scope fld_scope.

(** * The part coming from the initial conditions *)

(** compute_exact_solution.cc:79-80: the loop on j, from i down to 1. [c] is the vector
    [coefficients], whose entry 0 is unused. *)
Fixpoint ic_inner (c : list K) (x : Z -> K) (f : Z) (i j : nat) (tmp : K) : K :=
  match j with
  | O => tmp
  | S j' => ic_inner c x f i j' (tmp - nth j c 0 * x (f + Z.of_nat i - Z.of_nat j)%Z)
  end.
(** compute_exact_solution.cc:75-83: the loop on i, from size-2 down to 0. *)
Fixpoint ic_outer (g : Z -> K) (c : list K) (x : Z -> K) (f n : Z) (i : nat) (term : K) : K :=
  match i with
  | O => term
  | S i' => ic_outer g c x f n i'
              (term + ic_inner c x f i' i' (x (f + Z.of_nat i')%Z) * g (n - Z.of_nat i' - f)%Z)
  end.
(** compute_exact_solution.cc:70-86. *)
Definition compute_term_about_initial_conditions (g : Z -> K) (c : list K) (f : Z)
  (x : Z -> K) (n : Z) : K := ic_outer g c x f n (length c - 1) 0.

(** * Inhomogeneous terms after exp_poly_decomposition: base, polynomial and other coefficient *)
Record comp := MkComp { cbase : K; cpoly : list K; cnopoly : Z -> K }.
(** exp_poly_coeff[i] + exp_no_poly_coeff[i] is the coefficient of base_of_exps[i]^n
    (comment at compute_exact_solution.cc:118-119). *)
Definition inh_value (inh : list comp) (n : Z) : K :=
  fold_right (fun e acc => (peval (cpoly e) (ofz n) + cnopoly e n) * zpow (cbase e) n + acc) 0 inh.

(** * Order one *)

(** finite_order.cc:112-114: subtract the terms 0 <= j < lower. *)
Fixpoint sub_low (q : list K) (alpha lambda : K) (lower : nat) (s : K) : K :=
  match lower with
  | O => s
  | S l => sub_low q alpha lambda l s - peval q (ofn l) * zpow alpha (Z.of_nat l) * zpow lambda (- Z.of_nat l)
  end.
(** finite_order.cc:101-121 return_sum, after the substitution of the values of alpha and
    lambda (done by subs_to_sum_roots_and_bases). *)
Definition return_sum (distinct : bool) (lower : nat) (coeff : list K) (alpha lambda : K) (n : Z) : K :=
  let s := if distinct then sum_poly_times_exponentials coeff (Z.to_nat n) (alpha / lambda)
           else sum_poly_times_exponentials coeff (Z.to_nat n) 1 in
  sub_low coeff alpha lambda lower s * zpow lambda n.

(** finite_order.cc:260-312 and 332-376 for order 1 (one root): the sums of all polynomial
    parts.  Loop order (from the last base) kept. *)
Definition symbolic_sums (lambda : K) (inh : list comp) (lower : nat) (n : Z) : K :=
  fold_left (fun sol e => sol + return_sum (negb (lambda =? cbase e)) lower (cpoly e) (cbase e) lambda n)
    (rev inh) 0.
(** finite_order.cc:565-603: [gos e] is the result of gosper_algorithm on the summand of the
    component, [None] when it gives up and the symbolic sum is returned.
    The guard !exp_no_poly_coeff[i].is_zero() skips zero sums and is omitted. *)
Definition transcendental (gos : comp -> option (Z -> K)) (lambda : K) (inh : list comp) (lower n : Z) : K :=
  fold_left (fun sol e =>
    sol + zpow lambda n *
      match gos e with
      | Some z => z n
      | None => zsum lower n (fun h => zpow lambda (- h) * cnopoly e h * zpow (cbase e) h)
      end) (rev inh) 0.
(** compute_exact_solution.cc:109-161. The two guards vector_not_all_zero skip zero sums. *)
Definition solve_constant_coeff_order_1 (gos : comp -> option (Z -> K)) (lambda : K) (inh : list comp)
  (f : nat) (n : Z) : K :=
  symbolic_sums lambda inh (1 + f) n + transcendental gos lambda inh (Z.of_nat f + 1) n.
(** compute_exact_solution.cc:962-971: order 1, the old method. *)
Definition order_1_old (gos : comp -> option (Z -> K)) (lambda : K) (inh : list comp) (f : nat)
  (x : Z -> K) (n : Z) : K :=
  x (Z.of_nat f) * zpow lambda (n - (Z.of_nat f - 1 + 1)) + solve_constant_coeff_order_1 gos lambda inh f n.

(** compute_exact_solution.cc:193-224. [pf] is the value of compute_product (+ simplifications),
    [inh] the decomposition of inhomogeneous_term/product_factor. *)
Definition solve_variable_coeff_order_1 (gos : comp -> option (Z -> K)) (pf : Z -> K) (inh : list comp)
  (f : nat) (x : Z -> K) (n : Z) : K :=
  pf n * (solve_constant_coeff_order_1 gos 1 inh f n + x (Z.of_nat f)).

(** * Order two and more, the old method (used when some non-polynomial part is present) *)

(** compute_exact_solution.cc:370-390, 461-473: distinct roots. *)
Definition g_order_2 (l1 l2 : K) (n : Z) : K := (zpow l1 (n + 1) - zpow l2 (n + 1)) / (l1 - l2).
Definition order_2_distinct (l1 l2 : K) (p : Z -> K) (f n : Z) : K :=
  1 / (l1 - l2) *
  (zpow l1 (n + 1) * zsum (f + 2) n (fun h => zpow l1 (- h) * p h)
   - zpow l2 (n + 1) * zsum (f + 2) n (fun h => zpow l2 (- h) * p h)).

(** finite_order.cc:416-427: right-hand sides g_0, ..., g_(k-1). [c] as above. *)
Fixpoint sys_inner (c tmp : list K) (i cnt j : nat) (acc : K) : K :=
  match cnt with
  | O => acc
  | S cnt' => sys_inner c tmp i cnt' (S j) (acc + nth (j + 1) c 0 * nth (i - j - 1) tmp 0)
  end.
Fixpoint sys_rhs (c : list K) (m : nat) : list K :=
  match m with
  | O => []
  | S O => [1]
  | S i => sys_rhs c i ++ [sys_inner c (sys_rhs c i) i i 0 0]
  end.
(** Columns of the matrix: (root, exponent of the index).
    finite_order.cc:433-436 (all distinct) and 437-443. *)
Definition cols_old (all_distinct : bool) (roots : list (K * nat)) : list (K * nat) :=
  if all_distinct then map (fun r => (fst r, O)) roots
  else flat_map (fun r => map (fun j => (fst r, j)) (rev (seq 0 (snd r)))) (rev roots).
Definition colval (c : K * nat) (n : Z) : K := ofz n ^ snd c * zpow (fst c) n.
(** finite_order.cc:411-463. [ls] stands for Matrix::solve. *)
Definition solve_system (ls : nat -> list (list K * K) -> option (list K)) (all_distinct : bool)
  (c : list K) (roots : list (K * nat)) : option (list K) :=
  let k := (length c - 1)%nat in
  ls k (map (fun h => (map (fun col => colval col (Z.of_nat h)) (cols_old all_distinct roots),
                       nth h (sys_rhs c k) 0)) (seq 0 k)).
(** finite_order.cc:468-486. *)
Definition find_g_n (all_distinct : bool) (sol : list K) (roots : list (K * nat)) (n : Z) : K :=
  dot sol (map (fun col => colval col n) (cols_old all_distinct roots)).
(** compute_exact_solution.cc:489-494 and 632-646: sum(h, lower, n, g_n(n - h) p(h)). *)
Definition non_homogeneous_sum (g : Z -> K) (order : nat) (p : Z -> K) (f n : Z) : K :=
  zsum (f + Z.of_nat order) n (fun h => g (n - h)%Z * p h).
(** compute_exact_solution.cc:977-984: the whole old method for order >= 2;
    order 2 with distinct roots uses the closed form of g_n. *)
Definition solve_old (ls : nat -> list (list K * K) -> option (list K)) (all_distinct : bool)
  (c : list K) (roots : list (K * nat)) (p : Z -> K) (f : Z) (x : Z -> K) : option (Z -> K) :=
  match all_distinct, (length c - 1)%nat, roots with
  | true, 2%nat, [(l1, _); (l2, _)] =>
    Some (fun n => compute_term_about_initial_conditions (g_order_2 l1 l2) c f x n
                   + order_2_distinct l1 l2 p f n)
  | _, _, _ =>
    match solve_system ls all_distinct c roots with
    | None => None
    | Some sol =>
      Some (fun n => compute_term_about_initial_conditions (find_g_n all_distinct sol roots) c f x n
                     + non_homogeneous_sum (find_g_n all_distinct sol roots) (length c - 1) p f n)
    end
  end.

(** * The new method: special solutions by undetermined coefficients *)

(** The polynomial  sum_d a_d b^(-d) p(n-d)  (compute_exact_solution.cc:696-704). *)
Fixpoint shsum (b : K) (a p : list K) : list K :=
  match a with
  | [] => []
  | a1 :: a' => let p1 := pscal (/ b) (pshift p) in padd (pscal a1 p1) (shsum b a' p1)
  end.
Definition mono (j : nat) : list K := repeat 0 j ++ [1].
(** Contribution of the unknown of degree j to [diff] (compute_exact_solution.cc:683-704). *)
Definition diff_col (a : list K) (b : K) (j : nat) : list K :=
  padd (mono j) (pscal (- (1)) (shsum b a (mono j))).
(** compute_exact_solution.cc:660-751. The equations are prepended, hence [rev].
    [ls] stands for lsolve followed by replacing the undetermined unknowns with 0. *)
Definition compute_special_solution (ls : nat -> list (list K * K) -> option (list K))
  (a poly : list K) (base : K) (mult : nat) : option (Z -> K) :=
  if (base =? 1) && match a with [a1] => a1 =? 1 | _ => false end
  then Some (fun n => sum_poly_alt poly (Z.to_nat n))
  else
    let deg := (pdegree poly + mult)%nat in
    match ls (deg + 1)%nat
      (rev (map (fun i => (map (fun j => nth i (diff_col a base j) 0) (seq 0 (deg + 1)),
                           nth i poly 0)) (seq 0 (deg + 1)))) with
    | None => None
    | Some q => Some (fun n => peval q (ofz n) * zpow base n)
    end.
(** compute_exact_solution.cc:1006-1010: multiplicity of [base] as a root, 0 if it is not one. *)
Definition mult_of (roots : list (K * nat)) (base : K) : nat :=
  fold_left (fun m r => if fst r =? base then snd r else m) (rev roots) O.
(** compute_exact_solution.cc:1003-1014: the sum over the bases. *)
Fixpoint special_solutions (ls : nat -> list (list K * K) -> option (list K)) (a : list K)
  (roots : list (K * nat)) (inh : list (K * list K)) (sol : Z -> K) : option (Z -> K) :=
  match inh with
  | [] => Some sol
  | (b, poly) :: inh =>
    match compute_special_solution ls a poly b (mult_of roots b) with
    | None => None
    | Some s => special_solutions ls a roots inh (fun n => sol n + s n)
    end
  end.
(** compute_exact_solution.cc:1035-1041. *)
Definition order_1_new (a : K) (s x : Z -> K) (f n : Z) : K := (x f - s f) * zpow a (n - f) + s n.
(** compute_exact_solution.cc:1043-1057: the unknowns, one for each root and each j-1 < multiplicity. *)
Definition cols_new (roots : list (K * nat)) : list (K * nat) :=
  flat_map (fun r => map (fun j => (fst r, j)) (seq 0 (snd r))) roots.
(** compute_exact_solution.cc:1042-1084. *)
Definition fit_general (ls : nat -> list (list K * K) -> option (list K)) (roots : list (K * nat))
  (s x : Z -> K) (f : Z) : option (Z -> K) :=
  let cols := cols_new roots in
  match ls (length cols)
    (rev (map (fun i => (map (fun c => colval c (f + Z.of_nat i)%Z) cols,
                         x (f + Z.of_nat i)%Z - s (f + Z.of_nat i)%Z)) (seq 0 (length cols)))) with
  | None => None
  | Some u => Some (fun n => s n + dot u (map (fun c => colval c n) cols))
  end.
(** compute_exact_solution.cc:885-1095, constant coefficients, polynomial-exponential
    inhomogeneous term. [a] = [a_1; ...; a_k]; k = 0 returns the inhomogeneous term (770-777). *)
Definition solve_new (ls : nat -> list (list K * K) -> option (list K)) (a : list K)
  (roots : list (K * nat)) (inh : list (K * list K)) (f : Z) (x : Z -> K) : option (Z -> K) :=
  match a with
  | [] => Some (fun n => fold_right (fun e acc => peval (snd e) (ofz n) * zpow (fst e) n + acc) 0 inh)
  | _ =>
    match special_solutions ls a roots inh (fun _ => 0) with
    | None => None
    | Some s =>
      match a with
      | [a1] => Some (order_1_new a1 s x f)
      | _ => fit_general ls roots s x f
      end
    end
  end.

(** * The characteristic equation *)

(** finite_order.cc:65-99: coefficients of the polynomial, lowest degree first.
    [m] is the least common multiple of the denominators, 1 if all are integers. *)
Definition build_characteristic_equation (m : K) (c : list K) : list K :=
  map (fun i => - (m * nth (length c - 1 - i) c 0)) (seq 0 (length c - 1)) ++ [m].
End M.
