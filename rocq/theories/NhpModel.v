(** Model of the closed form of the part of the solution coming from a polynomial-exponential
    inhomogeneous term, computed from the fundamental solution: src/finite_order.cc
    [compute_symbolic_sum], [subs_to_sum_roots_and_bases], [prepare_for_symbolic_sum],
    [compute_non_homogeneous_part] and their uses in src/compute_exact_solution.cc.
    As in SolverModel.v, expressions in n are functions of n with values in a field, polynomial
    coefficients are lists of coefficients; [expand], [rewrite] and [simplify_*] are omitted.
    [None] as a result: an element of a vector past its end is accessed. *)
From Coq Require Import ZArith List Bool Arith.
From Verif Require Import Fld FPoly SumPolyModel SolverModel.
Import ListNotations.

Section M.
Context {K : Fld}.
Local Open Scope fld_scope.

(** An element of the vectors symbolic_sum_distinct and symbolic_sum_no_distinct: an
    expression in the symbols alpha and lambda and in n; [None] is the expression 0. *)
Definition entry := option (K -> K -> Z -> K).
(** finite_order.cc:101-121 [return_sum] with alpha and lambda still symbolic.  The sum is the
    expression 0 exactly when the polynomial is 0. *)
Definition sym (distinct : bool) (lower : nat) (q : list K) : entry :=
  if forallb (fun c => c =? 0) q then None else Some (return_sum distinct lower q).
(** The two elements appended for a root and a base: finite_order.cc:282-308. *)
Definition pair_entry (lower : nat) (b l : K) (q : list K) : entry * entry :=
  if l =? b then (None, sym false lower q) else (sym true lower q, None).
(** finite_order.cc:281-309 for order > 2: the index r advances by one with every root, that
    is, the coefficients are taken from the front of [ec]. [rs]: the roots, from the last one. *)
Fixpoint css_roots (lower : nat) (b : K) (rs : list K) (ec : list (list K))
  : option (list (entry * entry) * list (list K)) :=
  match rs with
  | [] => Some ([], ec)
  | l :: rs' =>
    match ec with
    | [] => None
    | q :: ec' =>
      match css_roots lower b rs' ec' with
      | None => None
      | Some (es, rest) => Some (pair_entry lower b l q :: es, rest)
      end
    end
  end.
(** finite_order.cc:272-309 for order > 2. [bs]: the bases, from the last one. *)
Fixpoint css_gt2 (lower : nat) (rs bs : list K) (ec : list (list K)) : option (list (entry * entry)) :=
  match bs with
  | [] => Some []
  | b :: bs' =>
    match css_roots lower b rs ec with
    | None => None
    | Some (es, ec') => option_map (fun t => es ++ t) (css_gt2 lower rs bs' ec')
    end
  end.
(** finite_order.cc:272-309 for order <= 2: the coefficient of the base is used for all roots.
    [special]: finite_order.cc:274-279. *)
Fixpoint css_le2 (special : bool) (lower : nat) (rs : list K) (inh : list (K * list K))
  : list (entry * entry) :=
  match inh with
  | [] => []
  | (b, q) :: inh' =>
    (if special then [(sym true lower q, None)]
     else map (fun l => pair_entry lower b l q) rs) ++ css_le2 special lower rs inh'
  end.
(** finite_order.cc:258-260: the sum of the multiplicities. *)
Definition order_of (roots : list (K * nat)) : nat := fold_right (fun r acc => (snd r + acc)%nat) O roots.
(** finite_order.cc:248-312. For order <= 2 the vectors of bases and coefficients have the same
    size.  The pairs are the elements of the two result vectors. *)
Definition compute_symbolic_sum (roots : list (K * nat)) (bases : list K) (coefs : list (list K))
  (lower : nat) : option (list (entry * entry)) :=
  let rs := rev (map fst roots) in
  let all_distinct := forallb (fun b => forallb (fun l => negb (l =? b)) rs) bases in
  if Nat.ltb 2 (order_of roots) then css_gt2 lower rs (rev bases) coefs
  else Some (css_le2 (all_distinct && Nat.eqb (order_of roots) 2) lower rs (rev (combine bases coefs))).

(** The substitution of values for alpha and lambda. *)
Definition val (e : entry) (a l : K) (n : Z) : K :=
  match e with None => 0 | Some f => f a l n end.
Definition add_or_subtract (order j : nat) (sol tmp : K) : K :=
  if Nat.eqb order 2 && Nat.odd j then sol - tmp else sol + tmp.
(** finite_order.cc:353-363, the special case: one element for all roots, with their indices. *)
Fixpoint subs_special (order : nat) (b : K) (rs : list (nat * K)) (e : entry) (n : Z) (sol : K) : K :=
  match rs with
  | [] => sol
  | (j, l) :: rs' => subs_special order b rs' e n (add_or_subtract order j sol (val e b l n))
  end.
(** finite_order.cc:367-382: the index r advances by one with every root. *)
Fixpoint subs_roots (order : nat) (b : K) (rs : list (nat * K)) (es : list (entry * entry)) (n : Z) (sol : K)
  : option (K * list (entry * entry)) :=
  match rs with
  | [] => Some (sol, es)
  | (j, l) :: rs' =>
    match es with
    | [] => None
    | (d, z) :: es' =>
      let tmp := val (if negb (b =? l) then d else z) b l n in
      subs_roots order b rs' es' n (add_or_subtract order j sol tmp)
    end
  end.
(** finite_order.cc:350-383. *)
Fixpoint subs_bases (special : bool) (order : nat) (bs : list K) (rs : list (nat * K))
  (es : list (entry * entry)) (n : Z) (sol : K) : option K :=
  match bs with
  | [] => Some sol
  | b :: bs' =>
    if special then
      match es with
      | [] => None
      | (d, _) :: es' => subs_bases special order bs' rs es' n (subs_special order b rs d n sol)
      end
    else
      match subs_roots order b rs es n sol with
      | None => None
      | Some (sol', es') => subs_bases special order bs' rs es' n sol'
      end
  end.
(** util.cc:52-58. *)
Definition vector_not_all_zero (v : list entry) : bool :=
  existsb (fun e => match e with None => false | Some _ => true end) v.
(** finite_order.cc:342-384. *)
Definition subs_to_sum_roots_and_bases (roots : list (K * nat)) (bases : list K)
  (es : list (entry * entry)) (n : Z) : option K :=
  let rs := rev (combine (seq 0 (length roots)) (map fst roots)) in
  subs_bases (Nat.eqb (order_of roots) 2 && negb (vector_not_all_zero (map snd es)))
    (order_of roots) (rev bases) rs es n 0.

(** compute_exact_solution.cc:394-401: both vectors are multiplied by lambda / diff_roots. *)
Definition scale (diff : K) (es : list (entry * entry)) : list (entry * entry) :=
  let m := option_map (fun f : K -> K -> Z -> K => fun a l n => f a l n * (l / diff)) in
  map (fun e => (m (fst e), m (snd e))) es.
(** compute_exact_solution.cc:381-479: order 2, distinct roots, polynomial-exponential
    inhomogeneous term.  The replacement of (lambda - alpha)^(-k) (402-427) preserves the value:
    see [C99_replaced_difference]. *)
Definition order_2_poly (roots : list (K * nat)) (inh : list (K * list K)) (f : nat) (n : Z) : option K :=
  match roots with
  | (l1, _) :: (l2, _) :: _ =>
    match compute_symbolic_sum roots (map fst inh) (map snd inh) (2 + f) with
    | None => None
    | Some es => subs_to_sum_roots_and_bases roots (map fst inh) (scale (l1 - l2) es) n
    end
  | _ => None
  end.

(** finite_order.cc:524-529: j counts down, hence the first element that matches is the one kept;
    0 when there is none. *)
Definition coeff_of_base (l : K) (gd : list (K * K)) : K :=
  fold_left (fun acc e => if l =? fst e then snd e else acc) (rev gd) 0.
(** finite_order.cc:506-540. [gd]: bases and coefficients of the exponentials of g_n, whose
    coefficients are constant as the roots are simple (535). *)
Definition prepare_for_symbolic_sum (gd : list (K * K)) (roots : list (K * nat))
  (exp_poly_coeff : list (list K)) : option (list (list K)) :=
  let rs := map fst roots in
  if Nat.ltb (length gd) (length rs) then None
  else
    let equal := forallb (fun p => fst p =? fst (snd p)) (combine rs gd) in
    let gc := if equal then map snd gd
              else map (fun l => coeff_of_base l gd) rs ++ skipn (length rs) (map snd gd) in
    Some (flat_map (fun p => map (fun c => pscal c p) (rev gc)) (rev exp_poly_coeff)).
(** compute_exact_solution.cc:602-624: order > 2, distinct roots, polynomial-exponential
    inhomogeneous term. *)
Definition order_k_poly (gd : list (K * K)) (roots : list (K * nat)) (inh : list (K * list K))
  (order f : nat) (n : Z) : option K :=
  match prepare_for_symbolic_sum gd roots (map snd inh) with
  | None => None
  | Some coefs =>
    match compute_symbolic_sum roots (map fst inh) coefs (order + f) with
    | None => None
    | Some es => subs_to_sum_roots_and_bases roots (map fst inh) es n
    end
  end.

(** finite_order.cc:560-561: the polynomial g(m - k) in k, m being the value of n. *)
Fixpoint subst_diff (g : list K) (m : K) : list K :=
  match g with
  | [] => []
  | c :: g' => padd [c] (pmul [m; - (1)] (subst_diff g' m))
  end.
(** finite_order.cc:569-571: subtract the terms 0 <= h < order. *)
Fixpoint subtract_terms (q : list K) (ratio : K) (h cnt : nat) (s : K) : K :=
  match cnt with
  | O => s
  | S c => subtract_terms q ratio (S h) c (s - peval q (ofn h) * zpow ratio (Z.of_nat h))
  end.
(** finite_order.cc:546-575. [gd]: bases of g_n and their coefficients, polynomials in n. *)
Definition compute_non_homogeneous_part (gd : list (K * list K)) (order : nat)
  (inh : list (K * list K)) (n : Z) : K :=
  fold_left (fun tot gi =>
    fold_left (fun tot pj =>
      let q := pmul (subst_diff (snd gi) (ofz n)) (snd pj) in
      let ratio := 1 / fst gi * fst pj in
      let s := sum_poly_times_exponentials q (Z.to_nat n) ratio in
      tot + subtract_terms q ratio 0 order s * zpow (fst gi) n)
      (rev inh) tot) (rev gd) 0.
End M.
