(** Model of src/sum_poly.cc.  Expressions are represented by their values in an
    arbitrary field [K] of characteristic 0; the polynomial argument [p] by its
    coefficients with respect to the summation variable (what GiNaC's [expand],
    [degree] and [coeff] provide); the symbol [N] by an arbitrary natural number. *)
From Coq Require Import ZArith List.
From Verif Require Import Fld FPoly.
Import ListNotations.

Section Model.
Context {K : Fld}.
Local Open Scope fld_scope.

(** src/sum_poly.cc:56-61 [falling_product]: [q = 1; for (i = 0; i < k; ++i) q *= x - i]. *)
Fixpoint falling_product (x : K) (k : nat) : K :=
  match k with
  | O => 1
  | S i => falling_product x i * (x - ofn i)
  end.

(** src/sum_poly.cc:73-78: the loop [for (i = 0; i <= k; ++i)] subtracting the terms from [q];
    [cnt] iterations starting with [i]. *)
Fixpoint sfp_loop (cnt i k : nat) (x : K) (N : nat) (q : K) : K :=
  match cnt with
  | O => q
  | S c =>
      let r := falling_product (ofn N + 1) i in
      sfp_loop c (S i) k x N
        (q - r / ffact i * zpow x (Z.of_nat N + 1 - Z.of_nat i)
             * zpow (1 - x) (Z.of_nat i - Z.of_nat k - 1))
  end.

(** src/sum_poly.cc:69-80 [sum_falling_prod_times_exp]. *)
Definition sum_falling_prod_times_exp (k : nat) (x : K) (N : nat) : K :=
  sfp_loop (S k) 0 k x N (zpow (1 - x) (- Z.of_nat k - 1))
  * (ffact k * zpow x (Z.of_nat k)).

(** src/sum_poly.cc:95-101, the loop of [poly_dec].  The rational expression [q] is
    represented by its value function (the code only substitutes numbers in it). *)
Fixpoint poly_dec_loop (cnt i : nat) (q : K -> K) (r : K) : list K :=
  match cnt with
  | O => []
  | S c =>
      let q' := fun t => (q t - r) / (t - ofn i) in
      let r' := q' (ofn (S i)) in
      r' :: poly_dec_loop c (S i) q' r'
  end.

(** src/sum_poly.cc:89-102 [poly_dec]: the vector of the d+1 coefficients. *)
Definition poly_dec (p : list K) : list K :=
  let r := nth 0 p 0 in
  r :: poly_dec_loop (pdegree p) 0 (peval p) r.

(** src/sum_poly.cc:115-119, the loop of [sum_poly]. *)
Fixpoint sum_poly_loop (i : nat) (summands : list K) (N : nat) (q : K) : K :=
  match summands with
  | [] => q
  | s :: rest =>
      let r := falling_product (ofn N + 1) (i + 1) in
      sum_poly_loop (S i) rest N (q + (1 / ofn (i + 1)) * s * r)
  end.

(** src/sum_poly.cc:110-120 [sum_poly]. *)
Definition sum_poly (p : list K) (N : nat) : K :=
  sum_poly_loop 0 (poly_dec p) N 0.

(** src/sum_poly.cc:182-186, the loop of [sum_poly_times_exponentials]. *)
Fixpoint spte_loop (i : nat) (summands : list K) (alpha : K) (N : nat) (q : K) : K :=
  match summands with
  | [] => q
  | s :: rest =>
      spte_loop (S i) rest alpha N (q + sum_falling_prod_times_exp i alpha N * s)
  end.

(** src/sum_poly.cc:170-190 [sum_poly_times_exponentials].  The final substitution of
    [alpha] for the symbol used as base is performed at once. *)
Definition sum_poly_times_exponentials (p : list K) (N : nat) (alpha : K) : K :=
  if alpha =? 1 then sum_poly p N
  else spte_loop 0 (poly_dec p) alpha N 0.

(** The C array [coefficients] of [sum_poly_alt] as a function. *)
Definition upd (c : nat -> K) (j : nat) (v : K) : nat -> K :=
  fun k => if Nat.eqb k j then v else c k.

(** src/sum_poly.cc:148-151: [for (j = i + 2; --j > 1; ) { c[j] = i * c[j-1] / j; sum += c[j]; }];
    called with the first value of [j], i.e. [i + 1]. *)
Fixpoint alt_inner (i j : nat) (c : nat -> K) (sum : K) : (nat -> K) * K :=
  match j with
  | O => (c, sum)
  | S j' =>
      if Nat.ltb 1 j then
        let v := ofn i * c j' / ofn j in
        alt_inner i j' (upd c j v) (sum + v)
      else (c, sum)
  end.

(** src/sum_poly.cc:156-157: [for (j = i + 2; --j > 0; ) partial_sum += pwr(N, j) * c[j]]. *)
Fixpoint alt_partial (j : nat) (c : nat -> K) (N : nat) (s : K) : K :=
  match j with
  | O => s
  | S j' => alt_partial j' c N (s + ofn N ^ j * c j)
  end.

(** src/sum_poly.cc:145-159: the outer loop, [cnt] iterations starting with [i]. *)
Fixpoint alt_outer (cnt i : nat) (p : list K) (c : nat -> K) (N : nat) (acc : K) : K :=
  match cnt with
  | O => acc
  | S n =>
      let '(c1, sum) := alt_inner i (i + 1) c 0 in
      let c2 := upd (upd c1 1 (1 - sum)) 0 0 in
      alt_outer n (S i) p c2 N (acc + alt_partial (i + 1) c2 N 0 * nth i p 0)
  end.

(** src/sum_poly.cc:136-161 [sum_poly_alt]. *)
Definition sum_poly_alt (p : list K) (N : nat) : K :=
  alt_outer (pdegree p) 1 p (upd (upd (fun _ => 0) 0 0) 1 1) N ((ofn N + 1) * nth 0 p 0).

End Model.
