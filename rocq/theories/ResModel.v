(** Model of src/util.cc:334-435: the resultant of two polynomials, from the Sylvester matrix and with
    Euclid's algorithm. Coefficients are in any field F (rational functions of the other symbols);
    GiNaC's determinant is mathcomp's. *)
From mathcomp Require Import all_ssreflect all_algebra.
Set Implicit Arguments.
Unset Strict Implicit.
Unset Printing Implicit Defensive.
Import GRing.Theory.
Local Open Scope ring_scope.

Section Model.
Context (F : fieldType).
Implicit Types (p q f g : {poly F}).
(** GiNaC's degree, also of 0. *)
Definition degree p : nat := (size p).-1.
(** util.cc:344-351 and 352-359: row i (from 1) of the block of p, in a matrix with n columns. *)
Definition sylvester_row p (n i : nat) : seq F := nseq (i - 1) 0 ++ [seq p`_k | k <- rev (iota 0 (degree p).+1)] ++ nseq (n - (i + degree p)) 0.
Definition sylvester_rows p q : seq (seq F) :=
  let n := (degree p + degree q)%N in
  [seq sylvester_row p n i | i <- iota 1 (degree q)] ++ [seq sylvester_row q n i | i <- iota 1 (degree p)].
(** util.cc:333-362. The elements are kept row by row. *)
Definition sylvester_matrix_resultant p q : F :=
  let rows := sylvester_rows p q in
  \det (\matrix_(i < degree p + degree q, j < degree p + degree q) nth 0 (nth [::] rows i) j).

(** GiNaC's prem(g, f, x): lcoeff(f)^(deg g - deg f + 1) g minus a multiple of f; g itself if deg g < deg f. *)
Definition prem g f : {poly F} := if (degree f <= degree g)%N then lead_coef f ^+ (degree g - degree f).+1 *: (g %% f) else g.
(** unsigned deg_g - deg_f + 1, modulo 2^32. *)
Definition word : nat := (2 ^ 32)%N.
Definition wrap_exponent g f : nat := if (degree f <= (degree g).+1)%N then ((degree g).+1 - degree f)%N else (word - (degree f - (degree g).+1))%N.
(** is_rational_polynomial, after the attempt with factorize. *)
Context (rational : {poly F} -> bool).
(** util.cc:391-429: the loop; p and q are the arguments, for the last chance. *)
Fixpoint euclid (fuel : nat) p q f g (res : F) : option F :=
  if (degree f == 0)%N then Some (res * f`_0 ^+ degree g)
  else if fuel is fuel'.+1 then
    if ~~ rational f || ~~ rational g then Some (sylvester_matrix_resultant p q)
    else
      let r := (lead_coef f ^+ wrap_exponent g f)^-1 *: prem g f in
      let res := res * lead_coef f ^+ (degree g - degree r) in
      let res := if odd (degree f * degree r) then - res else res in
      euclid fuel' p q r f res
  else None.
(** util.cc:375-435. [None]: GiNaC refuses 0^0. *)
Definition resultant_of (fuel : nat) p q : option F :=
  if (degree p == 0%N) || (degree q == 0%N) then
    if (lead_coef p == 0) && (degree q == 0%N) || (lead_coef q == 0) && (degree p == 0%N) then None else Some (lead_coef p ^+ degree q * lead_coef q ^+ degree p)
  else euclid fuel p q p q 1.
End Model.
