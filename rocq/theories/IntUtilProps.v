(** C02, C03, C04: integer utilities of src/util.cc. *)
From Coq Require Import ZArith List Znumtheory.
From Verif Require Import IntUtilModel IntUtilSpec IntUtilProofs.
Import ListNotations.
Local Open Scope Z_scope.

(** [gcd] returns (up to sign) the greatest common divisor for all pairs of ints,
    the two pairs whose remainder overflows excepted. *)
Theorem C02_gcd_correct : forall n m,
  INT_MIN <= n <= INT_MAX -> INT_MIN <= m <= INT_MAX ->
  ~ (n = INT_MIN /\ m = -1) -> ~ (n = -1 /\ m = INT_MIN) ->
  exists r, gcd_int n m = Ret r /\ Z.abs r = Z.gcd n m.
Proof. exact (fun n m Hn Hm H1 H2 => gcd_int_correct n m (conj Hn (conj Hm (conj H1 H2)))). Qed.
Print Assumptions C02_gcd_correct.

(** For non-negative arguments also the sign is right. *)
Theorem C02_gcd_nonneg : forall n m, 0 <= n <= INT_MAX -> 0 <= m <= INT_MAX ->
  gcd_int n m = Ret (Z.gcd n m).
Proof. exact gcd_int_nonneg. Qed.
Print Assumptions C02_gcd_nonneg.

(** Undefined behaviour happens for exactly two argument pairs. *)
Theorem C02_gcd_undefined_iff : forall n m,
  (INT_MIN <= n <= INT_MAX) -> (INT_MIN <= m <= INT_MAX) ->
  (gcd_int n m = Undef <-> (n = INT_MIN /\ m = -1) \/ (n = -1 /\ m = INT_MIN)).
Proof. exact gcd_int_undef. Qed.
Print Assumptions C02_gcd_undefined_iff.

Example C02_case : gcd_int (-84) 30 = Ret 6 /\ gcd_int 0 (-7) = Ret (-7) /\
  gcd_int 2147483647 (-2147483648) = Ret (-1).
Proof. vm_compute. auto. Qed.

(** [lcm] of a vector is the least common multiple of its elements. *)
Theorem C02_lcm_vector : forall v,
  0 <= lcm_vec v /\ (forall z, In z v -> (z | lcm_vec v)) /\
  (forall t, (forall z, In z v -> (z | t)) -> (lcm_vec v | t)).
Proof. exact lcm_vec_spec. Qed.
Print Assumptions C02_lcm_vector.

Example C02_lcm_case : lcm_vec [4; 6; 10] = 60.
Proof. reflexivity. Qed.

(** [partial_factor] appends to the two vectors bases and exponents whose product of
    powers is |n|. *)
Theorem C03_partial_factor : forall n bs0 es0, n <> 0 ->
  exists bs es,
    partial_factor n (bs0, es0) = Ret (bs0 ++ bs, es0 ++ es) /\
    length bs = length es /\
    prodpow bs es = Z.abs n /\
    Forall (fun e => 0 < e) es /\
    NoDup bs /\ ForallOrdPairs rel_prime bs /\
    (forall b, In b bs -> (b = 1 /\ Z.abs n = 1) \/ prime b \/ (100 < b /\ no_small_prime b)) /\
    (forall b, In b (removelast bs) -> prime b) /\
    (bs0 = [] -> bs <> []).
Proof. exact partial_factor_spec. Qed.
Print Assumptions C03_partial_factor.

Example C03_case : partial_factor (-360 * 10403) ([], []) = Ret ([2; 3; 5; 10403], [3; 2; 1; 1]).
Proof. vm_compute. reflexivity. Qed.
Example C03_case_one : partial_factor 1 ([], []) = Ret ([1], [1]).
Proof. vm_compute. reflexivity. Qed.

Theorem C04_find_divisors_small : forall n ds, 0 < n < 121 ->
  exists new, find_divisors n ds = Ret (true, ds ++ new) /\ NoDup new /\
    (forall d, In d new <-> 0 < d /\ (d | n)).
Proof. exact find_divisors_small. Qed.
Print Assumptions C04_find_divisors_small.

Theorem C04_find_divisors_large : forall n ds, 121 <= n -> find_divisors n ds = Ret (false, ds).
Proof. exact find_divisors_large. Qed.
Print Assumptions C04_find_divisors_large.

Example C04_case : find_divisors 36 [5] = Ret (true, [5; 1; 36; 2; 18; 3; 12; 4; 9; 6]).
Proof. vm_compute. reflexivity. Qed.
