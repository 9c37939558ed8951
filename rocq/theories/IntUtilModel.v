(** Model of the integer utilities of src/util.cc. *)
From Coq Require Import ZArith List Bool.
Import ListNotations.
Local Open Scope Z_scope.

(** Outcome of a C++ computation: a value, undefined behaviour / failed
    assertion, or exhausted fuel (the model's stand-in for "still running"). *)
Inductive outcome (A : Type) : Type :=
| Ret (a : A)
| Undef
| OutOfFuel.
Arguments Ret {A}. Arguments Undef {A}. Arguments OutOfFuel {A}.

Definition INT_MIN : Z := - 2 ^ 31.
Definition INT_MAX : Z := 2 ^ 31 - 1.
Definition is_int (z : Z) : bool := (INT_MIN <=? z) && (z <=? INT_MAX).

(** C++ [%] on [int]: truncated remainder; undefined for divisor 0 and when the
    quotient is not representable. *)
Definition int_rem (n m : Z) : outcome Z :=
  if m =? 0 then Undef
  else if (n =? INT_MIN) && (m =? -1) then Undef
  else Ret (Z.rem n m).

(** src/util.cc:63-69, the body of [gcd(int n, int m)]: the loop
    [while (r != 0) { r = n % m; n = m; m = r; }  return n]. *)
Fixpoint gcd_loop (fuel : nat) (n m r : Z) : outcome Z :=
  match fuel with
  | O => OutOfFuel
  | S f =>
      if r =? 0 then Ret n
      else match int_rem n m with
           | Ret r' => gcd_loop f m r' r'
           | Undef => Undef
           | OutOfFuel => OutOfFuel
           end
  end.

(** src/util.cc:60-70 [gcd(int, int)].  [fuel] bounds the number of loop tests; the
    theorems show that 70 is enough for all ints. *)
Definition gcd_int (n m : Z) : outcome Z := gcd_loop 70 n m m.

(** src/util.cc:82-88 [lcm(const std::vector<Number>&)]: fold of GiNaC's binary
    lcm from the last element down to the first, starting from 1. *)
Definition lcm_vec (v : list Z) : Z := fold_left Z.lcm (rev v) 1.

(** src/util.cc:111-114 and 121-124: the loops [while (mod(m, i) == 0) { m /= i; ++k; }].
    Returns the final [m] and [k]. *)
Fixpoint divide_out (fuel : nat) (m i k : Z) : option (Z * Z) :=
  match fuel with
  | O => None
  | S f => if m mod i =? 0 then divide_out f (m / i) i (k + 1) else Some (m, k)
  end.

(** FACTOR_THRESHOLD, src/util.cc:44-45. *)
Definition FACTOR_THRESHOLD : Z := 100.

(** Enough iterations for [divide_out]: one more than the binary length of m. *)
Definition div_fuel (m : Z) : nat := S (S (Z.to_nat (Z.log2 m))).

Definition vecs := (list Z * list Z)%type.
Definition push (v : vecs) (b k : Z) : vecs := (fst v ++ [b], snd v ++ [k]).

(** src/util.cc:119-130: the loop over odd [i]; returns the final [m] and vectors. *)
Fixpoint odd_loop (fuel : nat) (i m : Z) (v : vecs) : option (Z * vecs) :=
  match fuel with
  | O => None
  | S f =>
      if (i <? FACTOR_THRESHOLD) && (i * i <=? m) then
        match divide_out (div_fuel m) m i 0 with
        | None => None
        | Some (m', k) =>
            odd_loop f (i + 2) m' (if 0 <? k then push v i k else v)
        end
      else Some (m, v)
  end.

(** src/util.cc:104-139 [partial_factor].  [n = 0] violates the assertion at line 110
    (and loops forever when assertions are disabled): [Undef]. [v] holds the
    vectors passed by reference. *)
Definition partial_factor (n : Z) (v : vecs) : outcome vecs :=
  let m := Z.abs n in
  if m =? 0 then Undef
  else match divide_out (div_fuel m) m 2 0 with
       | None => OutOfFuel
       | Some (m1, k) =>
           let v1 := if 0 <? k then push v 2 k else v in
           match odd_loop 60 3 m1 v1 with
           | None => OutOfFuel
           | Some (m2, v2) =>
               let v3 := if 1 <? m2 then push v2 m2 1 else v2 in
               let v4 := if (m2 =? 1) && (Z.of_nat (length (fst v3)) =? 0)
                         then push v3 1 1 else v3 in
               Ret v4
           end
       end.

(** FIND_DIVISORS_MAX and FIND_DIVISORS_THRESHOLD, src/util.cc:47-50. *)
Definition FIND_DIVISORS_MAX : Z := 11.
Definition FIND_DIVISORS_THRESHOLD : Z := FIND_DIVISORS_MAX * FIND_DIVISORS_MAX.

(** src/util.cc:161-169: [for (i = 1, j = m; i < FIND_DIVISORS_MAX && i < j; ++i)]. *)
Fixpoint div_loop (fuel : nat) (m i j : Z) (ds : list Z) : option (list Z) :=
  match fuel with
  | O => None
  | S f =>
      if (i <? FIND_DIVISORS_MAX) && (i <? j) then
        let j' := m / i in
        let r := m mod i in
        let ds' := if r =? 0 then
                     if i <? j' then (ds ++ [i]) ++ [j'] else ds ++ [i]
                   else ds in
        div_loop f m (i + 1) j' ds'
      else Some ds
  end.

(** src/util.cc:151-173 [find_divisors]: returned Boolean and new vector. *)
Definition find_divisors (n : Z) (ds : list Z) : outcome (bool * list Z) :=
  if n <=? 0 then Undef                      (* assertion at line 153 *)
  else if n <? FIND_DIVISORS_THRESHOLD then
    if n =? 1 then Ret (true, ds ++ [1])
    else match div_loop 12 n 1 n ds with
         | Some ds' => Ret (true, ds')
         | None => OutOfFuel
         end
  else Ret (false, ds).
