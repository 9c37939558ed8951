(** Model of the factorisation of polynomials with integer coefficients (src/poly_factor.cc), which
    calls NTL.  Polynomials are the lists of their coefficients, lowest degree first. *)
From Coq Require Import ZArith List Bool Lia.
Import ListNotations.
Local Open Scope Z_scope.

Section Model.
(** [bs] = sizeof(unsigned long); [shl v k] is v << k for a non-negative v of type int, [None] when undefined. *)
Context (bs : nat) (shl : Z -> Z -> option Z).
Definition ulong : Z := 256 ^ Z.of_nat bs.
Definition long_max : Z := ulong / 2 - 1.
Definition long_min : Z := - (ulong / 2).
Definition in_long (z : Z) : bool := (long_min <=? z) && (z <=? long_max).
(** unsigned long to long. *)
Definition to_signed (r : Z) : Z := let r := r mod ulong in if r <=? long_max then r else r - ulong.
(** NTL's BytesFromZZ: the bytes of the absolute value. *)
Definition byte (z : Z) (i : nat) : Z := (Z.abs z / 256 ^ Z.of_nat i) mod 256.
(** poly_factor.cc:46-47: the loop, for i = k-1, ..., 0. *)
Fixpoint bytes_loop (z : Z) (k : nat) (r : Z) : option Z :=
  match k with
  | O => Some r
  | S k => match shl (byte z k) (Z.of_nat k * 8) with Some v => bytes_loop z k ((r + v) mod ulong) | None => None end
  end.
(** poly_factor.cc:40-49 ZZ_to_long; [None]: the assertion fails, or the behaviour is undefined. *)
Definition ZZ_to_long (z : Z) : option Z :=
  if in_long z then
    match bytes_loop z (bs - 1) 0 with Some r => Some (to_signed (if z <? 0 then - r else r)) | None => None end
  else None.

(** NTL's factor: the content with its sign, and the factors with their multiplicities. *)
Context (factor : list Z -> Z * list (list Z * nat)).
Fixpoint convert (l : list Z) : option (list Z) :=
  match l with
  | [] => Some []
  | a :: l => match ZZ_to_long a, convert l with Some a, Some l => Some (a :: l) | _, _ => None end
  end.
(** poly_factor.cc:74-89: the loop over the factors (an assertion on the multiplicity, one on the degree). *)
Fixpoint convert_all (fs : list (list Z * nat)) : option (list (list Z)) :=
  match fs with
  | [] => Some []
  | (f, m) :: fs =>
    if (m =? 1)%nat && (1 <? length f)%nat then match convert f, convert_all fs with Some f, Some l => Some (f :: l) | _, _ => None end
    else None
  end.
(** poly_factor.cc:54-91 poly_factor: the number returned and the vector of factors; [None]: a failed assertion or undefined behaviour. *)
Definition poly_factor (p : list Z) : option (nat * list (list Z)) :=
  if forallb in_long p then
    let '(c, fs) := factor p in
    if (length fs =? 1)%nat then Some (1%nat, []) else option_map (fun l => (length fs, l)) (convert_all fs)
  else Some (1%nat, []).
End Model.

(** v << k for v of type int (32 bits) and v >= 0: defined for k < 32, the result wraps; [x86] takes k modulo 32. *)
Definition wrap32 (v : Z) : Z := let v := v mod 2 ^ 32 in if v <? 2 ^ 31 then v else v - 2 ^ 32.
Definition shl_standard (v k : Z) : option Z := if k <? 32 then Some (wrap32 (v * 2 ^ k)) else None.
Definition shl_x86 (v k : Z) : option Z := Some (wrap32 (v * 2 ^ (k mod 32))).
