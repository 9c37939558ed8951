(** Model of the handling of numbers in src/simplify.cc (roots of rational numbers, perfect
    powers) and src/poly_factor.cc (conversion of big integers). *)
From Coq Require Import ZArith QArith Qcanon List Bool.
From Verif Require Import IntUtilModel.
Import ListNotations.
Local Open Scope Z_scope.

(** Results of the shape  i^sgn * snum / sden * irr^(1/idx). *)
Record stdform := MkStd { sgn : nat; snum : Z; sden : Z; irr : Z; idx : Z }.

(** simplify.cc:524-544 to_std_form: the returned number and the new exponents.
    Exponents are unbounded here (int in the code). *)
Fixpoint to_std_form (k : Z) (bases exponents : list Z) : Z * list Z :=
  match bases, exponents with
  | b :: bases, e :: exponents =>
    let (m, es) := to_std_form k bases exponents in
    let r := Z.rem e (Z.abs k) in
    let q := Z.quot e (Z.abs k) in
    let '(q, r) := if (k <? 0) && negb (r =? 0) then (q + 1, Z.abs k - r) else (q, r) in
    (m * b ^ q, r :: es)
  | _, _ => (1, [])
  end.
(** simplify.cc:639-642: gcd of the root index and the exponents, given up when it is 1.
    Z.gcd stands for gcd(int,int), see C02. *)
Definition gcd_exponents (gc : Z) (es : list Z) : Z := fold_left (fun g e => if 1 <? g then Z.gcd g e else g) es gc.
(** simplify.cc:655-658: the irrational part. *)
Fixpoint prod_powers (bases exponents : list Z) : Z :=
  match bases, exponents with b :: bs, e :: es => b ^ e * prod_powers bs es | _, _ => 1 end.

(** simplify.cc:591-664 reduce_to_standard_form, for rational numbers [r]. *)
Definition reduce_to_standard_form (root_index : Z) (r : Qc) : outcome stdform :=
  let k := root_index in
  if k =? 0 then Undef                                   (* assertion *)
  else if Qnum (this r) =? 0 then if k <? 0 then Undef else Ret (MkStd 0 0 1 1 1)
  else
    let num := Qnum (this r) in
    let den := Z.pos (Qden (this r)) in
    let negative := num <? 0 in
    let sign := if negative then (if Z.even k then (if 0 <? k then 1%nat else 3%nat) else 2%nat) else 0%nat in
    let '(num, den, k) := if k <? 0 then (den, num, - k) else (num, den, k) in
    if k =? 1 then Ret (MkStd sign num den 1 1)
    else
      match partial_factor num ([], []), partial_factor den ([], []) with
      | Ret (nb, ne), Ret (db, de) =>
        let (rn, ne) := to_std_form k nb ne in
        let (rd, de) := to_std_form (- k) db de in
        let gc := gcd_exponents (gcd_exponents k ne) de in
        let '(k, ne, de) := if 1 <? gc then (k / gc, map (fun e => e / gc) ne, map (fun e => e / gc) de) else (k, ne, de) in
        let p := prod_powers nb ne * prod_powers db de in
        Ret (if 1 <? p then MkStd sign rn rd p k else MkStd sign rn rd 1 1)
      | _, _ => Undef
      end.

(** exact_pwr for an integer exponent. *)
Definition qpow (b : Qc) (z : Z) : Qc := if z <? 0 then (/ (b ^ Z.to_nat (- z)))%Qc else (b ^ Z.to_nat z)%Qc.
(** simplify.cc:683-717 red_prod for rational bases and exponents. *)
Definition red_prod (base1 exp1 base2 exp2 : Qc) : outcome stdform :=
  if (Qnum (this exp1) =? 0) || (Qnum (this exp2) =? 0) then Undef   (* assertions *)
  else
    let split e := let n := Qnum (this e) in let d := Z.pos (Qden (this e)) in if 0 <? n then (n, d) else (- n, - d) in
    let (n1, d1) := split exp1 in
    let (n2, d2) := split exp2 in
    let base_1 := qpow base1 n1 in
    let base_2 := qpow base2 n2 in
    let g := Z.gcd d1 d2 in
    let k := d1 * d2 / g in
    reduce_to_standard_form k (qpow base_1 (d2 / g) * qpow base_2 (d1 / g))%Qc.

(** simplify.cc:1331-1356 is_perfect_power: [None] when the fuel does not suffice, otherwise
    the answer and the exponent. [dir] is 1 in the first loop, -1 in the second. *)
Definition Qc_lt (a b : Qc) : bool := match Qccompare a b with Lt => true | _ => false end.
Definition Qc_eq (a b : Qc) : bool := match Qccompare a b with Eq => true | _ => false end.
Fixpoint power_loop (fuel : nat) (c a : Qc) (dir i : Z) : option (option Z) :=
  match fuel with
  | O => None
  | S fuel =>
    let p := qpow a i in
    if Qc_eq p c then Some (Some i)
    else if Qc_lt 1 a && (if 0 <? dir then Qc_lt c p else Qc_lt p c) then Some None
    else if Qc_lt a 1 && (if 0 <? dir then Qc_lt p c else Qc_lt c p) then Some None
    else power_loop fuel c a dir (i + dir)
  end.
Definition is_perfect_power (fuel : nat) (c a : Qc) : option (option Z) :=
  if Qc_eq a 1 && negb (Qc_eq c 1) then Some None
  else match power_loop fuel c a 1 1 with
       | None => None
       | Some (Some b) => Some (Some b)
       | Some None => power_loop fuel c a (-1) (-1)
       end.

(** poly_factor.cc:40-50 ZZ_to_long with 8-byte long and 4-byte int. BytesFromZZ gives the
    little-endian bytes of the absolute value. In  b[i] << (i*8)  the byte is promoted to int:
    in the language the shift is undefined for i*8 >= 32; [shl32] is what x86 does (the count is
    taken modulo 32, the result is a signed 32-bit number, which is then sign-extended). *)
Definition byte (z : Z) (i : Z) : Z := (Z.abs z / 2 ^ (8 * i)) mod 256.
Definition wrap (w x : Z) : Z := let m := x mod 2 ^ w in if m <? 2 ^ (w - 1) then m else m - 2 ^ w.
Definition shl_strict (b count : Z) : outcome Z := if (32 <=? count) || (INT_MAX <? b * 2 ^ count) then Undef else Ret (b * 2 ^ count).
Definition shl32 (b count : Z) : outcome Z := Ret (wrap 32 (b * 2 ^ (count mod 32))).
Fixpoint zz_loop (shl : Z -> Z -> outcome Z) (z : Z) (i : nat) (r : Z) : outcome Z :=
  match i with
  | O => Ret r
  | S i => match shl (byte z (Z.of_nat i)) (Z.of_nat i * 8) with
           | Ret s => zz_loop shl z i ((r + s) mod 2 ^ 64)
           | Undef => Undef
           | OutOfFuel => OutOfFuel
           end
  end.
Definition ZZ_to_long (shl : Z -> Z -> outcome Z) (z : Z) : outcome Z :=
  match zz_loop shl z 7 0 with
  | Ret r => Ret (wrap 64 (if z <? 0 then - r else r))
  | o => o
  end.
