(** Model of the direct solution of equations of degree 2, 3, 4 (src/alg_eq_solver.cc).
    Expressions are represented by their values: real numbers for [Number] (which holds rationals
    there), complex numbers for [Expr]; the calls to [simplify_ex_for_output] are to preserve
    values and are omitted. *)
From Coq Require Import Reals Bool.
From Coquelicot Require Import Complex.
From Verif Require Import CplxF.

(** The principal value of z^(1/n), what GiNaC's power(z, 1/n) denotes; sqrt and cubic_root
    (src/Expr.inlines.hh:602-605, src/util.cc:90-93) are the cases n = 2 and n = 3. *)
Definition carg (z : C) : R :=
  if Rle_dec 0 (snd z) then acos (fst z / Cmod z) else (- acos (fst z / Cmod z))%R.
Definition rroot (n : nat) (r : R) : R := if Req_EM_T r 0 then 0%R else Rpower r (/ INR n).
Definition proot (n : nat) (z : C) : C :=
  (rroot n (Cmod z) * cos (carg z / INR n), rroot n (Cmod z) * sin (carg z / INR n))%R.

Definition Rlt_b (a b : R) : bool := if Rlt_dec a b then true else false.

Local Open Scope C_scope.

(** alg_eq_solver.cc:68-80: x^2 + b x + c = 0. *)
Definition solve_equation_2 (b c : C) : C * C :=
  let sqrt_d := proot 2 (b * b - RtoC 4 * c) in
  ((- b + sqrt_d) / RtoC 2, (- b - sqrt_d) / RtoC 2).

(** alg_eq_solver.cc:96-165: x^3 + a1 x^2 + a2 x + a3 = 0; the three values and the returned flag. *)
Definition solve_equation_3 (a1 a2 a3 : R) : C * C * C * bool :=
  let Q := ((3 * a2 - a1 * a1) / 9)%R in
  let R' := ((9 * a1 * a2 - 27 * a3 - 2 * a1 * a1 * a1) / 54)%R in
  let d := (Q * Q * Q + R' * R')%R in
  let a1_div_3 := (a1 / 3)%R in
  let res :=
    if Rlt_b d 0 then
      let sqrt_minus_Q := sqrt (- Q) in
      let theta := acos (- R' / (Q * sqrt_minus_Q)) in
      (RtoC (- a1_div_3 + 2 * sqrt_minus_Q * cos (theta / 3)),
       RtoC (- a1_div_3 + 2 * sqrt_minus_Q * cos ((theta + 2 * PI) / 3)),
       RtoC (- a1_div_3 + 2 * sqrt_minus_Q * cos ((theta + 4 * PI) / 3)))
    else
      let sqrt_d := proot 2 (RtoC d) in
      let A := RtoC R' + sqrt_d in
      let B := RtoC R' - sqrt_d in
      let '(S', T') :=
        if negb (Rlt_b Q 0) then (proot 3 A, - proot 3 (- B))
        else if Rlt_b R' 0 then (- proot 3 (- A), - proot 3 (- B))
        else (proot 3 A, proot 3 B) in
      let S_plus_T := S' + T' in
      let t1 := - S_plus_T / RtoC 2 - RtoC a1_div_3 in
      let t2 := (S' - T') * Ci * proot 2 (RtoC 3) / RtoC 2 in
      (S_plus_T - RtoC a1_div_3, t1 + t2, t1 - t2) in
  (res, negb (Rlt_b 0 d)).

(** alg_eq_solver.cc:168-226: x^4 + a1 x^3 + a2 x^2 + a3 x + a4 = 0; [None] when the assertion at
    line 189 fails. *)
Definition solve_equation_4 (a1 a2 a3 a4 : R) : option (C * C * C * C) :=
  let f := (a2 - 3 * a1 * a1 * 1 / 8)%R in
  let g := (a3 + a1 * a1 * a1 / 8 - a1 * a2 / 2)%R in
  let h := (a4 - 3 * a1 * a1 * a1 * a1 / 256 + a1 * a1 * a2 / 16 - a1 * a3 / 4)%R in
  let y :=
    if Req_EM_T g 0 then
      let '(y1, y2) := solve_equation_2 (RtoC (f / 2)) (RtoC ((f * f - 4 * h) / 16)) in
      if Ceqb y1 (RtoC 0) || Ceqb y2 (RtoC 0) then None else Some (y1, y2)
    else let '(y1, y2, _, _) := solve_equation_3 (f / 2) ((f * f - 4 * h) / 16) (- g * g / 64) in Some (y1, y2) in
  match y with
  | None => None
  | Some (y1, y2) =>
    let p := proot 2 y1 in
    let q := proot 2 y2 in
    let r := - RtoC g / (RtoC 8 * p * q) in
    let s := RtoC a1 / RtoC 4 in
    Some (p + q + r - s, p - q - r - s, - p + q - r - s, - p - q + r - s)
  end.
