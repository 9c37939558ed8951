(** Model of the interval library of the source tree (src/Intervals: Boundary.{defs,inlines}.hh, Interval.{defs,inlines}.hh,
    Interval.cc), as it is compiled by default: IEEE_NUMBERS is not defined (with it Boundary.inlines.hh:184 and :195 lack a
    semicolon), so infinite boundaries stand for "unbounded" and are open.

    Floating point numbers: [Fin s q] is a finite number of value q; s is its sign bit, which is looked at for q = 0 only.
    The arithmetic unit is a parameter [arith]: what an operation whose exact result is q gives when the rounding mode is the
    one of lower boundaries, or the one of upper boundaries, and whether the boundary is made open because of that
    (USE_DIRECTED_ROUNDING, CHECK_INEXACT_RESULT, IE_*: Boundary.inlines.hh:37-165). round_save and round_restore are
    not modelled: no operation of an interval is called with a rounding mode set by another one. *)
From Coq Require Import ZArith QArith Qcanon Qround List Bool.
From Verif Require Import Bool3Model Ast.
Local Open Scope bool_scope.

(** Boundary::Value (Boundary.defs.hh:53-58). *)
Inductive val := NaN | Inf (negative : bool) | Fin (negative : bool) (q : Qc).

Definition qlt (p q : Qc) : bool := match (p ?= q)%Qc with Lt => true | _ => false end.
Definition qeq (p q : Qc) : bool := match (p ?= q)%Qc with Eq => true | _ => false end.
Definition qfloor (q : Qc) : Qc := zq (Qfloor (this q)).
Definition qceil (q : Qc) : Qc := zq (Qceiling (this q)).

(** The comparisons of IEEE 754: false when an argument is a NaN; the sign of a zero does not count. *)
Definition vlt (x y : val) : bool :=
  match x, y with
  | Fin _ p, Fin _ q => qlt p q
  | Inf true, Inf false | Inf true, Fin _ _ | Fin _ _, Inf false => true
  | _, _ => false
  end.
Definition veq (x y : val) : bool :=
  match x, y with
  | Fin _ p, Fin _ q => qeq p q
  | Inf a, Inf b => Bool.eqb a b
  | _, _ => false
  end.
Definition vgt (x y : val) : bool := vlt y x.
Definition vle (x y : val) : bool := vlt x y || veq x y.
(** A constant of the program. *)
Definition num (z : Z) : val := Fin (Z.ltb z 0) (zq z).
Definition vzero (x : val) : bool := veq x (num 0).
Definition sign (x : val) : bool :=
  match x with NaN => false | Inf s => s | Fin s q => if qeq q 0%Qc then s else qlt q 0%Qc end.

(** The functions of <cmath> used on boundaries. *)
Inductive func := Exp | Log | Sqrt | Sin | Cos | Tan.

(** [rnd up q]: the rounded value of an exact result q, and whether a closed boundary becomes open. [fn f up v]: the same for
    the functions. [fract]: BOUNDARY_MAX_FRACT, [odd]: BOUNDARY_MAX_ODD (IEEE754.h:59-63). *)
Record arith := mkArith {
  rnd : bool -> Qc -> val * bool;
  fn : func -> bool -> val -> val * bool;
  fract : Qc;
  odd : Qc }.

Definition with_zero (s : bool) (r : val * bool) : val * bool :=
  match r with (Fin _ q, b) => (Fin (if qeq q 0%Qc then s else qlt q 0%Qc) q, b) | _ => r end.

(** IEEE 754 arithmetic: special values, signs of zeros; a sum that is exactly zero is -0 when rounding down. *)
Definition vneg (x : val) : val := match x with NaN => NaN | Inf s => Inf (negb s) | Fin s q => Fin (negb s) (- q)%Qc end.
Definition vadd (A : arith) (up : bool) (x y : val) : val * bool :=
  match x, y with
  | NaN, _ | _, NaN => (NaN, false)
  | Inf a, Inf b => if Bool.eqb a b then (Inf a, false) else (NaN, false)
  | Inf a, _ | _, Inf a => (Inf a, false)
  | Fin s p, Fin t q =>
      with_zero (if vzero x && vzero y && Bool.eqb s t then s else if qeq (p + q)%Qc 0%Qc then negb up else qlt (p + q)%Qc 0%Qc) (rnd A up (p + q)%Qc)
  end.
Definition vsub (A : arith) (up : bool) (x y : val) : val * bool := vadd A up x (vneg y).
Definition vmul (A : arith) (up : bool) (x y : val) : val * bool :=
  match x, y with
  | NaN, _ | _, NaN => (NaN, false)
  | Fin _ p, Fin _ q => with_zero (xorb (sign x) (sign y)) (rnd A up (p * q)%Qc)
  | _, _ => if vzero x || vzero y then (NaN, false) else (Inf (xorb (sign x) (sign y)), false)
  end.
Definition vdiv (A : arith) (up : bool) (x y : val) : val * bool :=
  match x, y with
  | NaN, _ | _, NaN => (NaN, false)
  | Inf _, Inf _ => (NaN, false)
  | Inf _, Fin _ _ => (Inf (xorb (sign x) (sign y)), false)
  | Fin _ _, Inf _ => (Fin (xorb (sign x) (sign y)) 0%Qc, false)
  | Fin _ p, Fin _ q =>
      if qeq q 0%Qc then if qeq p 0%Qc then (NaN, false) else (Inf (xorb (sign x) (sign y)), false)
      else with_zero (xorb (sign x) (sign y)) (rnd A up (p / q)%Qc)
  end.

(** Boundary.defs.hh:61-62. Lower boundaries are closed (ZERO) or open (POS), upper ones closed (ZERO) or open (NEG). *)
Inductive flag := NEG | ZERO | POS.
Definition flag_z (f : flag) : Z := match f with NEG => -1 | ZERO => 0 | POS => 1 end.
(** Boundary.defs.hh:76-78. One record for the classes Boundary, LBoundary and UBoundary: the class decides which overload is
    called, and the models of the overloads have different names. *)
Record bnd := mkB { bv : val; bf : flag }.

(** Boundary.inlines.hh:236-239 is_closed; 242-245, 288-291 set_openclosed, [up]: UBoundary. *)
Definition is_closed (b : bnd) : bool := match bf b with ZERO => true | _ => false end.
Definition oc (up closed : bool) : flag := if closed then ZERO else if up then NEG else POS.
Definition set_oc (up : bool) (b : bnd) (closed : bool) : bnd := mkB (bv b) (oc up closed).
(** Boundary.inlines.hh:180-199 set_min, set_max; 201-209 is_min, is_max. *)
Definition b_min : bnd := mkB (Inf true) POS.
Definition b_max : bnd := mkB (Inf false) NEG.
Definition is_min (b : bnd) : bool := veq (bv b) (Inf true).
Definition is_max (b : bnd) : bool := veq (bv b) (Inf false).

(** v < -BOUNDARY_MAX_FRACT || v > BOUNDARY_MAX_FRACT *)
Definition big (A : arith) (v : val) : bool := vlt v (Fin true (- fract A)%Qc) || vgt v (Fin false (fract A)).
Definition in_fract (A : arith) (v : val) : bool := vle (Fin true (- fract A)%Qc) v && vle v (Fin false (fract A)).
Definition vfloor (v : val) : val := match v with Fin s q => Fin s (qfloor q) | _ => v end.
Definition vceil (v : val) : val := match v with Fin s q => Fin s (qceil q) | _ => v end.
(** Boundary.inlines.hh:211-221 my_floor, my_ceil; 223-233 is_integer. *)
Definition my_floor (A : arith) (v : val) : val := if big A v then v else vfloor v.
Definition my_ceil (A : arith) (v : val) : val := if big A v then v else vceil v.
Definition is_integer (A : arith) (v : val) : bool :=
  negb (veq v (Inf true)) && negb (veq v (Inf false)) && (big A v || veq v (vfloor v)).

(** The sum of an integer of absolute value at most fract + 1/2 and 1 or -1 is exact. *)
Definition vplus (v : val) (z : Z) : val := match v with Fin s q => Fin (qlt (q + zq z)%Qc 0%Qc) (q + zq z)%Qc | _ => v end.
(** Boundary.inlines.hh:294-306 LBoundary::ceil_assign; 309-316 LBoundary::floor_assign. *)
Definition l_ceil (A : arith) (b : bnd) : bnd :=
  if negb (is_min b) && in_fract A (bv b) then
    if is_closed b then mkB (vceil (bv b)) (bf b) else mkB (vplus (vfloor (bv b)) 1) ZERO
  else b.
Definition l_floor (A : arith) (b : bnd) : bnd := if negb (is_min b) then mkB (my_floor A (bv b)) ZERO else b.
(** Boundary.inlines.hh:399-411 UBoundary::floor_assign; 600-607 UBoundary::ceil_assign. *)
Definition u_floor (A : arith) (b : bnd) : bnd :=
  if negb (is_max b) && in_fract A (bv b) then
    if is_closed b then mkB (vfloor (bv b)) (bf b) else mkB (vplus (vceil (bv b)) (-1)) ZERO
  else b.
Definition u_ceil (A : arith) (b : bnd) : bnd := if negb (is_max b) then mkB (my_ceil A (bv b)) ZERO else b.

(** Boundary.inlines.hh:319-323, 414-418 set (a boundary of the other class); 325-329, 420-424 set (a value). *)
Definition b_set (up : bool) (b : bnd) : bnd := mkB (bv b) (oc up (is_closed b)).
Definition b_value (v : val) : bnd := mkB v ZERO.

(** Boundary.inlines.hh:341-356 LBoundary::set_gt; 436-451 UBoundary::set_lt. b+1.0f and b-1.0f are exact for the values of b
    the callers give. *)
Definition set_gt (A : arith) (x : bnd) (b : val) (integer : bool) : bnd :=
  if integer && negb (veq b (Inf true)) then
    if vlt (bv x) (Fin true (- odd A - 1)%Qc) || vgt (bv x) (Fin false (odd A)) then x
    else mkB (if veq (bv x) (Fin false (fract A)) then vceil (bv x) else vfloor (vplus b 1)) ZERO
  else mkB b POS.
Definition set_lt (A : arith) (x : bnd) (b : val) (integer : bool) : bnd :=
  if integer && negb (veq b (Inf false)) then
    if vlt (bv x) (Fin true (- odd A)%Qc) || vgt (bv x) (Fin false (odd A + 1)%Qc) then x
    else mkB (if veq (bv x) (Fin true (- fract A)%Qc) then vfloor (bv x) else my_ceil A (vplus b (-1))) ZERO
  else mkB b NEG.

(** Boundary.inlines.hh:466-482, 491-495, 504-507, 516-519: == < > <= >= on boundaries. *)
Definition b_eq (x y : bnd) : bool := veq (bv x) (bv y) && Z.eqb (flag_z (bf x)) (flag_z (bf y)).
Definition b_lt (x y : bnd) : bool := vlt (bv x) (bv y) || veq (bv x) (bv y) && Z.ltb (flag_z (bf x)) (flag_z (bf y)).
Definition b_gt (x y : bnd) : bool := vgt (bv x) (bv y) || veq (bv x) (bv y) && Z.gtb (flag_z (bf x)) (flag_z (bf y)).
Definition b_le (x y : bnd) : bool := negb (b_gt x y).
Definition b_ge (x y : bnd) : bool := negb (b_lt x y).
(** Boundary.inlines.hh:485-488 LBoundary < UBoundary; 498-501, 510-513 UBoundary <= LBoundary: only the values count. *)
Definition lu_lt (x y : bnd) : bool := vlt (bv x) (bv y).
Definition ul_le (x y : bnd) : bool := negb (vgt (bv x) (bv y)).
(** Boundary.inlines.hh:540-587: comparisons of a boundary and a value; those of the classes LBoundary (<, >=) and UBoundary
    (>, <=) look at the values only. *)
Definition bv_lt (x : bnd) (y : val) : bool := vlt (bv x) y || veq (bv x) y && Z.ltb (flag_z (bf x)) 0.
Definition bv_gt (x : bnd) (y : val) : bool := vgt (bv x) y || veq (bv x) y && Z.gtb (flag_z (bf x)) 0.
Definition bv_le (x : bnd) (y : val) : bool := negb (bv_gt x y).
Definition bv_ge (x : bnd) (y : val) : bool := negb (bv_lt x y).
Definition lv_lt (x : bnd) (y : val) : bool := vlt (bv x) y.
Definition lv_ge (x : bnd) (y : val) : bool := negb (vlt (bv x) y).
Definition uv_gt (x : bnd) (y : val) : bool := vgt (bv x) y.
Definition uv_le (x : bnd) (y : val) : bool := negb (vgt (bv x) y).

(** Boundary.inlines.hh:590-597 LBoundary::integer_assign; 610-617 UBoundary::integer_assign; 621-631 negate. *)
Definition l_integer (A : arith) (b : bnd) : bnd := if lv_ge b (num 0) then l_floor A b else l_ceil A b.
Definition u_integer (A : arith) (b : bnd) : bnd := if uv_gt b (num 0) then u_floor A b else u_ceil A b.
Definition b_negate (b : bnd) : bnd := mkB (vneg (bv b)) (bf b).

(** COMPUTE_DR_IE and its simpler variants (Boundary.inlines.hh:37-63): store the result, and make the boundary open if it was
    closed and the unit says so. *)
Definition compute (up : bool) (b : bnd) (r : val * bool) : bnd :=
  mkB (fst r) (if is_closed b && snd r then oc up false else bf b).
(** "if (is_closed()) set_openclosed(x.is_closed()?CLOSED:OPEN)" *)
Definition meet (up : bool) (b x : bnd) : bnd := if is_closed b then set_oc up b (is_closed x) else b.
(** Boundary.inlines.hh:634-703, 705-774: += -= *= /= with a value and with a boundary; [up]: those of UBoundary. *)
Definition add_v (A : arith) (up : bool) (b : bnd) (x : val) : bnd := compute up b (vadd A up (bv b) x).
Definition add_b (A : arith) (up : bool) (b x : bnd) : bnd := meet up (compute up b (vadd A up (bv b) (bv x))) x.
Definition sub_v (A : arith) (up : bool) (b : bnd) (x : val) : bnd := compute up b (vsub A up (bv b) x).
Definition sub_b (A : arith) (up : bool) (b x : bnd) : bnd := meet up (compute up b (vsub A up (bv b) (bv x))) x.
Definition mul_v (A : arith) (up : bool) (b : bnd) (x : val) : bnd :=
  if vzero x then mkB (num 0) ZERO
  else if vzero (bv b) then b else compute up b (vmul A up (bv b) x).
Definition mul_b (A : arith) (up : bool) (b x : bnd) : bnd :=
  if vzero (bv x) then mkB (num 0) (if is_closed x then ZERO else bf b)
  else if vzero (bv b) then b else meet up (compute up b (vmul A up (bv b) (bv x))) x.
Definition div_v (A : arith) (up : bool) (b : bnd) (x : val) : bnd :=
  if vzero (bv b) then b else compute up b (vdiv A up (bv b) x).
Definition div_b (A : arith) (up : bool) (b x : bnd) : bnd :=
  if vzero (bv b) then b else meet up (compute up b (vdiv A up (bv b) (bv x))) x.
(** Boundary.inlines.hh:777-847: exp_assign, log_assign, sqrt_assign, sin_assign, cos_assign, tan_assign. *)
Definition b_fn (A : arith) (f : func) (up : bool) (b : bnd) : bnd := compute up b (fn A f up (bv b)).

(** Interval.defs.hh:57, 166-168. *)
Inductive ty := REAL | INTEGER.
Record ivl := mkI { lo : bnd; up : bnd; fl : ty }.
Definition is_int (t : ty) : bool := match t with INTEGER => true | REAL => false end.

(** Interval.inlines.hh:34-39 set_empty; 42-45 is_empty; 75-80 set_full; 83-89 ok; 92-95 is_one_point; 203-206 is_full. *)
Definition i_empty : ivl := mkI b_max b_min INTEGER.
Definition is_empty (x : ivl) : bool := b_gt (lo x) (up x).
Definition i_full (t : ty) : ivl := mkI b_min b_max t.
Definition ok (x : ivl) : bool := b_le (lo x) (up x) || is_max (lo x) && is_min (up x).
Definition is_one_point (x : ivl) : bool := b_eq (lo x) (up x).
Definition is_full (x : ivl) (t : ty) : bool := is_min (lo x) && is_max (up x) && Bool.eqb (is_int (fl x)) (is_int t).
(** Interval.inlines.hh:99-102 set_maybe_real; 105-112 set_integer. *)
Definition set_maybe_real (A : arith) (x : ivl) : ivl :=
  mkI (lo x) (up x) (if is_one_point x && is_integer A (bv (lo x)) then INTEGER else REAL).
Definition set_integer (A : arith) (x : ivl) : ivl :=
  let l := l_ceil A (lo x) in
  let u := u_floor A (up x) in
  if b_gt l u then i_empty else mkI l u INTEGER.
(** "if (flag != INTEGER || ...) set_maybe_real(); else set_integer();" *)
Definition set_type (A : arith) (integer : bool) (x : ivl) : ivl := if integer then set_integer A x else set_maybe_real A x.

(** Interval.inlines.hh:114-117 Interval(); 121-126 Interval(Boundary::Value); 168-178 Interval(LBoundary, UBoundary, Type). *)
Definition i_default : ivl := i_full REAL.
Definition i_point (A : arith) (v : val) : ivl := mkI (b_value v) (b_value v) (if is_integer A v then INTEGER else REAL).
Definition i_make (A : arith) (l u : bnd) (t : ty) : ivl := set_type A (is_int t) (mkI l u REAL).

(** Interval.inlines.hh:209-220 subset; 229-237 subset_eq; 246-250 ==. *)
Definition subset (x y : ivl) : bool :=
  match fl x, fl y with
  | REAL, INTEGER => false
  | INTEGER, REAL => b_le (up x) (up y) && b_ge (lo x) (lo y)
  | _, _ => b_lt (up x) (up y) && b_ge (lo x) (lo y) || b_le (up x) (up y) && b_gt (lo x) (lo y)
  end.
Definition subset_eq (x y : ivl) : bool :=
  match fl x, fl y with
  | REAL, INTEGER => false
  | _, _ => b_le (up x) (up y) && b_ge (lo x) (lo y)
  end.
Definition i_eq (x y : ivl) : bool := b_eq (lo x) (lo y) && b_eq (up x) (up y) && Bool.eqb (is_int (fl x)) (is_int (fl y)).
(** Interval.inlines.hh:262-297 lt, gt, le, ge, eq, ne. *)
Definition lt (x y : ivl) : bool := b_lt (up x) (lo y).
Definition gt (x y : ivl) : bool := lt y x.
Definition le (x y : ivl) : bool := ul_le (up x) (lo y).
Definition ge (x y : ivl) : bool := le y x.
Definition eq (x y : ivl) : bool := le x y && ge x y.
Definition ne (x y : ivl) : bool := lt x y || gt x y.
(** Interval.inlines.hh:301-341: the same with a value. *)
Definition ltv (x : ivl) (y : val) : bool := bv_lt (up x) y.
Definition gtv (x : ivl) (y : val) : bool := bv_gt (lo x) y.
Definition lev (x : ivl) (y : val) : bool := uv_le (up x) y.
Definition gev (x : ivl) (y : val) : bool := lv_ge (lo x) y.
Definition eqv (x : ivl) (y : val) : bool := lev x y && gev x y.
Definition nev (x : ivl) (y : val) : bool := ltv x y || gtv x y.
(** Interval.inlines.hh:385-413 (intervals; 416-444 are the same with a value); Bool3 is modelled in Bool3Model. *)
Definition tri3 (a n : bool) : bool3 := if a then ALWAYS else if n then NEVER else MAYBE.
Definition lt3 (x y : ivl) : bool3 := tri3 (lt x y) (ge x y).
Definition gt3 (x y : ivl) : bool3 := tri3 (gt x y) (le x y).
Definition le3 (x y : ivl) : bool3 := tri3 (le x y) (gt x y).
Definition ge3 (x y : ivl) : bool3 := tri3 (ge x y) (lt x y).
Definition eq3 (x y : ivl) : bool3 := tri3 (eq x y) (ne x y).
Definition ne3 (x y : ivl) : bool3 := tri3 (ne x y) (eq x y).
(** Interval.inlines.hh:373-381 lcompare. *)
Definition lcompare (x y : ivl) : Z :=
  if b_lt (lo x) (lo y) then -1 else if b_lt (lo y) (lo x) then 1
  else if b_lt (up x) (up y) then -1 else if b_lt (up y) (up x) then 1 else 0.

(** Interval.inlines.hh:493-508 &=; 511-516 &&; 519-524 && with a value; 528-538 |=. *)
Definition i_and (A : arith) (x y : ivl) : ivl :=
  let l := if b_gt (lo y) (lo x) then lo y else lo x in
  let u := if b_lt (up y) (up x) then up y else up x in
  match fl x, fl y with
  | REAL, REAL => if b_gt l u then i_empty else set_maybe_real A (mkI l u REAL)
  | _, _ => set_integer A (mkI l u (fl x))
  end.
Definition i_meets (A : arith) (x y : ivl) : bool := negb (is_empty (i_and A x y)).
Definition i_has (A : arith) (x : ivl) (y : val) : bool :=
  bv_le (lo x) y && bv_ge (up x) y && (negb (is_int (fl x)) || is_integer A y).
Definition i_or (x y : ivl) : ivl :=
  mkI (if b_lt (lo y) (lo x) then lo y else lo x) (if b_gt (up y) (up x) then up y else up x)
      (match fl y with REAL => REAL | INTEGER => fl x end).

(** Interval.inlines.hh:540-564 +=, -= with a value; 568-617 with an interval. *)
Definition i_add_v (A : arith) (x : ivl) (y : val) : ivl :=
  set_type A (is_int (fl x) && is_integer A y) (mkI (add_v A false (lo x) y) (add_v A true (up x) y) (fl x)).
Definition i_sub_v (A : arith) (x : ivl) (y : val) : ivl :=
  set_type A (is_int (fl x) && is_integer A y) (mkI (sub_v A false (lo x) y) (sub_v A true (up x) y) (fl x)).
Definition i_add (A : arith) (x y : ivl) : ivl :=
  if is_one_point y then i_add_v A x (bv (lo y))
  else set_type A (is_int (fl x) && is_int (fl y)) (mkI (add_b A false (lo x) (lo y)) (add_b A true (up x) (up y)) (fl x)).
Definition i_sub (A : arith) (x y : ivl) : ivl :=
  if is_one_point y then i_sub_v A x (bv (lo y))
  else set_type A (is_int (fl x) && is_int (fl y)) (mkI (sub_b A false (lo x) (up y)) (sub_b A true (up x) (lo y)) (fl x)).
(** Interval.inlines.hh:619-635 *= with a value. *)
Definition i_mul_v (A : arith) (x : ivl) (y : val) : ivl :=
  let '(l, u) := if vlt y (num 0) then (b_set false (up x), b_set true (lo x)) else (lo x, up x) in
  set_type A (is_int (fl x) && is_integer A y) (mkI (mul_v A false l y) (mul_v A true u y) (fl x)).
(** fabs(frexp(y, &exp)) == 0.5 for -1 <= y <= 1: y or -y is 1/2^k. *)
Fixpoint is_pow2 (p : positive) : bool := match p with xH => true | xO p' => is_pow2 p' | xI _ => false end.
Definition is_pow2_inv (y : val) : bool :=
  match y with Fin _ q => Z.eqb (Z.abs (Qnum (this q))) 1 && is_pow2 (Qden (this q)) | _ => false end.
(** Interval.inlines.hh:637-659 /= with a value. *)
Definition i_div_v (A : arith) (x : ivl) (y : val) : ivl :=
  if vzero y then i_empty
  else
    let '(l, u) := if vlt y (num 0) then (b_set false (up x), b_set true (lo x)) else (lo x, up x) in
    set_type A (is_int (fl x) && is_pow2_inv y) (mkI (div_v A false l y) (div_v A true u y) (fl x)).

(** Interval.inlines.hh:663-681 min_assign; 684-702 max_assign. *)
Definition i_min (x y : ivl) : ivl :=
  let fl' := match fl y with REAL => REAL | INTEGER => fl x end in
  if b_lt (lo y) (lo x) then
    if b_lt (up y) (up x) then y else mkI (lo y) (up x) fl'
  else if b_lt (up y) (up x) then mkI (lo x) (up y) fl' else x.
Definition i_max (x y : ivl) : ivl :=
  let fl' := match fl y with REAL => REAL | INTEGER => fl x end in
  if b_gt (lo y) (lo x) then
    if b_gt (up y) (up x) then y else mkI (lo y) (up x) fl'
  else if b_gt (up y) (up x) then mkI (lo x) (up y) fl' else x.

(** Interval.inlines.hh:706-720 negate; 724-738 abs_assign. *)
Definition i_neg (x : ivl) : ivl := mkI (b_negate (b_set false (up x))) (b_negate (b_set true (lo x))) (fl x).
Definition i_abs (x : ivl) : ivl :=
  if ltv x (num 0) then i_neg x
  else if gtv x (num 0) then x
  else
    let ub := b_negate (b_set true (lo x)) in
    mkI (b_value (num 0)) (if b_gt ub (up x) then ub else up x) (fl x).
(** Interval.inlines.hh:741-771 sqr_assign. *)
Definition i_sqr (A : arith) (x : ivl) : ivl :=
  let r :=
    if ltv x (num 0) then
      let l := b_set false (up x) in
      let l' := mul_b A false l l in
      mkI l' (mul_b A true (b_set true (lo x)) l') (fl x)
    else if gtv x (num 0) then mkI (mul_b A false (lo x) (lo x)) (mul_b A true (up x) (up x)) (fl x)
    else
      let ub := b_negate (b_set true (lo x)) in
      let u := if b_gt ub (up x) then ub else up x in
      mkI (b_value (num 0)) (mul_b A true u u) (fl x) in
  set_type A (is_int (fl x)) r.
(** Interval.inlines.hh:774-790 sqrt_assign; 793-802 exp_assign; 805-829 log_assign. *)
Definition i_sqrt (A : arith) (x : ivl) : ivl :=
  if ltv x (num 0) then i_empty
  else set_maybe_real A (mkI (if gtv x (num 0) then b_fn A Sqrt false (lo x) else b_value (num 0)) (b_fn A Sqrt true (up x)) (fl x)).
Definition i_exp (A : arith) (x : ivl) : ivl := set_maybe_real A (mkI (b_fn A Exp false (lo x)) (b_fn A Exp true (up x)) (fl x)).
Definition i_log (A : arith) (x : ivl) : ivl :=
  if lev x (num 0) then i_empty
  else set_maybe_real A (mkI (if gtv x (num 0) then b_fn A Log false (lo x) else b_min) (b_fn A Log true (up x)) (fl x)).
(** Interval.inlines.hh:832-859 floor_assign, ceil_assign, integer_assign. *)
Definition i_floor (A : arith) (x : ivl) : ivl := mkI (l_floor A (lo x)) (u_floor A (up x)) INTEGER.
Definition i_ceil (A : arith) (x : ivl) : ivl := mkI (l_ceil A (lo x)) (u_ceil A (up x)) INTEGER.
Definition i_integer (A : arith) (x : ivl) : ivl := mkI (l_integer A (lo x)) (u_integer A (up x)) INTEGER.

(** Interval.cc:427-521 *= with an interval. *)
Definition i_mul (A : arith) (x y : ivl) : ivl :=
  if is_one_point y then i_mul_v A x (bv (lo y))
  else
    let l := lo x in let u := up x in
    let swl := b_set false u in let swu := b_set true l in
    let '(l', u') :=
      if ltv y (num 0) then
        if ltv x (num 0) then (mul_b A false swl (up y), mul_b A true swu (lo y))
        else if gtv x (num 0) then (mul_b A false swl (lo y), mul_b A true swu (up y))
        else (mul_b A false swl (lo y), mul_b A true swu (lo y))
      else if gtv y (num 0) then
        if ltv x (num 0) then (mul_b A false l (up y), mul_b A true u (lo y))
        else if gtv x (num 0) then (mul_b A false l (lo y), mul_b A true u (up y))
        else (mul_b A false l (up y), mul_b A true u (up y))
      else
        if ltv x (num 0) then (mul_b A false l (up y), mul_b A true swu (lo y))
        else if gtv x (num 0) then (mul_b A false swl (lo y), mul_b A true u (up y))
        else
          let l1 := mul_b A false l (up y) in
          let l2 := mul_b A false (lo y) u in
          let u1 := mul_b A true u (up y) in
          let u2 := mul_b A true swu (lo y) in
          (if b_lt l2 l1 then l2 else l1, if b_gt u2 u1 then u2 else u1) in
    set_type A (is_int (fl x) && is_int (fl y)) (mkI l' u' (fl x)).

(** Interval.cc:549-682 /= with an interval. *)
Definition i_div (A : arith) (x y : ivl) : ivl :=
  if is_one_point y then i_div_v A x (bv (lo y))
  else
    let l := lo x in let u := up x in
    let swl := b_set false u in let swu := b_set true l in
    if i_has A y (num 0) then
      if is_int (fl y) then
        let '(l', u') :=
          if lev y (num 0) then
            if ltv x (num 0) then (div_b A false swl (lo y), b_negate swu)
            else if gtv x (num 0) then (b_negate swl, div_b A true swu (lo y))
            else (b_negate swl, b_negate swu)
          else if gev y (num 0) then
            if ltv x (num 0) then (l, div_b A true u (up y))
            else if gtv x (num 0) then (div_b A false l (up y), u)
            else (l, u)
          else
            if ltv x (num 0) then (l, div_b A true u (up y))
            else if gtv x (num 0) then (div_b A false l (up y), u)
            else
              let ub := b_negate swu in
              let lb := b_negate swl in
              (if b_lt lb l then lb else l, if b_gt ub u then ub else u) in
        set_maybe_real A (mkI l' u' (fl x))
      else i_full REAL
    else
      let '(l', u') :=
        if ltv y (num 0) then
          if ltv x (num 0) then (div_b A false swl (lo y), div_b A true swu (up y))
          else if gtv x (num 0) then (div_b A false swl (up y), div_b A true swu (lo y))
          else (div_b A false swl (up y), div_b A true swu (up y))
        else
          if ltv x (num 0) then (div_b A false l (lo y), div_b A true u (up y))
          else if gtv x (num 0) then (div_b A false l (up y), div_b A true u (lo y))
          else (div_b A false l (lo y), div_b A true u (lo y)) in
      set_maybe_real A (mkI l' u' (fl x)).
(** Interval.inlines.hh:862-868 div_assign; 872-880 mod_assign. *)
Definition i_quo (A : arith) (x y : ivl) : ivl := i_integer A (i_div A x y).
Definition i_mod (A : arith) (x y : ivl) : ivl := i_sub A x (i_mul A (i_quo A x y) y).

(** Interval.cc:36-52 contains_multiple. *)
Definition contains_multiple (A : arith) (x : ivl) (offset period : val) : bool :=
  let lb := div_v A false (sub_v A false (lo x) offset) period in
  if is_closed lb && is_integer A (bv lb) then true
  else lu_lt (l_floor A lb) (u_floor A (div_v A true (sub_v A true (up x) offset) period)).

(** Interval.cc:349-382 widen_assign: the loop over the stop points -1, 0, 1, from the last to the first for the lower
    boundary, from the first to the last for the upper one. *)
Fixpoint widen_lower (A : arith) (integer : bool) (l : bnd) (stops : list val) : bnd :=
  match stops with
  | nil => b_min
  | cons s t => if lv_ge l s then if bv_gt l s then set_gt A l s integer else l else widen_lower A integer l t
  end.
Fixpoint widen_upper (A : arith) (integer : bool) (u : bnd) (stops : list val) : bnd :=
  match stops with
  | nil => b_max
  | cons s t => if uv_le u s then if bv_lt u s then set_lt A u s integer else u else widen_upper A integer u t
  end.
Definition i_widen (A : arith) (x old : ivl) : ivl :=
  mkI (if b_lt (lo x) (lo old) then widen_lower A (is_int (fl x)) (lo x) (num 1 :: num 0 :: num (-1) :: nil)%list else lo x)
      (if b_gt (up x) (up old) then widen_upper A (is_int (fl x)) (up x) (num (-1) :: num 0 :: num 1 :: nil)%list else up x)
      (fl x).
(** Interval.cc:386-411 narrow_assign. *)
Definition i_narrow (x old : ivl) : ivl :=
  let cross_l (z : Z) := bv_le (lo old) (num z) && lv_ge (lo x) (num z) in
  let cross_u (z : Z) := bv_ge (up old) (num z) && uv_le (up x) (num z) in
  let l := if b_gt (lo x) (lo old) then
             if is_min (lo old) || cross_l (-1)%Z || cross_l 0%Z || cross_l 1%Z then lo x else lo old
           else lo old in
  let u := if b_lt (up x) (up old) then
             if is_max (up old) || cross_u (-1)%Z || cross_u 0%Z || cross_u 1%Z then up x else up old
           else up old in
  if b_gt l u then i_empty else mkI l u (fl x).
