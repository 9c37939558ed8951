(** Model of the power of the interval library (src/Intervals: Boundary.inlines.hh, Interval.cc), on top of IvlModel. [pw up v w]:
    the function pow of the C library, with the rounding mode of lower, of upper boundaries, and whether a closed boundary becomes open. *)
From Coq Require Import ZArith QArith Qcanon Qround List Bool.
From Verif Require Import Bool3Model Ast IvlModel.
Local Open Scope bool_scope.

Definition power := bool -> val -> val -> val * bool.
(** Boundary.inlines.hh:528-531 ==, a boundary and a value. *)
Definition b_eqv (x : bnd) (y : val) : bool := veq (bv x) y && is_closed x.
Definition one_half : val := Fin false (/ zq 2)%Qc.
(** Boundary.inlines.hh:877-884, 914-921: sqrt, the square and pow, then the flag. *)
Definition pow_core (A : arith) (pw : power) (up : bool) (b x : bnd) : bnd :=
  meet up (compute up b (if b_eqv x one_half then fn A Sqrt up (bv b)
                         else if b_eqv x (num 2) then vmul A up (bv b) (bv b) else pw up (bv b) (bv x))) x.
(** "value = 1.0f; if (x.is_closed()) set_openclosed(CLOSED);" *)
Definition pow_one (b x : bnd) : bnd := mkB (num 1) (if is_closed x then ZERO else bf b).
(** Boundary.inlines.hh:867-887 LBoundary::pow_assign; 906-924 UBoundary::pow_assign, with a boundary. *)
Definition l_pow (A : arith) (pw : power) (b x : bnd) : bnd :=
  if vzero (bv b) then b
  else if vzero (bv x) then pow_one b x
  else if veq (bv b) (num 1) then b else pow_core A pw false b x.
Definition u_pow (A : arith) (pw : power) (b x : bnd) : bnd :=
  if vzero (bv x) then pow_one b x
  else if vzero (bv b) || veq (bv b) (num 1) then b else pow_core A pw true b x.

(** fmod(v, 2.0) == 0.0 for an integer v *)
Definition v_even (v : val) : bool := match v with Fin _ q => Z.even (Qfloor (this q)) | _ => false end.
(** Interval.cc:712-785 pow_assign; y is a copy if it is the same object. *)
Definition i_pow (A : arith) (pw : power) (x y : ivl) : ivl :=
  if i_has A x (num 0) && negb (gtv y (num 0)) then i_full REAL
  else if is_one_point y then
    if is_int (fl y) then
      let x' := if v_even (bv (lo y)) then i_abs x else x in
      mkI (l_pow A pw (lo x') (lo y)) (u_pow A pw (up x') (lo y)) (fl x')
    else
      let neg := lv_lt (lo x) (num 0) in
      let l := if neg then b_value (num 0) else lo x in
      if neg && is_empty (mkI l (up x) (fl x)) then i_empty
      else
        let '(l', u') := if lv_lt (lo y) (num 0) then (b_set false (up x), b_set true l) else (l, up x) in
        mkI (l_pow A pw l' (lo y)) (u_pow A pw u' (lo y)) (fl x)
  else if negb (gev x (num 0)) then i_full REAL
  else if negb (gev y (num 0)) then i_full REAL
  else
    let '(l', u') :=
      if gtv x (num 1) then (l_pow A pw (lo x) (lo y), u_pow A pw (up x) (up y))
      else if ltv x (num 1) then (l_pow A pw (lo x) (up y), u_pow A pw (up x) (lo y))
      else (l_pow A pw (lo x) (up y), u_pow A pw (up x) (up y)) in
    set_type A (is_int (fl x) && is_int (fl y) && gev y (num 0)) (mkI l' u' (fl x)).
