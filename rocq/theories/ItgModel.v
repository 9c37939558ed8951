(** Model of the circular functions and the power of the interval library (src/Intervals: Boundary.inlines.hh, Interval.cc), on top
    of IvlModel. M_PI, M_PI_2 are numbers of the machine: [pi2] is the value of M_PI_2, M_PI is twice that. *)
From Coq Require Import ZArith QArith Qcanon Qround List Bool.
From Verif Require Import Bool3Model Ast IvlModel.
Local Open Scope bool_scope.

(** The floating point constant k * M_PI_2 (M_PI, 2 * M_PI, -M_PI_2 are exact). *)
Definition half_pi (pi2 : Qc) (k : Z) : val := Fin (Z.ltb k 0) (zq k * pi2)%Qc.

(** Interval.cc:794-827 (cos_assign), 842-875 (sin_assign): the body after the computation of tomin and tomax, which is the
    same text in the two functions; USE_DIRECTED_ROUNDING. *)
Definition wave (A : arith) (f : func) (tomin tomax : bool) (x : ivl) : ivl :=
  if tomin && tomax then mkI (b_value (num (-1))) (b_value (num 1)) (fl x)
  else
    let l := b_fn A f false (lo x) in
    let u := b_fn A f true (up x) in
    let '(l', u') :=
      if b_gt l u then
        (if tomin then l else b_fn A f false (b_set false (up x)), if tomax then u else b_fn A f true (b_set true (lo x)))
      else (l, u) in
    mkI (if tomin then b_value (num (-1)) else l') (if tomax then b_value (num 1) else u') (fl x).
(** Interval.cc:788-831 cos_assign; 834-879 sin_assign. *)
Definition i_cos (A : arith) (pi2 : Qc) (x : ivl) : ivl :=
  let tomin := contains_multiple A x (half_pi pi2 2) (half_pi pi2 4) in
  let tomax := contains_multiple A x (num 0) (half_pi pi2 4) in
  set_maybe_real A (wave A Cos tomin tomax x).
Definition i_sin (A : arith) (pi2 : Qc) (x : ivl) : ivl :=
  let tomin := contains_multiple A x (half_pi pi2 (-1)) (half_pi pi2 4) in
  let tomax := contains_multiple A x (half_pi pi2 1) (half_pi pi2 4) in
  set_maybe_real A (wave A Sin tomin tomax x).
(** Interval.cc:882-901 tan_assign. *)
Definition i_tan (A : arith) (pi2 : Qc) (x : ivl) : ivl :=
  set_maybe_real A
    (if contains_multiple A x (half_pi pi2 1) (half_pi pi2 2) then i_full REAL
     else mkI (b_fn A Tan false (lo x)) (b_fn A Tan true (up x)) (fl x)).
