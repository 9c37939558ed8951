(** C74: polynomials with integer coefficients and greatest common divisors (src/util.cc). *)
From mathcomp Require Import all_ssreflect all_algebra.
From Verif Require Import IPolModel IPolSpec IPolProofs IPolProofs2 GosperModel GosperSpec GosperProofs4 GosperProps PolyRing.
Set Implicit Arguments.
Unset Strict Implicit.
Unset Printing Implicit Defensive.
Import Order.TTheory GRing.Theory Num.Theory.
Local Open Scope ring_scope.

(** The polynomial returned is primitive, and the factor times it is the given polynomial. *)
Theorem C74_primitive (p : {poly rat}) : p != 0 -> exists c, [/\ convert_with_factor p = Some (convert p, c), c != 0, p = c *: over_rat (convert p) & primitive_poly (convert p)].
Proof. exact: convert_ok. Qed.
(** It is the only such polynomial. *)
Theorem C74_unique (p : {poly rat}) (q : {poly int}) (c : rat) : p != 0 -> primitive_poly q -> p = c *: over_rat q -> q = convert p.
Proof.
move=> p0 Hq E; have [d [_ d0 Ed Hd]] := convert_ok p0.
have c0 : c != 0 by apply/eqP => c0; rewrite E c0 scale0r eqxx in p0.
by apply: (primitive_unique (c := c^-1 * d) Hq Hd); rewrite -scalerA -Ed {1}E scalerA mulVf // scale1r.
Qed.
(** The zero polynomial: 0, and a division by zero in the version with the factor. *)
Theorem C74_zero : convert 0 = 0 /\ convert_with_factor 0 = None.
Proof.
have E : convert 0 = 0 by apply/eqP; rewrite convert_eq0.
by split=> //; rewrite /convert_with_factor E lead_coef0 eqxx.
Qed.
(** A greatest common divisor over the integers makes general_gcd one over the rational numbers, zero polynomials included. *)
Theorem C74_general_gcd zgcd : (forall f g, is_gcd f g (zgcd f g)) -> forall p q,
  [/\ general_gcd zgcd p q %| p, general_gcd zgcd p q %| q & forall d, d %| p -> d %| q -> d %| general_gcd zgcd p q].
Proof.
move=> H p q; have E := general_gcd_ok H p q; split; rewrite ?(eqp_dvdl _ E) ?dvdp_gcdl ?dvdp_gcdr //.
by move=> d dp dq; rewrite (eqp_dvdr _ E) dvdp_gcd dp dq.
Qed.
(** Gosper's algorithm with these functions, whatever GiNaC's gcd returns among the greatest common divisors. *)
Theorem C74_gosper zgcd is_int find_divisors lsolve : (forall f g, is_gcd f g (zgcd f g)) -> divisors_ok find_divisors -> lsolve_ok lsolve ->
  forall f g b c x (V : fieldType) (phi : {rmorphism rat -> V}) (t : int -> V) (lower d m : int) (n : nat),
  f != 0 -> g != 0 -> coprimep f g -> gosper (general_gcd zgcd) is_int int_poly_of find_divisors lsolve f g = Some (Some (b, c, x)) -> lower + n%:Z = m + d + 1 ->
  (forall k : int, lower <= k -> k <= m + d -> t (k + 1) * phi g.[k%:~R] = t k * phi f.[k%:~R] /\ g.[k%:~R] != 0) ->
  (forall k : int, lower <= k -> k <= m + d + 1 -> c.[k%:~R] != 0) ->
  step_four phi b c x t lower d m = sum_from t lower n.
Proof. move=> H Hd Hl f g b c x V phi t lower d m n; exact: (gosper_sum (general_gcd_gosper H) int_poly_of_ok Hd Hl). Qed.

(** 3/2 x + 9/4 = 3/4 (2 x + 3). *)
Example C74_used : convert ((3%:R / 2%:R) *: 'X + (9%:R / 4%:R)%:P) = 2%:~R *: 'X + 3%:~R%:P.
Proof.
have S : size (2%:~R *: 'X + 3%:~R%:P : {poly int}) = 2%N by rewrite size_addl size_scale ?size_polyX // size_polyC.
have L : lead_coef (2%:~R *: 'X + 3%:~R%:P : {poly int}) = 2%:~R.
  by rewrite lead_coefE S coefD coefZ coefX coefC mulr1 addr0.
symmetry; apply: (@C74_unique _ _ (3%:R / 4%:R)).
- apply/eqP => E; have := congr1 (fun r : {poly rat} => r`_1) E.
  by rewrite coefD coefZ coefX coefC coef0.
- split; first by rewrite L.
  move=> d H; have := H 0%N; have := H 1%N; rewrite !coefD !coefZ !coefX !coefC /= => H1 H0.
  have : (d %| (3%:Z - 2%:Z))%Z by apply: rpredB; [move: H0|move: H1].
  by rewrite dvdz1 => /eqP E; rewrite -abszE E.
- rewrite /over_rat rmorphD /= map_polyZ map_polyX map_polyC /= scalerDr scalerA -[_ *: 'X + _]/(_ + _); congr (_ + _).
  by rewrite -mul_polyC -polyCM; congr (_%:P); apply/eqP.
Qed.
Example C74_gcd_used : forall f g, is_gcd f g (zgcd0 f g). Proof. exact: zgcd0_ok. Qed.
Print Assumptions C74_primitive.
Print Assumptions C74_unique.
Print Assumptions C74_zero.
Print Assumptions C74_general_gcd.
Print Assumptions C74_gosper.
