From mathcomp Require Import all_ssreflect all_algebra.
From Verif Require Import IPolModel IPolSpec IPolProofs GosperModel GosperSpec.
Set Implicit Arguments.
Unset Strict Implicit.
Unset Printing Implicit Defensive.
Import Order.TTheory GRing.Theory Num.Theory.
Local Open Scope ring_scope.
Implicit Types p : {poly rat}.

(** A greatest common divisor for polynomials with integer coefficients. *)
Definition zgcd0 (f g : {poly int}) : {poly int} := gcdz (zcontents f) (zcontents g) *: convert (gcdp (over_rat f) (over_rat g)).
Lemma divides_content (d f : {poly int}) : divides d f -> (zcontents d %| zcontents f)%Z.
Proof. by move=> [u ->]; rewrite zcontentsM dvdz_mulr. Qed.
Lemma scale_divides (g : int) (h f : {poly int}) : zcontents h = 1 -> divides h f -> (g %| zcontents f)%Z -> divides (g *: h) f.
Proof.
move=> H [r E]; rewrite E zcontentsM H mul1r => /dvdzP [k Ek].
by exists (k *: zprimitive r); rewrite {1}(zpolyEprim r) Ek -!scalerAl -!scalerAr !scalerA mulrC.
Qed.
Lemma over_inj : injective over_rat. Proof. exact: map_inj_poly (@intr_inj _) _. Qed.
Lemma convert_id p : zprimitive (convert p) = convert p. Proof. exact: zprimitive_id. Qed.
Lemma dvdp_divides (h k : {poly int}) : zprimitive h = h -> over_rat h %| over_rat k -> divides h k.
Proof.
move=> P D; have [s [a a0 Ea] [r Er]] := dvdpP_rat_int D.
by exists (zcontents s *: r); rewrite -P (same_primitive a0 Ea) Er {1}(zpolyEprim s) -scalerAl -scalerAr.
Qed.
Lemma zgcd0_ok f g : is_gcd f g (zgcd0 f g).
Proof.
rewrite /zgcd0; set h := convert _.
have [c c0 E] := prop_of (gcdp (over_rat f) (over_rat g)).
have Dh : over_rat h %= gcdp (over_rat f) (over_rat g) by rewrite E eqp_sym; apply: eqp_scale.
case: (eqVneq (gcdp (over_rat f) (over_rat g)) 0) => [/eqP G0|G0].
  have h0 : h = 0 by apply/eqP; rewrite convert_eq0.
  move: G0; rewrite gcdp_eq0 => /andP [/eqP F0 /eqP G0].
  have -> : f = 0 by apply: over_inj; rewrite F0 /over_rat rmorph0.
  have -> : g = 0 by apply: over_inj; rewrite G0 /over_rat rmorph0.
  rewrite h0 scaler0; split; first by exists 0; rewrite mul0r.
  by split=> [|e He _]; first by exists 0; rewrite mul0r.
have h0 : h != 0 by rewrite convert_eq0.
have C : zcontents h = 1 by rewrite /h /convert zcontents_primitive scaled_eq0 G0.
have P : zprimitive h = h := convert_id _.
split; [|split].
- by apply: scale_divides => //; [apply: dvdp_divides => //; rewrite (eqp_dvdl _ Dh) dvdp_gcdl|exact: dvdz_gcdl].
- by apply: scale_divides => //; [apply: dvdp_divides => //; rewrite (eqp_dvdl _ Dh) dvdp_gcdr|exact: dvdz_gcdr].
move=> e ef eg; case: (eqVneq e 0) => [e0|e0].
  move: ef eg; rewrite e0 => -[u]; rewrite mul0r => F0 [v]; rewrite mul0r => G1.
  by move: G0; rewrite F0 G1 /over_rat rmorph0 gcd0p eqxx.
have D : over_rat e %| over_rat h by rewrite (eqp_dvdr _ Dh) dvdp_gcd !divides_dvdp.
have [|s Es] := @dvdp_divides (zprimitive e) h (zprimitive_id _).
  apply: dvdp_trans D; rewrite {2}(zpolyEprim e) /over_rat map_polyZ /= dvdpZr ?dvdpp // intr_eq0 zcontents_eq0 //.
have /dvdzP [k Ek] : (zcontents e %| gcdz (zcontents f) (zcontents g))%Z by rewrite dvdz_gcd !divides_content.
by exists (k *: s); rewrite {1}Es Ek {3}(zpolyEprim e) -!scalerAl -!scalerAr !scalerA mulrC.
Qed.
(** For Gosper's algorithm *)
Definition int_poly_of p : {poly rat} * rat := if convert_with_factor p is Some (q, c) then (over_rat q, c) else (0, 0).
Lemma int_poly_of_ok : int_poly_ok int_poly_of.
Proof. by move=> p p0; rewrite /int_poly_of; have [c [-> c0 E _]] := convert_ok p0. Qed.
Lemma general_gcd_gosper zgcd : (forall f g, is_gcd f g (zgcd f g)) -> gcd_ok (general_gcd zgcd).
Proof. by move=> H p q; exact: general_gcd_ok. Qed.
