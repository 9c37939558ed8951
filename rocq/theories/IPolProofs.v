From mathcomp Require Import all_ssreflect all_algebra.
From Verif Require Import IPolModel IPolSpec.
Set Implicit Arguments.
Unset Strict Implicit.
Unset Printing Implicit Defensive.
Import Order.TTheory GRing.Theory Num.Theory.
Local Open Scope ring_scope.

Implicit Types p : {poly rat}.
Lemma foldl_dvd (f : nat -> nat) l t : (t %| foldl (fun t i => lcmn t (f i)) t l)%N.
Proof. elim: l t => [|i l IH] t /=; first exact: dvdnn. exact: dvdn_trans (dvdn_lcml _ _) (IH _). Qed.
Lemma foldl_dvd_in (f : nat -> nat) l t i : i \in l -> (f i %| foldl (fun t i => lcmn t (f i)) t l)%N.
Proof.
elim: l t => [|j l IH] t //=; rewrite in_cons => /orP [/eqP ->|H]; last exact: IH.
exact: dvdn_trans (dvdn_lcmr _ _) (foldl_dvd _ _ _).
Qed.
Lemma foldl_pos (f : nat -> nat) l t : (0 < t)%N -> (forall i, 0 < f i)%N -> (0 < foldl (fun t i => lcmn t (f i)) t l)%N.
Proof. by move=> H Hf; elim: l t H => [|i l IH] t H //=; apply: IH; rewrite lcmn_gt0 H Hf. Qed.
Lemma t_lcm_pos p : (0 < t_lcm p)%N.
Proof. by apply: foldl_pos => [|i]; rewrite absz_gt0 denq_neq0. Qed.
Lemma t_lcm_den p i : (i < size p)%N -> (`|denq p`_i| %| t_lcm p)%N.
Proof. by move=> H; apply: (foldl_dvd_in (fun i => `|denq p`_i|%N)); rewrite mem_iota add0n /= ltnS; case: (size p) H. Qed.
Lemma scaled_coef p i : ((scaled p)`_i)%:~R = p`_i * (t_lcm p)%:R.
Proof.
rewrite coef_poly; case: ltnP => [H|H]; last by rewrite nth_default // mul0r.
have /dvdnP [k E] := t_lcm_den H.
have D : denq (p`_i * (t_lcm p)%:R) = 1.
  have -> : p`_i * (t_lcm p)%:R = (numq p`_i * k%:Z)%:~R; last exact: denq_int.
  have A : (`|denq p`_i|%N)%:R = (denq p`_i)%:~R :> rat by rewrite -[in RHS](gtz0_abs (denq_gt0 _)).
  by rewrite E natrM A intrM numqE mulrCA mulrC.
by rewrite -[RHS]divq_num_den D divr1.
Qed.
Lemma scaled_over p : over_rat (scaled p) = (t_lcm p)%:R *: p.
Proof. by apply/polyP => i; rewrite coef_map coefZ /= scaled_coef mulrC. Qed.
Lemma scaled_eq0 p : (scaled p == 0) = (p == 0).
Proof.
have T : (t_lcm p)%:R != 0 :> rat by rewrite pnatr_eq0 -lt0n t_lcm_pos.
apply/eqP/eqP => [E|->]; last by rewrite /scaled size_poly0 poly_def big_ord0.
have := scaled_over p; rewrite E /over_rat rmorph0 => /esym/eqP; by rewrite scaler_eq0 (negbTE T) /= => /eqP.
Qed.
Lemma convert_eq0 p : (convert p == 0) = (p == 0).
Proof. by rewrite /convert zprimitive_eq0 scaled_eq0. Qed.
Lemma prop_of p : exists2 c : rat, c != 0 & p = c *: over_rat (convert p).
Proof.
have T : (t_lcm p)%:R != 0 :> rat by rewrite pnatr_eq0 -lt0n t_lcm_pos.
case: (eqVneq p 0) => [->|p0].
  exists 1; first exact: oner_neq0. have /eqP -> : convert 0 == 0 by rewrite convert_eq0. by rewrite /over_rat rmorph0 scaler0.
exists ((t_lcm p)%:R^-1 * (zcontents (scaled p))%:~R).
  by rewrite mulf_neq0 ?invr_eq0 // intr_eq0 zcontents_eq0 scaled_eq0.
have E : over_rat (scaled p) = (zcontents (scaled p))%:~R *: over_rat (convert p).
  by rewrite {1}[scaled p]zpolyEprim /over_rat map_polyZ.
by rewrite -scalerA -E scaled_over scalerA mulVf ?scale1r.
Qed.
Lemma lead_over q : lead_coef (over_rat q) = (lead_coef q)%:~R.
Proof. by rewrite /over_rat lead_coef_map_inj //; exact: intr_inj. Qed.
Lemma primitive_zprim q : q != 0 -> primitive_poly (zprimitive q).
Proof.
move=> q0; split; first by rewrite -sgz_gt0 sgz_lead_primitive q0.
move=> d H; have : (d %| zcontents (zprimitive q))%Z by rewrite dvdz_contents; apply/polyOverP => i; exact: H.
rewrite zcontents_primitive q0 dvdz1 => /eqP E.
by rewrite -abszE E.
Qed.
Lemma convert_ok p : p != 0 -> exists c, [/\ convert_with_factor p = Some (convert p, c), c != 0, p = c *: over_rat (convert p) & primitive_poly (convert p)].
Proof.
move=> p0; have [c c0 E] := prop_of p; have P := @primitive_zprim (scaled p).
rewrite scaled_eq0 in P; have {P} P := P p0.
have L : lead_coef (convert p) != 0 by rewrite lead_coef_eq0 convert_eq0.
exists c; split => //.
rewrite /convert_with_factor (negbTE L); congr (Some (_, _)).
by rewrite {1}E lead_coefZ lead_over mulfK ?intr_eq0.
Qed.
(** Uniqueness *)
Lemma same_primitive (q r : {poly int}) (c : rat) : c != 0 -> over_rat q = c *: over_rat r -> zprimitive q = zprimitive r.
Proof.
move=> c0 E; have M : (denq c) *: q = (numq c) *: r.
  apply: (@map_inj_poly _ _ (intr : int -> rat)); [exact: intr_inj|by []|].
  rewrite -!/(over_rat _) /over_rat !map_polyZ -!/(over_rat _) E scalerA.
  by congr (_ *: _); rewrite /= numqE mulrC.
have N : numq c != 0 by rewrite numq_eq0.
have S1 : zprimitive ((denq c) *: q) = zprimitive q by rewrite zprimitiveZ // denq_neq0.
have S2 : zprimitive ((numq c) *: r) = zprimitive r by rewrite zprimitiveZ.
by rewrite -S1 -S2 M.
Qed.
Lemma primitive_unique (q r : {poly int}) (c : rat) : primitive_poly q -> primitive_poly r -> over_rat q = c *: over_rat r -> q = r.
Proof.
move=> Pq Pr E.
have Z (s : {poly int}) : primitive_poly s -> zprimitive s = s.
  move=> [s0 Hs]; have A : `|zcontents s| = 1 by apply: Hs => i; have := dvdz_contents (zcontents s) s; rewrite dvdzz => /esym /polyOverP.
  have B : 0 < zcontents s by rewrite -sgz_gt0 sgz_contents sgz_gt0.
  by rewrite [in RHS](zpolyEprim s); rewrite gtr0_norm // in A; rewrite A scale1r.
have c0 : c != 0.
  apply/eqP => c0; move: E; rewrite c0 scale0r => /eqP; rewrite -lead_coef_eq0 lead_over intr_eq0 => /eqP H.
  by case: Pq => q0 _; rewrite H ltxx in q0.
by rewrite -(Z _ Pq) -(Z _ Pr) (same_primitive c0 E).
Qed.
(** general_gcd *)
Lemma divides_dvdp d f : divides d f -> over_rat d %| over_rat f.
Proof. by move=> [u ->]; rewrite /over_rat rmorphM dvdp_mulr. Qed.
Lemma gcd_over f g d : is_gcd f g d -> over_rat d %= gcdp (over_rat f) (over_rat g).
Proof.
move=> [Hf [Hg H]]; rewrite /eqp dvdp_gcd !divides_dvdp //=.
have [c c0 E] := prop_of (gcdp (over_rat f) (over_rat g)).
set h := convert _ in E.
have Dv k : over_rat h %| over_rat k -> divides (zprimitive h) k.
  move=> D; have [s [a a0 Ea] [r Er]] := dvdpP_rat_int D.
  by exists (zcontents s *: r); rewrite (same_primitive a0 Ea) Er {1}(zpolyEprim s) -scalerAl -scalerAr.
have Dh : over_rat h %= gcdp (over_rat f) (over_rat g) by rewrite E eqp_sym; apply: eqp_scale.
have P : zprimitive h = h by rewrite /h /convert zprimitive_id.
rewrite -(eqp_dvdl _ Dh); apply: divides_dvdp; rewrite -P; apply: H; apply: Dv.
  by rewrite (eqp_dvdl _ Dh) dvdp_gcdl.
by rewrite (eqp_dvdl _ Dh) dvdp_gcdr.
Qed.
Lemma general_gcd_ok zgcd : (forall f g, is_gcd f g (zgcd f g)) -> forall p q, general_gcd zgcd p q %= gcdp p q.
Proof.
move=> H p q; have := gcd_over (H (convert p) (convert q)); rewrite /general_gcd -/(over_rat _) => E.
apply: eqp_trans E _.
have [c c0 Ep] := prop_of p; have [d d0 Eq] := prop_of q.
have A : over_rat (convert p) %= p by rewrite {2}Ep eqp_sym eqp_scale.
have B : over_rat (convert q) %= q by rewrite {2}Eq eqp_sym eqp_scale.
exact: eqp_trans (eqp_gcdl _ A) (eqp_gcdr _ B).
Qed.
