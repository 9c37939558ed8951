From mathcomp Require Import all_ssreflect all_algebra.
Require Import Ring.
From Verif Require Import GosperModel GosperSpec GosperProofs1 GosperProofs2 GosperProofs3 PolyRing.
Set Implicit Arguments.
Unset Strict Implicit.
Unset Printing Implicit Defensive.
Import Order.TTheory GRing.Theory Num.Theory.
Local Open Scope ring_scope.
Implicit Types (a b c p q r x f g : {poly rat}) (h : rat).

(** * A rational solution of the key equation is a polynomial *)
Lemma eventually_nonzero p : p != 0 -> exists B : nat, forall n : nat, (B <= n)%N -> p.[n%:R] != 0.
Proof.
move=> np; have lp : (lead_coef p)^-1 != 0 by rewrite invr_eq0 lead_coef_eq0.
have M : (lead_coef p)^-1 *: p \is monic by rewrite monicE lead_coefZ mulVf // lead_coef_eq0.
have [b Hb] := monic_Cauchy_bound M; exists (Num.bound `|b|) => n le.
have : b <= n%:R.
  apply: (le_trans (ltW (le_lt_trans (ler_norm b) (archi_boundP (normr_ge0 b))))).
  by rewrite ler_nat.
move/Hb; rewrite hornerZ => /lt0r_neq0; by rewrite mulf_eq0 negb_or => /andP [].
Qed.
Lemma sub_annihilant_eval p q (u : rat) : p != 0 -> q != 0 -> (sub_annihilant p q).[u] = resultant (shift p u) q.
Proof.
move=> np nq; rewrite /sub_annihilant -horner_evalE map_resultant.
- rewrite eval_polyC; congr (resultant _ _).
  rewrite /poly_XaY map_comp_poly eval_polyC rmorphD.
  have -> : map_poly_rmorphism (horner_eval_rmorphism u) 'X = 'X by exact: (map_polyX (horner_eval_rmorphism u)).
  have -> : map_poly_rmorphism (horner_eval_rmorphism u) 'Y = u%:P by rewrite -[LHS]/(map_poly (horner_eval_rmorphism u) ('X%:P)) map_polyC; congr (_%:P); exact: hornerX.
  by [].
- by rewrite lead_coef_poly_XaY [X in X != 0]hornerC lead_coef_eq0.
- by rewrite lead_coef_map_inj ?raddf0 //; [rewrite [X in X != 0]hornerC lead_coef_eq0|exact: polyC_inj].
Qed.
(** Only finitely many shifts have a common factor. *)
Lemma shifts_bounded p q : p != 0 -> q != 0 -> exists B : nat, forall n : nat, (B <= n)%N -> coprimep q (shift p n%:R).
Proof.
move=> np nq; have [B HB] := eventually_nonzero (sub_annihilant_neq0 np nq).
exists B => n /HB; rewrite sub_annihilant_eval // resultant_eq0 -leqNgt => le.
rewrite coprimep_sym /coprimep eqn_leq le /= size_poly_gt0 gcdp_eq0 negb_and shift_eq0 np //.
Qed.
Lemma denominator_trivial a b c p q : a != 0 -> b != 0 -> q != 0 -> dispersed a b -> coprimep p q ->
  a * shift p 1 * q - shift b (-1) * p * shift q 1 = c * q * shift q 1 -> size q = 1%N.
Proof.
move=> na nb nq D co E; apply/eqP; apply: contraT => nc.
have [B HB] := shifts_bounded nq nq.
pose P n := ~~ coprimep q (shift q n%:R).
have P0 : exists n, P n by exists 0%N; rewrite /P shift0 coprimepp.
have Pb n : P n -> (n <= B)%N by move=> Pn; rewrite leqNgt; apply: contra Pn => lt; rewrite HB // ltnW.
have [N PN max] := ex_maxnP P0 Pb.
have next : coprimep q (shift q N.+1%:R) by apply: contraT => H; move: (max _ H); rewrite ltnn.
pose u := gcdp q (shift q N%:R).
have nu : u != 0 by rewrite gcdp_eq0 negb_and nq.
(* q(m+1) divides a(m) q(m) and q(m) divides b(m-1) q(m+1) *)
have d1 : shift q 1 %| a * q.
  have : shift q 1 %| a * q * shift p 1.
    have -> : a * q * shift p 1 = (c * q + shift b (-1) * p) * shift q 1 by rewrite mulrDl -E mulrAC subrK.
    exact: dvdp_mull.
  by rewrite Gauss_dvdpl // coprimep_sym coprimep_shift.
have d2 : q %| shift b (-1) * shift q 1.
  have : q %| shift b (-1) * shift q 1 * p.
    have -> : shift b (-1) * shift q 1 * p = (a * shift p 1 - c * shift q 1) * q.
      by rewrite mulrAC mulrBl [c * _ * q]mulrAC -E opprB addrC subrK.
    exact: dvdp_mull.
  by rewrite Gauss_dvdpl // coprimep_sym.
have e1 : shift u 1 %| a.
  have : shift u 1 %| a * q by apply: dvdp_trans d1; rewrite dvdp_shift dvdp_gcdl.
  rewrite Gauss_dvdpl //; rewrite coprimep_sym; apply: (coprimep_dvdl (q := shift q N.+1%:R)) => //.
  by rewrite -addn1 natrD -shift_shift dvdp_shift dvdp_gcdr.
have e2 : shift u 1 %| shift b N%:R.
  have : shift u 1 %| shift b N%:R * shift q (1 + N.+1%:R).
    apply: (@dvdp_trans _ (shift q (N%:R + 1))); first by rewrite -shift_shift dvdp_shift dvdp_gcdr.
    have := d2; rewrite -(dvdp_shift _ _ (N%:R + 1)) shiftM !shift_shift.
    by rewrite [-1 + _]addrC addrK -(natrD _ N 1) addn1.
  rewrite Gauss_dvdpl // [1 + _]addrC -shift_shift coprimep_shift.
  exact: coprimep_dvdr (dvdp_gcdl _ _) next.
have : shift u 1 %| gcdp a (shift b N%:R) by rewrite dvdp_gcd e1.
have := D N; rewrite /coprimep size_poly_eq1 => /eqp_dvdr ->; rewrite dvdp1 size_shift => /eqP Eu.
by move: PN; rewrite /P /coprimep -/u Eu.
Qed.
(** A rational solution p/q of the key equation gives a polynomial solution. *)
Lemma rational_solution a b c p q : a != 0 -> b != 0 -> q != 0 -> dispersed a b ->
  a * shift p 1 * q - shift b (-1) * p * shift q 1 = c * q * shift q 1 -> exists x, key_equation a b c x.
Proof.
move=> na nb nq D E.
pose d := gcdp p q. have nd : d != 0 by rewrite gcdp_eq0 negb_and nq orbT.
pose p1 := p %/ d. pose q1 := q %/ d.
have Ep : p = p1 * d by rewrite divpK // dvdp_gcdl. have Eq : q = q1 * d by rewrite divpK // dvdp_gcdr.
have nq1 : q1 != 0 by apply: contraNneq nq => Z; rewrite Eq Z mul0r.
have co : coprimep p1 q1 by apply: coprimep_div_gcd; rewrite nq orbT.
have E1 : a * shift p1 1 * q1 - shift b (-1) * p1 * shift q1 1 = c * q1 * shift q1 1.
  have nz : d * shift d 1 != 0 by rewrite mulf_neq0 ?shift_eq0.
  apply: (mulIf nz); rewrite mulrBl; move: E; rewrite {1 2}Ep {1 2 3 4}Eq !shiftM.
  set sp := shift p1 1; set sq := shift q1 1; set sd := shift d 1; set sb := shift b (-1) => E.
  move: E; rewrite -!(mulrBl, mulrBr) => E; transitivity (a * (sp * sd) * (q1 * d) - sb * (p1 * d) * (sq * sd)); [|rewrite E]; pring.
have /eqP := denominator_trivial na nb nq1 D co E1; case/size_poly1P=> u nu Eu.
exists (u^-1 *: p1); move: E1; rewrite Eu shiftC /key_equation shiftZ -!scalerAr.
rewrite -scalerBr ![_ * u%:P]mulrC !mul_polyC -scalerBr => /(congr1 (fun r => (u^-1 * u^-1) *: r)).
by rewrite !scalerA mulfVK // mulrA mulfVK // mulVf // scale1r.
Qed.

Section Whole.
Context (ggcd : {poly rat} -> {poly rat} -> {poly rat}) (is_int : {poly rat} -> bool) (int_poly : {poly rat} -> {poly rat} * rat) (find_divisors : nat -> option (seq nat)).
Context (lsolve : forall r c : nat, 'M[rat]_(r, c) -> 'rV[rat]_c -> option 'rV[rat]_r).
Context (Hg : gcd_ok ggcd) (Hi : int_poly_ok int_poly) (Hd : divisors_ok find_divisors) (Hl : lsolve_ok lsolve).
Notation gosper := (gosper ggcd is_int int_poly find_divisors lsolve).
(** The symbolic sum is returned only when no rational multiple of the term is an antidifference. *)
Theorem complete f g p q : f != 0 -> g != 0 -> coprimep f g -> gosper f g = Some None -> q != 0 ->
  shift p 1 * f * q - p * g * shift q 1 <> g * q * shift q 1.
Proof.
move=> nf ng co; rewrite /GosperModel.gosper; case E2: (step_two _ _ _ _ _ _) => [[[a b] c]|] //.
have [[na nb nc] R D _] := step_two_ok Hg Hi Hd nf ng co E2.
have := step_three_ok Hl na nb nc; case: (step_three _ _ _ _) => // No _ nq E.
have nb1 : shift b (-1) != 0 by rewrite shift_eq0.
case: (@rational_solution a b c (p * c) (q * shift b (-1))) => //; first by rewrite mulf_neq0.
rewrite !shiftM shiftVK; apply: (mulfI ng).
transitivity ((shift p 1 * f * q - p * g * shift q 1) * (b * c * shift b (-1))); last by rewrite E; pring.
transitivity (g * a * shift c 1 * (shift p 1 * q * shift b (-1)) - p * g * shift q 1 * (b * c * shift b (-1))); first by pring.
by rewrite -R; pring.
Qed.
End Whole.

(** * Step four *)
Section Four.
Context (V : fieldType) (phi : {rmorphism rat -> V}).
Definition Vt : Type := V.
Definition Vadd (x y : Vt) : Vt := (x : V) + y.
Definition Vmul (x y : Vt) : Vt := (x : V) * y.
Definition Vopp (x : Vt) : Vt := - (x : V).
Definition V0 : Vt := (0 : V).
Definition V1 : Vt := (1 : V).
Lemma Vring : ring_theory V0 V1 Vadd Vmul (fun u v : Vt => Vadd u (Vopp v)) Vopp (@eq Vt).
Proof. split=> * //; rewrite /Vadd /Vmul /Vopp ?/V0 ?/V1; [exact: add0r|exact: addrC|exact: addrA|exact: mul1r|exact: mulrC|exact: mulrA|exact: mulrDl|exact: subrr]. Qed.
Add Ring Vring : Vring.
Ltac vring := 
  repeat match goal with
  | |- context [@GRing.add ?W ?x ?y] => change (@GRing.add W x y) with (Vadd x y)
  | |- context [@GRing.opp ?W ?x] => change (@GRing.opp W x) with (Vopp x)
  | |- context [@GRing.mul ?W ?x ?y] => change (@GRing.mul W x y) with (Vmul x y)
  | |- context [@GRing.one ?W] => change (@GRing.one W) with V1
  | |- context [@GRing.zero ?W] => change (@GRing.zero W) with V0
  end; match goal with |- @eq _ ?x ?y => change (@eq Vt x y) end; ring.
Lemma sum_from_telescope (t z : int -> V) lo n : (forall i : nat, (i < n)%N -> z (lo + i%:Z + 1) - z (lo + i%:Z) = t (lo + i%:Z)) -> sum_from t lo n = z (lo + n%:Z) - z lo.
Proof.
elim: n => [|n IH] H; first by rewrite /sum_from big_ord0 addr0 subrr.
rewrite /sum_from big_ord_recr /= -[\sum_(i < n) _]/(sum_from t lo n) IH; last by move=> i lt; apply: H; apply: ltnW.
have -> : lo + n.+1%:Z = lo + n%:Z + 1 by rewrite -addn1 PoszD addrA.
rewrite -(H n) //; move: (z (lo + n%:Z + 1)) (z (lo + n%:Z)) (z lo) => u v w; vring.
Qed.
Definition on (lo : int) (n : nat) (P : int -> Prop) : Prop := forall i : nat, (i < n)%N -> P (lo + i%:Z).
Lemma horner_key a b c x (m : int) : key_equation a b c x -> a.[m%:~R] * x.[(m + 1)%:~R] - b.[(m - 1)%:~R] * x.[m%:~R] = c.[m%:~R].
Proof. by move=> <-; rewrite hornerD hornerN !hornerM !horner_shift !intrD. Qed.
Lemma step_four_z b c x t lower d m : step_four phi b c x t lower d m = z_value phi b c x t (m + d + 1) - z_value phi b c x t lower.
Proof.
rewrite /step_four; case: eqP => [->|_]; first by rewrite addrNK.
by case: eqP => [->|_]; rewrite ?addr0.
Qed.
Lemma telescopes f g a b c x t (k : int) : f * b * c = g * a * shift c 1 -> key_equation a b c x ->
  t (k + 1) * phi g.[k%:~R] = t k * phi f.[k%:~R] -> g.[k%:~R] != 0 -> c.[k%:~R] != 0 -> c.[(k + 1)%:~R] != 0 ->
  z_value phi b c x t (k + 1) - z_value phi b c x t k = t k.
Proof.
move=> R K T ng nc nc1.
have HR : f.[k%:~R] * b.[k%:~R] * c.[k%:~R] = g.[k%:~R] * a.[k%:~R] * c.[(k + 1)%:~R].
  by have := congr1 (fun p => p.[k%:~R]) R; rewrite !hornerM horner_shift intrD.
have HK := horner_key k K.
rewrite /z_value !horner_shift.
have -> : ((k + 1)%:~R + -1 : rat) = k%:~R by rewrite intrD addrK.
have -> : (k%:~R + -1 : rat) = (k - 1)%:~R by rewrite intrD.
have png : phi g.[k%:~R] != 0 by rewrite fmorph_eq0.
have pnc : phi c.[k%:~R] != 0 by rewrite fmorph_eq0.
have pnc1 : phi c.[(k + 1)%:~R] != 0 by rewrite fmorph_eq0.
move: (congr1 phi HR) (congr1 phi HK); rewrite ![phi (_ * _)]rmorphM [phi (_ - _)]rmorphB ![phi (_ * _)]rmorphM.
set F := phi f.[_] in T *; set G := phi g.[k%:~R] in png T *; set A := phi a.[_]; set B := phi b.[k%:~R]; set C := phi c.[k%:~R] in pnc *; set C1 := phi c.[(k + 1)%:~R] in pnc1 *.
set B1 := phi b.[(k - 1)%:~R]; set X1 := phi x.[(k + 1)%:~R]; set X := phi x.[k%:~R].
set t1 := t (k + 1) in T *; set t0 := t k in T * => E1 E2.
have K1 : B * t1 / C1 = A * t0 / C.
  apply: (mulIf png); apply: (mulIf pnc1); apply: (mulIf pnc).
  transitivity (B * (t1 * G) * C * (C1 / C1)); first by vring.
  transitivity (A * t0 * G * C1 * (C / C)); last by vring.
  rewrite !divff // T !mulr1; transitivity (t0 * (F * B * C)); first by vring.
  rewrite E1; vring.
transitivity (X1 * (B * t1 / C1) - B1 * X * t0 / C); first by vring.
rewrite K1; transitivity ((A * X1 - B1 * X) * t0 / C); first by vring.
by rewrite E2 mulrC mulKf.
Qed.
(** The same after t(m)/c(m) has been cancelled. *)
Lemma telescopes_reduced f g a b c x (s : int -> V) (k : int) : key_equation a b c x -> s (k + 1) * phi b.[k%:~R] = s k * phi a.[k%:~R] ->
  phi (b.[(k + 1 - 1)%:~R] * x.[(k + 1)%:~R]) * s (k + 1) - phi (b.[(k - 1)%:~R] * x.[k%:~R]) * s k = phi c.[k%:~R] * s k.
Proof.
move=> K T; rewrite -(horner_key k K) addrK ![phi (_ * _)]rmorphM [phi (_ - _)]rmorphB ![phi (_ * _)]rmorphM.
transitivity (phi x.[(k + 1)%:~R] * (s (k + 1) * phi b.[k%:~R]) - phi b.[(k - 1)%:~R] * phi x.[k%:~R] * s k).
  move: (phi _) (phi _) (s _) (phi _) (phi _) (s _) => A B C D E F; vring.
rewrite T; move: (phi _) (phi _) (s _) (phi _) (phi _) => A B C D E; vring.
Qed.
End Four.

Section Result.
Context (ggcd : {poly rat} -> {poly rat} -> {poly rat}) (is_int : {poly rat} -> bool) (int_poly : {poly rat} -> {poly rat} * rat) (find_divisors : nat -> option (seq nat)).
Context (lsolve : forall r c : nat, 'M[rat]_(r, c) -> 'rV[rat]_c -> option 'rV[rat]_r).
Context (Hg : gcd_ok ggcd) (Hi : int_poly_ok int_poly) (Hd : divisors_ok find_divisors) (Hl : lsolve_ok lsolve).
Notation gosper := (gosper ggcd is_int int_poly find_divisors lsolve).
Lemma gosper_found f g b c x : f != 0 -> g != 0 -> coprimep f g -> gosper f g = Some (Some (b, c, x)) ->
  exists a, [/\ f * b * c = g * a * shift c 1, key_equation a b c x, dispersed a b, b != 0 & c != 0].
Proof.
move=> nf ng co; rewrite /GosperModel.gosper; case E2: (step_two _ _ _ _ _ _) => [[[a' b'] c']|] //.
have [[na nb nc] R D _] := step_two_ok Hg Hi Hd nf ng co E2.
have := step_three_ok Hl na nb nc; case: (step_three _ _ _ _) => // x' K [Eb Ec Ex].
by exists a'; rewrite -Eb -Ec -Ex.
Qed.
Theorem gosper_sum f g b c x (V : fieldType) (phi : {rmorphism rat -> V}) (t : int -> V) (lower d m : int) (n : nat) :
  f != 0 -> g != 0 -> coprimep f g -> gosper f g = Some (Some (b, c, x)) -> lower + n%:Z = m + d + 1 ->
  (forall k : int, lower <= k -> k <= m + d -> t (k + 1) * phi g.[k%:~R] = t k * phi f.[k%:~R] /\ g.[k%:~R] != 0) ->
  (forall k : int, lower <= k -> k <= m + d + 1 -> c.[k%:~R] != 0) ->
  step_four phi b c x t lower d m = sum_from t lower n.
Proof.
move=> nf ng co G En T C; have [a [R K _ _ _]] := gosper_found nf ng co G.
rewrite step_four_z -En; symmetry; apply: sum_from_telescope => i lt.
have L1 : lower <= lower + i%:Z by rewrite ler_addl.
have L2 : lower + i%:Z + 1 <= m + d + 1 by rewrite -En -addrA ler_add2l -PoszD lez_nat addn1.
have L3 : lower + i%:Z <= m + d by move: L2; rewrite ler_add2r.
have [T1 ng1] := T _ L1 L3.
apply: (telescopes R K T1 ng1); apply: C => //.
- by apply: (le_trans L3); rewrite ler_addl.
- by apply: (le_trans L1); rewrite ler_addl.
Qed.
(** The cancelled form: t = c s. *)
Theorem gosper_sum_reduced f g b c x (V : fieldType) (phi : {rmorphism rat -> V}) (s : int -> V) (lower : int) (n : nat) :
  f != 0 -> g != 0 -> coprimep f g -> gosper f g = Some (Some (b, c, x)) ->
  (forall a, f * b * c = g * a * shift c 1 -> forall k : int, lower <= k -> k < lower + n%:Z -> s (k + 1) * phi b.[k%:~R] = s k * phi a.[k%:~R]) ->
  let z (k : int) := phi (b.[(k - 1)%:~R] * x.[k%:~R]) * s k in
  z (lower + n%:Z) - z lower = sum_from (fun k => phi c.[k%:~R] * s k) lower n.
Proof.
move=> nf ng co G T z; have [a [R K _ _ _]] := gosper_found nf ng co G.
symmetry; apply: (@sum_from_telescope V _ z) => i lt; apply: (telescopes_reduced f g K); apply: T => //; first by rewrite ler_addl.
by rewrite ltr_add2l ltz_nat.
Qed.
End Result.
