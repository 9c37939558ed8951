From mathcomp Require Import all_ssreflect all_algebra.
From Verif Require Import GosperModel GosperSpec.
Set Implicit Arguments.
Unset Strict Implicit.
Unset Printing Implicit Defensive.
Import GRing.Theory Num.Theory.
Local Open Scope ring_scope.
Implicit Types (a b c p q x f g : {poly rat}) (h k : rat).

Lemma shiftE p h : sub_shift p h = shift p h. Proof. by []. Qed.
Lemma shiftM p q h : shift (p * q) h = shift p h * shift q h. Proof. exact: comp_polyM. Qed.
Lemma shiftD p q h : shift (p + q) h = shift p h + shift q h. Proof. exact: comp_polyD. Qed.
Lemma shiftB p q h : shift (p - q) h = shift p h - shift q h. Proof. exact: comp_polyB. Qed.
Lemma shiftZ u p h : shift (u *: p) h = u *: shift p h. Proof. exact: comp_polyZ. Qed.
Lemma shift1 h : shift 1 h = 1. Proof. exact: comp_polyC. Qed.
Lemma shiftC u h : shift u%:P h = u%:P. Proof. exact: comp_polyC. Qed.
Lemma shift0 p : shift p 0 = p. Proof. by rewrite /shift addr0 comp_polyXr. Qed.
Lemma shift_shift p h k : shift (shift p h) k = shift p (h + k).
Proof. by rewrite /shift -comp_polyA comp_polyD comp_polyX comp_polyC -addrA [k%:P + _]addrC -polyCD. Qed.
Lemma shiftK p h : shift (shift p h) (- h) = p. Proof. by rewrite shift_shift subrr shift0. Qed.
Lemma shiftVK p h : shift (shift p (- h)) h = p. Proof. by rewrite shift_shift addNr shift0. Qed.
Lemma shift_inj h : injective (shift^~ h). Proof. exact: (can_inj (fun p => shiftK p h)). Qed.
Lemma horner_shift p h u : (shift p h).[u] = p.[u + h].
Proof. by rewrite horner_comp hornerD hornerX hornerC. Qed.
Lemma size_shift p h : size (shift p h) = size p.
Proof. by rewrite size_comp_poly2 // size_XaddC. Qed.
Lemma lead_shift p h : lead_coef (shift p h) = lead_coef p.
Proof. by rewrite lead_coef_comp ?size_XaddC // lead_coefDl ?size_polyX ?ltnS ?size_polyC ?lead_coefX ?expr1n ?mulr1 //; case: (h == 0). Qed.
Lemma shift_eq0 p h : (shift p h == 0) = (p == 0). Proof. by rewrite -!size_poly_eq0 size_shift. Qed.
Lemma shift_prod (I : Type) (r : seq I) (F : I -> {poly rat}) h : shift (\prod_(i <- r) F i) h = \prod_(i <- r) shift (F i) h.
Proof. elim: r => [|i r IH]; first by rewrite !big_nil shift1. by rewrite !big_cons shiftM IH. Qed.
Lemma dvdp_shift p q h : (shift p h %| shift q h) = (p %| q).
Proof.
apply/idP/idP => /dvdpP [r E]; apply/dvdpP.
- by exists (shift r (- h)); apply: (@shift_inj h); rewrite shiftM shiftVK.
- by exists (shift r h); rewrite E shiftM.
Qed.
Lemma eqp_shift p q h : (shift p h %= shift q h) = (p %= q). Proof. by rewrite /eqp !dvdp_shift. Qed.
Lemma gcdp_shift p q h : gcdp (shift p h) (shift q h) %= shift (gcdp p q) h.
Proof.
apply/andP; split; last by rewrite dvdp_gcd !dvdp_shift dvdp_gcdl dvdp_gcdr.
have E : gcdp (shift p h) (shift q h) = shift (shift (gcdp (shift p h) (shift q h)) (- h)) h by rewrite shiftVK.
by rewrite {1}E dvdp_shift dvdp_gcd; apply/andP; split; rewrite -(dvdp_shift _ _ h) -E (dvdp_gcdl, dvdp_gcdr).
Qed.
Lemma coprimep_shift p q h : coprimep (shift p h) (shift q h) = coprimep p q.
Proof. by rewrite /coprimep (eqp_size (gcdp_shift p q h)) size_shift. Qed.
Lemma coprimep_shift' p q h : coprimep (shift p h) q = coprimep p (shift q (- h)).
Proof. by rewrite -{1}(shiftVK q h) coprimep_shift. Qed.

(** * Step two *)
Section Two.
Context (ggcd : {poly rat} -> {poly rat} -> {poly rat}) (Hg : gcd_ok ggcd).
Lemma ggcd_dvdl p q : ggcd p q %| p. Proof. by rewrite (eqp_dvdl _ (Hg p q)) dvdp_gcdl. Qed.
Lemma ggcd_dvdr p q : ggcd p q %| q. Proof. by rewrite (eqp_dvdl _ (Hg p q)) dvdp_gcdr. Qed.
Lemma step_facts a b c (h : nat) a' b' c' : split_step ggcd (a, b, c) h = (a', b', c') -> exists s, [/\ a = a' * s, b = b' * shift s (- h%:R), c' = c * \prod_(1 <= j < h.+1) shift s (- j%:R) & s %= gcdp a (shift b h%:R)].
Proof.
rewrite /split_step => -[<- <- <-]; rewrite !shiftE; set s := ggcd a (shift b h%:R); exists s; split=> //.
- by rewrite divpK // ggcd_dvdl.
- by rewrite divpK // -(dvdp_shift _ _ h%:R) shiftVK ggcd_dvdr.
- exact: Hg.
Qed.
(** The quotient a/b c(m+1)/c(m) is kept. *)
Lemma prod_shift s (h : nat) : shift (\prod_(1 <= j < h.+1) shift s (- j%:R)) 1 * shift s (- h%:R) = s * \prod_(1 <= j < h.+1) shift s (- j%:R).
Proof.
have -> : shift (\prod_(1 <= j < h.+1) shift s (- j%:R)) 1 = \prod_(0 <= j < h) shift s (- j%:R).
  rewrite shift_prod big_add1 /=; apply: eq_bigr => j _; rewrite shift_shift; congr (shift _ _).
  by rewrite -addn1 natrD opprD addrNK.
by rewrite -big_nat_recr //= big_nat_recl // oppr0 shift0 big_add1.
Qed.
Lemma step_ratio a0 b0 a b c (h : nat) a' b' c' : split_step ggcd (a, b, c) h = (a', b', c') -> b != 0 -> a0 * b * c = b0 * a * shift c 1 -> a0 * b' * c' = b0 * a' * shift c' 1.
Proof.
case/step_facts=> s [-> -> -> _]; rewrite shiftM; set pr := \prod_(1 <= j < h.+1) _ => nz E.
have E1 := prod_shift s h; rewrite -/pr in E1.
have nzs : shift s (- h%:R) != 0 by apply: contraNneq nz => ->; rewrite mulr0.
apply: (mulIf nzs); set S := shift s (- h%:R) in E E1 *; set P1 := shift pr 1 in E1 *; set c1 := shift c 1 in E *.
have -> : a0 * b' * (c * pr) * S = a0 * (b' * S) * c * pr by rewrite !mulrA mulrAC [a0 * b' * c * S]mulrAC.
rewrite E -[RHS]mulrA -[c1 * P1 * S]mulrA E1 !mulrA; congr (_ * _); exact: mulrAC.
Qed.
Lemma step_coprime a b c (h : nat) a' b' c' : split_step ggcd (a, b, c) h = (a', b', c') -> a != 0 -> coprimep a' (shift b' h%:R).
Proof.
case/step_facts=> s [Ea Eb _ Es] nza.
have nzs : s != 0 by apply: contraNneq nza => s0; rewrite Ea s0 mulr0.
have Eb' : shift b h%:R = shift b' h%:R * s by rewrite Eb shiftM shiftVK.
rewrite /coprimep; set d := gcdp a' _.
have E : s %= d * s by apply: (eqp_trans Es); rewrite Ea Eb' eqp_sym mulp_gcdl.
have nzd : d != 0 by apply: contraTneq E => ->; rewrite mul0r (eqp0 _).
have Sz := eqp_size E; rewrite size_mul // in Sz.
have : (0 < size d)%N by rewrite lt0n size_poly_eq0.
case: (size d) Sz => [|n] // Sz _; move: Sz; rewrite addSn /= -[X in X = _]add0n => /eqP; rewrite eqn_add2r => /eqP <- //.
Qed.
End Two.
