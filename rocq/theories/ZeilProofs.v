From mathcomp Require Import all_ssreflect all_algebra.
From Verif Require Import ZeilModel ZeilSpec.
Require Import Ring.
Set Implicit Arguments.
Unset Strict Implicit.
Unset Printing Implicit Defensive.
Import Order.TTheory GRing.Theory Num.Theory.
Local Open Scope ring_scope.

Section Shift.
Context (K : fieldType).
Implicit Types (a b c p q x f g : {poly K}) (h k : K).
Lemma shiftE p h : sub_shift p h = shift p h. Proof. by []. Qed.
Lemma shiftM p q h : shift (p * q) h = shift p h * shift q h. Proof. exact: comp_polyM. Qed.
Lemma shiftD p q h : shift (p + q) h = shift p h + shift q h. Proof. exact: comp_polyD. Qed.
Lemma shiftZ u p h : shift (u *: p) h = u *: shift p h. Proof. exact: comp_polyZ. Qed.
Lemma shift1 h : shift (1 : {poly K}) h = 1. Proof. exact: comp_polyC. Qed.
Lemma shiftC (u : K) h : shift u%:P h = u%:P. Proof. exact: comp_polyC. Qed.
Lemma shiftX h : shift 'X h = 'X + h%:P. Proof. by rewrite /shift comp_polyX. Qed.
Lemma shift0 p : shift p 0 = p. Proof. by rewrite /shift addr0 comp_polyXr. Qed.
Lemma shift_shift p h k : shift (shift p h) k = shift p (h + k).
Proof. by rewrite /shift -comp_polyA comp_polyD comp_polyX comp_polyC -addrA [k%:P + _]addrC -polyCD. Qed.
Lemma shiftK p h : shift (shift p h) (- h) = p. Proof. by rewrite shift_shift subrr shift0. Qed.
Lemma shiftVK p h : shift (shift p (- h)) h = p. Proof. by rewrite shift_shift addNr shift0. Qed.
Lemma shift_inj h : injective (fun p => shift p h). Proof. exact: (can_inj (fun p => shiftK p h)). Qed.
Lemma horner_shift p h u : (shift p h).[u] = p.[u + h]. Proof. by rewrite horner_comp hornerD hornerX hornerC. Qed.
Lemma size_shift p h : size (shift p h) = size p. Proof. by rewrite size_comp_poly2 // size_XaddC. Qed.
Lemma shift_eq0 p h : (shift p h == 0) = (p == 0). Proof. by rewrite -!size_poly_eq0 size_shift. Qed.
Lemma shift_prod (I : Type) (r : seq I) (F : I -> {poly K}) h : shift (\prod_(i <- r) F i) h = \prod_(i <- r) shift (F i) h.
Proof. elim: r => [|i r IH]; first by rewrite !big_nil shift1. by rewrite !big_cons shiftM IH. Qed.
Lemma shift_sum (I : Type) (r : seq I) (F : I -> {poly K}) h : shift (\sum_(i <- r) F i) h = \sum_(i <- r) shift (F i) h.
Proof. elim: r => [|i r IH]; first by rewrite !big_nil /shift comp_poly0. by rewrite !big_cons shiftD IH. Qed.
Lemma dvdp_shift p q h : (shift p h %| shift q h) = (p %| q).
Proof.
apply/idP/idP => /dvdpP [r E]; apply/dvdpP.
- by exists (shift r (- h)); apply: (@shift_inj h) => /=; rewrite shiftM shiftVK.
- by exists (shift r h); rewrite E shiftM.
Qed.
End Shift.

(** * Step two *)
Section Two.
Context (K : fieldType) (ggcd : {poly K} -> {poly K} -> {poly K}) (Hg : gcd_ok ggcd).
Implicit Types (a b c p q : {poly K}).
Lemma ggcd_dvdl p q : ggcd p q %| p. Proof. by rewrite (eqp_dvdl _ (Hg p q)) dvdp_gcdl. Qed.
Lemma ggcd_dvdr p q : ggcd p q %| q. Proof. by rewrite (eqp_dvdl _ (Hg p q)) dvdp_gcdr. Qed.
Lemma step_facts a b c (h : nat) a' b' c' : split_step ggcd (a, b, c) h = (a', b', c') -> exists s, [/\ a = a' * s, b = b' * shift s (- h%:R) & c' = c * \prod_(1 <= j < h.+1) shift s (- j%:R)].
Proof.
rewrite /split_step => -[<- <- <-]; rewrite !shiftE; set s := ggcd a (shift b h%:R); exists s; split=> //.
- by rewrite divpK // ggcd_dvdl.
- by rewrite divpK // -(dvdp_shift _ _ h%:R) shiftVK ggcd_dvdr.
Qed.
Lemma prod_shift (s : {poly K}) (h : nat) : shift (\prod_(1 <= j < h.+1) shift s (- j%:R)) 1 * shift s (- h%:R) = s * \prod_(1 <= j < h.+1) shift s (- j%:R).
Proof.
have -> : shift (\prod_(1 <= j < h.+1) shift s (- j%:R)) 1 = \prod_(0 <= j < h) shift s (- j%:R).
  rewrite shift_prod big_add1 /=; apply: eq_bigr => j _; rewrite shift_shift; congr (shift _ _).
  by rewrite -addn1 natrD opprD addrNK.
by rewrite -big_nat_recr //= big_nat_recl // oppr0 shift0 big_add1.
Qed.
Definition ratio_kept f g a b c : Prop := b != 0 /\ f * b * c = g * a * shift c 1.
Lemma step_ratio f g a b c (h : nat) a' b' c' : split_step ggcd (a, b, c) h = (a', b', c') -> ratio_kept f g a b c -> ratio_kept f g a' b' c'.
Proof.
case/step_facts=> s [-> -> ->]; rewrite /ratio_kept shiftM; set pr := \prod_(1 <= j < h.+1) _ => -[nz E].
have E1 := prod_shift s h; rewrite -/pr in E1.
have nzs : shift s (- h%:R) != 0 by apply: contraNneq nz => ->; rewrite mulr0.
split; first by apply: contraNneq nz => ->; rewrite mul0r.
apply: (mulIf nzs); set S := shift s (- h%:R) in E E1 *; set P1 := shift pr 1 in E1 *; set c1 := shift c 1 in E *.
have -> : f * b' * (c * pr) * S = f * (b' * S) * c * pr by rewrite !mulrA mulrAC [f * b' * c * S]mulrAC.
rewrite E -[RHS]mulrA -[c1 * P1 * S]mulrA E1 !mulrA; congr (_ * _); exact: mulrAC.
Qed.
Lemma fold_ratio f g (t : bool) hs : forall a b c a' b' c', foldl (fun st h => if t then split_step ggcd st h else st) (a, b, c) hs = (a', b', c') ->
  ratio_kept f g a b c -> ratio_kept f g a' b' c'.
Proof.
elim: hs => [|h hs IH] a b c a' b' c'; first by case=> <- <- <-.
rewrite -[foldl _ _ _]/(foldl (fun st h => if t then split_step ggcd st h else st) (if t then split_step ggcd (a, b, c) h else (a, b, c)) hs).
case: t IH => IH; last exact: IH.
case Es: (split_step _ _ _) => [[a1 b1] c1] Ef R; exact: IH Ef (step_ratio Es R).
Qed.
Lemma step_two_ratio numden (Hn : fraction_ok numden) r s p1 p2 p3 : s != 0 -> step_two ggcd numden r s = (p2, p3, p1) -> p3 != 0 /\ r * p3 * p1 = s * p2 * shift p1 1.
Proof.
move=> ns; rewrite /step_two; move: (iota 1 100) => hs; have := Hn r s ns; case: (numden r s) => num den [nd E] H.
move: nd E; rewrite -[(num, den).1]/num -[(num, den).2]/den => nd E; apply: (fold_ratio H).
by split=> //; rewrite shift1 !mulr1 [RHS]mulrC E mulrC.
Qed.
(** Coprime numerators and denominators stay. *)
Lemma step_two_coprime numden r s num den : numden r s = (num, den) -> (deg (ggcd num den) = 0)%N -> step_two ggcd numden r s = (num, den, 1).
Proof. by move=> E D; rewrite /step_two E D; move: (iota 1 100) => l; elim: l. Qed.
End Two.

(** * Step three *)
Section Three.
Context (K : fieldType) (lsolve : forall n c : nat, 'M[K]_(n, c) -> 'M[K]_n) (Hl : lsolve_ok lsolve).
Implicit Types (p q b : {poly K}).
Lemma size_deg p : (size p <= (deg p).+1)%N. Proof. by rewrite /deg; case: (size p). Qed.
Lemma deg_shift p h : deg (shift p h) = deg p. Proof. by rewrite /deg size_shift. Qed.
Lemma size_key p2 p3 (d : nat) (w : nat -> K) : (size (p2 * shift (\sum_(i < d.+1) w i *: 'X^i) 1 - shift p3 (-1) * (\sum_(i < d.+1) w i *: 'X^i))%R <= d.+1 + maxn (deg p2) (deg p3))%N.
Proof.
set b := \sum_(i < _) _.
have Sb : (size b <= d.+1)%N.
  rewrite /b; apply: (leq_trans (size_sum _ _ _)); apply/bigmax_leqP => i _; apply: (leq_trans (size_scale_leq _ _)).
  by rewrite size_polyXn.
have B p q : (size q <= d.+1)%N -> (size (p * q)%R <= d.+1 + deg p)%N.
  move=> Sq; have [->|np] := eqVneq p 0; first by rewrite mul0r size_poly0.
  rewrite (leq_trans (size_mul_leq _ _)) //; have := size_deg p; case: (size p) (size q) Sq => [|m] n Sn Sm; first by rewrite add0n (leq_trans (leq_pred n)) // (leq_trans Sn) // leq_addr.
  by rewrite addSn /= addnC leq_add.
rewrite (leq_trans (size_add _ _)) // size_opp geq_max; apply/andP; split.
- by rewrite (leq_trans (B _ _ _)) ?size_shift // leq_add2l leq_maxl.
- by rewrite (leq_trans (B _ _ _)) // deg_shift leq_add2l leq_maxr.
Qed.
Lemma key_linear p2 p3 (d : nat) (w : nat -> K) : p2 * shift (\sum_(i < d.+1) w i *: 'X^i) 1 - shift p3 (-1) * (\sum_(i < d.+1) w i *: 'X^i) = \sum_(i < d.+1) w i *: key_row p2 p3 i.
Proof.
rewrite shift_sum !mulr_sumr -sumrB; apply: eq_bigr => i _.
by rewrite shiftZ -!scalerAr -scalerBr.
Qed.
Theorem step_three_ok order p2 p3 ps b a : step_three lsolve order p2 p3 ps = Some (b, a) ->
  b != 0 /\ p2 * shift b 1 - shift p3 (-1) * b = \sum_(0 <= j < order.+1) a j *: ps j.
Proof.
rewrite /step_three; set degc := \max_(j < _) _; case: (degree_x _ _ _) => // d; cbv zeta.
set N := unknowns _ _ _ _; set n := (N + order.+1)%N; set M := \matrix_(i, j) _; set u := _ *m _.
pose value := entry u.
case Eb: (_ == 0) => // -[<- <-]; rewrite -/value; split; first by rewrite Eb.
have [HS _] := Hl M.
have uM : u *m M = 0 by rewrite /u -mulmxA HS mulmx0.
have Hu (i : 'I_n) : u 0 i = value i by rewrite /value /entry valK.
clearbody value; clear Eb HS; clearbody u.
have dN : (d < N)%N by rewrite /N /unknowns leq_max leq_addr.
have Nd : (N = d.+1 + (N - d.+1))%N by rewrite subnKC.
have E j : (j < n)%N -> (\sum_(i < d.+1) value i *: key_row p2 p3 i)`_j = (\sum_(0 <= i < order.+1) value (N + i)%N *: ps i)`_j.
  move=> lt; move/rowP/(_ (Ordinal lt)): uM; rewrite !mxE => H.
  have {}H : \sum_(0 <= i < n) value i * (system_row p2 p3 ps d N i)`_j = 0.
    by rewrite big_mkord -[RHS]H; apply: eq_bigr => i _; rewrite mxE Hu.
  move: H; rewrite /n (@big_cat_nat _ _ _ N) ?leq_addr //= (@big_cat_nat _ _ _ d.+1) //=.
  rewrite [X in _ + X + _ = _](_ : _ = 0); last first.
    rewrite big_nat big1 // => i /andP [l1 l2]; rewrite /system_row leqNgt l1 /= l2 coef0 mulr0 //.
  rewrite addr0 => H.
  have H1 : \sum_(0 <= i < d.+1) value i * (system_row p2 p3 ps d N i)`_j = (\sum_(i < d.+1) value i *: key_row p2 p3 i)`_j.
    rewrite coef_sum big_mkord; apply: eq_bigr => i _; rewrite coefZ /system_row.
    by have -> : (i <= d)%N by rewrite -ltnS.
  have H2 : \sum_(N <= i < N + order.+1) value i * (system_row p2 p3 ps d N i)`_j = - (\sum_(0 <= i < order.+1) value (N + i)%N *: ps i)`_j.
    rewrite -{1}[N]add0n [(N + _)%N]addnC big_addn addnK coef_sum -sumrN; apply: eq_bigr => i _.
    rewrite coefZ /system_row [(i + N)%N]addnC addKn leqNgt (leq_trans dN (leq_addr _ _)) /= ltnNge leq_addr /= coefN mulrN //.
  by move/eqP: H; rewrite H1 H2 subr_eq0 => /eqP.
rewrite key_linear; apply/polyP => j; have [lt|ge] := ltnP j n; first exact: E.
rewrite [RHS]nth_default; last first.
  rewrite big_mkord (leq_trans (size_sum _ _ _)) //; apply/bigmax_leqP => i _; rewrite (leq_trans (size_scale_leq _ _)) //.
  rewrite (leq_trans (size_deg _)) // (leq_trans _ ge) // /n addnS ltnS.
  rewrite (@leq_trans degc) //; first by rewrite /degc (leq_bigmax i).
  by rewrite (leq_trans _ (leq_addr _ _)) // /N /unknowns leq_maxr.
rewrite nth_default // -key_linear (leq_trans (size_key _ _ _ _)) // (leq_trans _ ge) // (leq_trans _ (leq_addr _ _)) // /N /unknowns leq_maxl //.
Qed.
End Three.
