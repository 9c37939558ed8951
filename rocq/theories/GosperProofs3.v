From mathcomp Require Import all_ssreflect all_algebra.
From Verif Require Import GosperModel GosperSpec GosperProofs1.
Set Implicit Arguments.
Unset Strict Implicit.
Unset Printing Implicit Defensive.
Import Order.TTheory GRing.Theory Num.Theory.
Local Open Scope ring_scope.
Implicit Types (a b c p q x f g : {poly rat}) (h : rat).

(** * The coefficients near the top of a product and of a shifted polynomial *)
Lemma coef_high p D i : (size p <= D.+1)%N -> (D < i)%N -> p`_i = 0.
Proof. by move=> S H; rewrite nth_default //; apply: leq_trans S H. Qed.
Lemma coef_shift1 p n : (shift p 1)`_n = \sum_(i < size p) p`_i *+ 'C(i, n).
Proof.
rewrite /shift coef_comp_poly; apply: eq_bigr => i _; rewrite -mulr_natr; congr (_ * _).
rewrite exprDn coef_sum.
transitivity (\sum_(j < i.+1) (if (i - j)%N == n then 'C(i, j)%:R else 0 : rat)).
  apply: eq_bigr => j _; rewrite -polyC_exp expr1n mulr1 coefMn coefXn eq_sym.
  by case: eqP => _; rewrite ?mul0rn.
have [le|lt] := leqP n i.
  have H : (i - n < i.+1)%N by rewrite ltnS leq_subr.
  rewrite (bigD1 (Ordinal H)) //= subKn // eqxx big1 ?addr0 ?bin_sub // => j /eqP nj.
  case: eqP => // E; case: nj; apply: val_inj => /=; rewrite -E subKn // -ltnS; exact: ltn_ord.
rewrite bin_small // big1 // => j _; case: eqP => // E; move: lt; rewrite -E ltnNge leq_subr //.
Qed.
Lemma coef_shift_top p k : size p = k.+1 -> (shift p 1)`_k = p`_k.
Proof.
move=> S; rewrite coef_shift1 S big_ord_recr /= binn big1 ?add0r // => i _.
by rewrite bin_small ?mulr0n //; exact: ltn_ord.
Qed.
Lemma coef_shift_next p k : size p = k.+2 -> (shift p 1)`_k = p`_k + p`_k.+1 *+ k.+1.
Proof.
move=> S; rewrite coef_shift1 S !big_ord_recr /= binn binSn big1 ?add0r // => i _.
by rewrite bin_small ?mulr0n //; exact: ltn_ord.
Qed.
Lemma coef_prod_top p q D k : (size p <= D.+1)%N -> (size q <= k.+1)%N -> (p * q)`_(D + k) = p`_D * q`_k.
Proof.
move=> Sp Sq; have H : (D < (D + k).+1)%N by rewrite ltnS leq_addr.
rewrite coefM (bigD1 (Ordinal H)) //= addKn big1 ?addr0 // => i /eqP ni.
have [lt|ge] := ltnP D i; first by rewrite (coef_high Sp lt) mul0r.
rewrite (@coef_high q k) ?mulr0 //.
have lt : (i < D)%N by rewrite ltn_neqAle ge andbT; apply/eqP => E; case: ni; apply: val_inj.
by rewrite ltn_subRL ltn_add2r.
Qed.
(** The coefficient below the top one. *)
Lemma coef_prod_next p q D k n : (size p <= D.+1)%N -> (size q <= k.+1)%N -> (D + k)%N = n.+1 ->
  (p * q)`_n = coeff_before p D * q`_k + p`_D * coeff_before q k.
Proof.
move=> Sp Sq; case: D Sp => [|D] Sp; case: k Sq => [|k] Sq // E; rewrite /coeff_before.
- move: E; rewrite add0n => -[<-]; rewrite mul0r add0r -[k in LHS]add0n (size1_polyC Sp) mul_polyC coefZ coefC eqxx add0n; by [].
- move: E; rewrite addn0 => -[<-]; rewrite mulr0 addr0 (size1_polyC Sq) mulrC mul_polyC coefZ coefC eqxx; exact: mulrC.
- have En : n = (D + k).+1 by move: E; rewrite addSn addnS => -[].
  have EX : q = \poly_(i < k.+1) q`_i + q`_k.+1 *: 'X^k.+1.
    apply/polyP => i; rewrite coefD coef_poly coefZ coefXn.
    have [lt|ge] := ltnP i k.+1; first by rewrite (ltn_eqF lt) mulr0 addr0.
    case: (eqVneq i k.+1) => [->|ne]; first by rewrite mulr1 add0r.
    by rewrite mulr0 addr0 (coef_high Sq) // ltn_neqAle eq_sym ne.
  rewrite {1}EX mulrDr coefD addrC -scalerAr coefZ coefMXn En ltnS ltnNge leq_addl subSS addnK.
  rewrite [LHS]/(q`_k.+1 * p`_D + (p * \poly_(i < k.+1) q`_i)`_(D + k).+1) mulrC; congr (_ + _).
  rewrite -addSn coef_prod_top //; last exact: size_poly.
  by rewrite coef_poly ltnSn.
Qed.

(** * The degree of a polynomial solution *)
Lemma size_deg p : p != 0 -> size p = (deg p).+1.
Proof. by move=> np; rewrite /deg prednK // size_poly_gt0. Qed.
Lemma size_sub_lead p q : size p = size q -> lead_coef p != lead_coef q -> size (p - q) = size p.
Proof.
move=> S nl; have np : (0 < size p)%N.
  by rewrite lt0n; apply: contra nl; rewrite size_poly_eq0 => /eqP E; move: S; rewrite E size_poly0 => /esym/eqP; rewrite size_poly_eq0 => /eqP ->.
apply/eqP; rewrite eqn_leq (leq_trans (size_add _ _)) ?size_opp ?S ?maxnn //= -S -(prednK np) ltnNge.
apply: contra nl => L; rewrite -subr_eq0 !lead_coefE -S -coefB; apply/eqP; exact: nth_default.
Qed.
Lemma deg_mul p q : p != 0 -> q != 0 -> deg (p * q) = (deg p + deg q)%N.
Proof. by move=> np nq; rewrite /deg size_mul // (size_deg np) (size_deg nq) addnS. Qed.
Lemma deg_shift p h : deg (shift p h) = deg p. Proof. by rewrite /deg size_shift. Qed.
Lemma lead_deg p : lead_coef p = p`_(deg p). Proof. by []. Qed.

(** Distinct degrees or leading coefficients. *)
Lemma degree_distinct a b c x : a != 0 -> b != 0 -> x != 0 -> key_equation a b c x -> (deg a != deg b) || (lead_coef a != lead_coef b) -> deg c = (maxn (deg a) (deg b) + deg x)%N.
Proof.
move=> na nb nx E H.
have nx1 : shift x 1 != 0 by rewrite shift_eq0. have nb1 : shift b (-1) != 0 by rewrite shift_eq0.
have n1 : a * shift x 1 != 0 by rewrite mulf_neq0. have n2 : shift b (-1) * x != 0 by rewrite mulf_neq0.
have S1 : size (a * shift x 1) = (deg a + deg x).+1 by rewrite size_deg // deg_mul // deg_shift.
have S2 : size (shift b (-1) * x) = (deg b + deg x).+1 by rewrite size_deg // deg_mul // deg_shift.
rewrite /key_equation in E.
have [lt|lt|eq] := ltngtP (deg a) (deg b).
- by rewrite -E /deg addrC size_addl ?size_opp ?S1 ?S2 // ltnS ltn_add2r.
- by rewrite -E /deg size_addl ?size_opp ?S1 ?S2 // ltnS ltn_add2r.
- rewrite -E {1}/deg size_sub_lead ?S1 ?S2 ?eq //.
  move: H; rewrite eq eqxx /=; apply: contra; rewrite !lead_coefM !lead_shift => /eqP/(mulIf _) -> //.
  by rewrite lead_coef_eq0.
Qed.
(** Same degree and leading coefficient. *)
Lemma degree_same a b c x : a != 0 -> b != 0 -> c != 0 -> x != 0 -> key_equation a b c x -> deg a = deg b -> lead_coef a = lead_coef b ->
  (deg c < deg a + deg x)%N /\ ((deg c).+1 = (deg a + deg x)%N \/ (deg x)%:R * lead_coef a = coeff_before (shift b (-1)) (deg a) - coeff_before a (deg a)).
Proof.
move=> na nb nc nx E eD eL; rewrite /key_equation in E.
have Sa : (size a <= (deg a).+1)%N by rewrite size_deg.
have Sb : (size (shift b (-1)) <= (deg a).+1)%N by rewrite size_shift size_deg // eD.
have Sx : (size x <= (deg x).+1)%N by rewrite size_deg.
have Sx1 : (size (shift x 1) <= (deg x).+1)%N by rewrite size_shift size_deg.
have Lb : (shift b (-1))`_(deg a) = lead_coef a by rewrite eD -(deg_shift b (-1)) -lead_deg lead_shift eL.
have Lx : (shift x 1)`_(deg x) = x`_(deg x) by rewrite coef_shift_top ?size_deg.
have Z : c`_(deg a + deg x) = 0 by rewrite -E coefB !coef_prod_top // Lb Lx -lead_deg subrr.
have Sc : (size c <= (deg a + deg x).+1)%N.
  rewrite -E (leq_trans (size_add _ _)) // size_opp geq_max; apply/andP; split; apply: (leq_trans (size_mul_leq _ _)).
  - by rewrite (size_deg na) addSn /= -addnS leq_add2l.
  - by rewrite -subn1 leq_subLR add1n -addSn -addnS leq_add.
have L : (deg c < deg a + deg x)%N.
  rewrite ltn_neqAle; apply/andP; split; last by rewrite -ltnS -size_deg.
  by apply: contraNneq nc => Ed; rewrite -lead_coef_eq0 lead_deg Ed Z.
split=> //.
have [n En] : exists n, (deg a + deg x)%N = n.+1 by case: (deg a + deg x)%N L => // n _; exists n.
have Cn : c`_n = (coeff_before a (deg a) - coeff_before (shift b (-1)) (deg a) + (deg x)%:R * lead_coef a) * x`_(deg x).
  rewrite -E coefB !(coef_prod_next _ _ En) // Lb Lx -lead_deg.
  have -> : coeff_before (shift x 1) (deg x) = coeff_before x (deg x) + (deg x)%:R * x`_(deg x).
    case Ek: (deg x) => [|k] /=; first by rewrite mul0r addr0.
    by rewrite coef_shift_next ?size_deg ?Ek // mulr_natl.
  set P := lead_coef a * coeff_before x (deg x).
  rewrite mulrDr -/P opprD addrACA -mulrBl [P + _]addrC addrK [RHS]mulrDl; congr (_ + _).
  by rewrite -!lead_deg mulrCA mulrA.
have [L'|L'] := eqVneq (deg c).+1 n.+1; first by left; rewrite En.
right; apply/eqP; rewrite -subr_eq0 opprB addrC; apply/eqP.
have : c`_n = 0.
  by rewrite nth_default // size_deg // -ltnS ltn_neqAle L' /= -En.
rewrite Cn => /eqP; rewrite mulf_eq0 => /orP [/eqP //|]; by rewrite -lead_deg lead_coef_eq0 (negbTE nx).
Qed.
(** Every polynomial solution has at most the degree that is chosen. *)
Theorem degree_bound a b c x : a != 0 -> b != 0 -> c != 0 -> key_equation a b c x -> exists2 d, degree_x a b c = Some d & (deg x <= d)%N.
Proof.
move=> na nb nc E.
have nx : x != 0 by apply: contraNneq nc => Z; rewrite -E Z /shift comp_poly0 !mulr0 subrr.
rewrite /degree_x; cbv zeta; case H: (_ || _).
  have := degree_distinct na nb nx E H.
  have [lt|le] := ltnP (deg a) (deg b).
  - by move=> ->; rewrite leq_addr /= addKn; exists (deg x).
  - by move=> ->; rewrite leq_addr /= addKn; exists (deg x).
move/negbT: H; rewrite negb_or !negbK => /andP [/eqP eD /eqP eL].
have [L [K|K]] := degree_same na nb nc nx E eD eL.
  have -> : (deg c)%:Z - (deg a)%:Z + 1 = (deg x)%:Z by rewrite addrAC -PoszD addn1 K PoszD addrC addKr.
  case Hc: (_ && _); last by rewrite le0z_nat; exists (deg x).
  case/andP: Hc => /QnatP [m ->]; rewrite pmulrn numq_int le0z_nat ltz_nat => lt; exists m => //; exact: ltnW.
have nl : lead_coef a != 0 by rewrite lead_coef_eq0.
rewrite !shiftE -K mulfK // pmulrn numq_int /=.
have -> : ((deg x)%:~R : rat) \is a Qnat by apply/QnatP; exists (deg x).
case Hc: (_ < _); first by rewrite le0z_nat; exists (deg x).
move/negbT: Hc; rewrite -leNgt; set P := (_ - _ + 1)%R => le.
have P0 : 0 <= P by exact: le_trans (le0z_nat _) le.
by rewrite P0; exists (absz P) => //; rewrite -lez_nat gez0_abs.
Qed.
(** The degree that is chosen leaves no coefficient of c out. *)
Lemma degree_covers a b c d : degree_x a b c = Some d -> (deg c < d.+1 + maxn (deg a) (deg b))%N.
Proof.
rewrite /degree_x; cbv zeta; case H: (_ || _).
  case: ifP => [/andP [le1 le2] [<-]|_]; first by rewrite (maxn_idPl le1) addSn subnK.
  by case: ifP => [/andP [lt1 le2] [<-]|//]; rewrite (maxn_idPr (ltnW lt1)) addSn subnK.
set BA := (_ / _)%R; set P := (_ - _ + 1)%R; set Q := (if (_ \is a Qnat) && _ then _ else _).
have PQ : P <= Q by rewrite /Q; case Hc: (_ && _) => //; case/andP: Hc => _ /ltW.
case: ifP => // Q0 [<-]; rewrite -ltz_nat PoszD -addn1 PoszD gez0_abs //.
apply: (@lt_le_trans _ _ (P + 1 + (deg a)%:Z)).
  by rewrite /P -[_ - _ + 1 + 1]addrA addrAC subrK ltr_addl.
by rewrite ler_add ?ler_add2r // lez_nat leq_maxl.
Qed.

(** * The linear system *)
Section Three.
Context (lsolve : forall r c : nat, 'M[rat]_(r, c) -> 'rV[rat]_c -> option 'rV[rat]_r) (Hl : lsolve_ok lsolve).
Definition poly_of (d : nat) (u : 'rV[rat]_d.+1) : {poly rat} := \sum_(i < d.+1) u 0 i *: 'X^i.
Lemma shift_sum (I : Type) (r : seq I) (F : I -> {poly rat}) h : shift (\sum_(i <- r) F i) h = \sum_(i <- r) shift (F i) h.
Proof. elim: r => [|i r IH]; first by rewrite !big_nil /shift comp_poly0. by rewrite !big_cons shiftD IH. Qed.
Lemma key_linear a b d (u : 'rV[rat]_d.+1) : a * shift (poly_of u) 1 - shift b (-1) * poly_of u = \sum_(i < d.+1) u 0 i *: key_row a b i.
Proof.
rewrite /poly_of shift_sum !mulr_sumr -sumrB; apply: eq_bigr => i _.
by rewrite shiftZ -!scalerAr -scalerBr.
Qed.
Lemma size_key a b d (u : 'rV[rat]_d.+1) : (size (a * shift (poly_of u) 1 - shift b (-1) * poly_of u)%R <= d.+1 + maxn (deg a) (deg b))%N.
Proof.
have Su : (size (poly_of u) <= d.+1)%N.
  rewrite /poly_of; apply: (leq_trans (size_sum _ _ _)); apply/bigmax_leqP => i _; apply: (leq_trans (size_scale_leq _ _)).
  by rewrite size_polyXn.
have B p q : (size q <= d.+1)%N -> (size (p * q)%R <= d.+1 + deg p)%N.
  move=> Sq; have [->|np] := eqVneq p 0; first by rewrite mul0r size_poly0.
  by rewrite (leq_trans (size_mul_leq _ _)) // (size_deg np) addSn /= addnC leq_add2r.
rewrite (leq_trans (size_add _ _)) // size_opp geq_max; apply/andP; split.
- by rewrite (leq_trans (B _ _ _)) ?size_shift // leq_add2l leq_maxl.
- by rewrite (leq_trans (B _ _ _)) // deg_shift leq_add2l leq_maxr.
Qed.
Lemma solves_iff a b c d (u : 'rV[rat]_d.+1) : degree_x a b c = Some d ->
  (u *m (\matrix_(i < d.+1, j < equations a b c d) (key_row a b i)`_j) = \row_(j < equations a b c d) c`_j) <-> key_equation a b c (poly_of u).
Proof.
move=> Hd; have Dc := degree_covers Hd; have Sk := size_key a b u.
have C j : (a * shift (poly_of u) 1 - shift b (-1) * poly_of u)`_j = \sum_(i < d.+1) u 0 i * (key_row a b i)`_j.
  by rewrite key_linear coef_sum; apply: eq_bigr => i _; rewrite coefZ.
split=> [E|E].
- apply/polyP => j; have [lt|ge] := ltnP j (equations a b c d).
    move/matrixP/(_ 0 (Ordinal lt)): E; rewrite !mxE /= C => <-; apply: eq_bigr => i _; by rewrite !mxE.
  have ge1 : (d.+1 + maxn (deg a) (deg b) <= j)%N by rewrite (leq_trans _ ge) // leq_maxl.
  rewrite !nth_default // (leq_trans _ ge1) //.
  by have [->|nc] := eqVneq c 0; rewrite ?size_poly0 // size_deg.
- have Cj j : c`_j = \sum_(i < d.+1) u 0 i * (key_row a b i)`_j by rewrite -C; congr (_`_j); rewrite E.
  apply/rowP => j; rewrite !mxE Cj; apply: eq_bigr => i _; by rewrite !mxE.
Qed.
(** Step three finds a polynomial solution whenever there is one. *)
Theorem step_three_ok a b c : a != 0 -> b != 0 -> c != 0 ->
  match step_three lsolve a b c with
  | Some x => key_equation a b c x
  | None => forall x, ~ key_equation a b c x
  end.
Proof.
move=> na nb nc; rewrite /step_three; case Hd: (degree_x a b c) => [d|]; last first.
  by move=> x /(degree_bound na nb nc) [d]; rewrite Hd.
rewrite /find_solution; have := @Hl _ _ (\matrix_(i < d.+1, j < equations a b c d) (key_row a b i)`_j) (\row_(j < equations a b c d) c`_j).
case: (lsolve _ _) => [u /(solves_iff _ Hd) //|H x E].
have [d' Hd' le] := degree_bound na nb nc E; move: Hd'; rewrite Hd => -[Ed]; rewrite -{}Ed {d'} in le.
apply: (H (\row_(i < d.+1) x`_i)); apply/(solves_iff _ Hd).
suff -> : poly_of (\row_(i < d.+1) x`_i) = x by [].
have Sx : (size x <= d.+1)%N by have [->|nx] := eqVneq x 0; rewrite ?size_poly0 // size_deg.
transitivity (\poly_(i < d.+1) x`_i); first by rewrite poly_def /poly_of; apply: eq_bigr => i _; rewrite mxE.
apply/polyP => i; rewrite coef_poly; case: ltnP => // ge; by rewrite nth_default // (leq_trans Sx ge).
Qed.
End Three.
