(** C68, C69: Zeilberger's algorithm (src/zeilberger.cc). *)
From mathcomp Require Import all_ssreflect all_algebra.
From Verif Require Import ZeilModel ZeilSpec ZeilProofs ZeilProofs2 ZeilCases PolyRing.
Set Implicit Arguments.
Unset Strict Implicit.
Unset Printing Implicit Defensive.
Import Order.TTheory GRing.Theory Num.Theory.
Local Open Scope ring_scope.

(** * C68 *)
Section Theorems.
Context (K : fieldType) (ggcd : {poly K} -> {poly K} -> {poly K}) (numden : {poly K} -> {poly K} -> {poly K} * {poly K}) (lsolve : forall n c : nat, 'M[K]_(n, c) -> 'M[K]_n).
Context (Hg : gcd_ok ggcd) (Hn : fraction_ok numden) (Hl : lsolve_ok lsolve).
Context (order : nat) (s1 s2 : nat -> {poly K}) (r1 r2 : {poly K}) (nr : r2 != 0) (ns : forall j, (0 < j <= order)%N -> s2 j != 0).
Context (b : {poly K}) (a : nat -> K) (p1 p2 p3 : {poly K}).
(** Step two: r(k)/s(k) = p1(k+1)/p1(k) p2(k)/p3(k). *)
Theorem C68_step_two r s : s != 0 -> step_two ggcd numden r s = (p2, p3, p1) -> p3 != 0 /\ r * p3 * p1 = s * p2 * shift p1 1.
Proof. exact: step_two_ratio. Qed.
Context (run : for_order ggcd numden lsolve order s1 s2 r1 r2 = Some (b, a, (p1, p2, p3))).
(** a_0 F(m, k) + ... + a_J F(m+J, k) = G(k+1) - G(k) for G(k) = p3(k-1) b(k) F(m, k) / (s2_1(k) ... s2_J(k) p1(k)). *)
Theorem C68_telescopes (V : fieldType) (phi : {rmorphism K -> V}) (F : nat -> int -> V) (k : int) :
  ratio_in_m phi order s1 s2 F k -> ratio_in_k phi r1 r2 F k -> r2.[k%:~R] != 0 -> regular order s2 k -> regular order s2 (k + 1) -> p1.[k%:~R] != 0 -> p1.[(k + 1)%:~R] != 0 ->
  let G (k : int) := phi (p3.[(k - 1)%:~R] * b.[k%:~R]) * (F 0%N k / phi ((\prod_(1 <= i < order.+1) s2 i) * p1).[k%:~R]) in
  combination phi order a (fun j => F j k) = G (k + 1) - G k.
Proof.
move=> Rm Rk nr2 g0 g1 n0 n1; have [_ _ R E] := run_ok Hg Hn Hl (s_k_neq0 nr ns) run.
have A (z : int) : regular order s2 z -> p1.[z%:~R] != 0 -> (prod_s order s2 * p1).[z%:~R] != 0.
  move=> g n; rewrite hornerM mulf_neq0 // /prod_s horner_prod prodf_seq_neq0; apply/allP => j; rewrite mem_index_iota => lt; exact: g.
exact: (telescope E R Rm Rk nr2 (A _ g0 n0) (A _ g1 n1)).
Qed.
(** The same without divisions: F(m+j, k) = H(k) s1_1(k) ... s1_j(k) s2_(j+1)(k) ... s2_J(k) p1(k) and H(k+1)/H(k) = p2(k)/p3(k). *)
Theorem C68_telescopes_reduced (V : fieldType) (phi : {rmorphism K -> V}) (F : nat -> int -> V) (H : int -> V) (k : int) :
  (forall j, (j <= order)%N -> F j k = H k * phi ((\prod_(1 <= i < j.+1) s1 i) * (\prod_(j.+1 <= i < order.+1) s2 i) * p1).[k%:~R]) -> H (k + 1) * phi p3.[k%:~R] = H k * phi p2.[k%:~R] ->
  let G (k : int) := phi (p3.[(k - 1)%:~R] * b.[k%:~R]) * H k in combination phi order a (fun j => F j k) = G (k + 1) - G k.
Proof. move=> HF HH; have [_ _ _ E] := run_ok Hg Hn Hl (s_k_neq0 nr ns) run; exact: (telescope_reduced E HF HH). Qed.
(** So the sums x(m+j) of F(m+j, k) over k satisfy a_0 x(m) + ... + a_J x(m+J) = 0, if H is 0 at both ends. *)
Theorem C68_recurrence (V : fieldType) (phi : {rmorphism K -> V}) (F : nat -> int -> V) (H : int -> V) (lo : int) (n : nat) :
  (forall k : int, lo <= k -> k < lo + n%:Z ->
    (forall j, (j <= order)%N -> F j k = H k * phi ((\prod_(1 <= i < j.+1) s1 i) * (\prod_(j.+1 <= i < order.+1) s2 i) * p1).[k%:~R]) /\ H (k + 1) * phi p3.[k%:~R] = H k * phi p2.[k%:~R]) ->
  H lo = 0 -> H (lo + n%:Z) = 0 -> combination phi order a (fun j => sum_from (F j) lo n) = 0.
Proof.
move=> A Hlo Hhi; rewrite combination_sum.
rewrite (@sum_telescope V _ (fun k : int => phi (p3.[(k - 1)%:~R] * b.[k%:~R]) * H k)); first by rewrite Hlo Hhi !mulr0 subr0.
by move=> k l u; have [HF HH] := A k l u; apply: C68_telescopes_reduced.
Qed.
(** Not all coefficients are 0 (b is not, and satisfies the equation). *)
Theorem C68_certificate : [/\ b != 0, p3 != 0 & p2 * shift b 1 - shift p3 (-1) * b = \sum_(0 <= j < order.+1) a j *: ((\prod_(1 <= i < j.+1) s1 i) * (\prod_(j.+1 <= i < order.+1) s2 i) * p1)].
Proof. by have [? ? _ E] := run_ok Hg Hn Hl (s_k_neq0 nr ns) run. Qed.
End Theorems.
(** The orders from 1 to 9 are tried, the first one that succeeds is taken, and false is returned only if none does. *)
Theorem C68_orders (R : Type) (fixed : nat -> option R) :
  match algorithm fixed with
  | Some (i, r) => [/\ (0 < i < 10)%N, fixed i = Some r & forall j, (0 < j < i)%N -> fixed j = None]
  | None => forall i, (0 < i < 10)%N -> fixed i = None
  end.
Proof. exact: algorithm_ok. Qed.

(** * Cases for C68 *)
Lemma coprime_lin (u v : rat) : u != v -> coprimep (lin u 1) (lin v 1).
Proof.
move=> nuv; have E : lin v 1 = 'X - (- v)%:P by rewrite /lin scale1r polyCN opprK.
by rewrite E coprimep_XsubC rootE horner_lin mul1r subr_eq0.
Qed.
Definition nd0 (r s : {poly rat}) : {poly rat} * {poly rat} := (r, s).
Lemma nd0_ok : fraction_ok nd0. Proof. by move=> r s ns; split=> //; rewrite mulrC. Qed.
(** Step two does not look for common factors of p2(k) and p3(k+h) if those of p2(k) and p3(k) are constant: (k+1)/k. *)
Theorem C68_dispersion_refuted : exists r s p1 p2 p3 : {poly rat}, [/\ fraction_ok nd0, coprimep r s, step_two (@gcdp _) nd0 r s = (p2, p3, p1) & ~~ coprimep p2 (shift p3 1)].
Proof.
exists (lin 1 1), (lin 0 1), 1, (lin 1 1), (lin 0 1); have C := @coprime_lin 1 0 (oner_neq0 _); split=> //; first exact: nd0_ok.
- by apply: step_two_coprime => //; rewrite /deg (eqP C).
- rewrite shift_lin mul1r add0r coprimepp size_lin ?oner_eq0 //.
Qed.
(** F(m, k) = (C(2k, k)/4^k)^2 / ((k+1)(k+2)), with F(m, k+1)/F(m, k) = (k + 1/2)^2/((k+1)(k+3)): the equation has a solution, and no order finds one,
    since the number B - A is not used in the choice of the degree. *)
Definition half : rat := 1%:R / 2%:R.
Theorem C68_degree_refuted : exists r1 r2 b : {poly rat}, [/\ b != 0, r1 * shift b 1 - shift r2 (-1) * b = (9%:R / 16%:R)%:P, coprimep r1 r2 &
  forall lsolve order, for_order (@gcdp _) nd0 lsolve order (fun _ => 1) (fun _ => 1) r1 r2 = None].
Proof.
have C1 : coprimep (lin half 1) (lin 1 1) by apply: coprime_lin.
have C3 : coprimep (lin half 1) (lin 3%:R 1) by apply: coprime_lin.
have C : coprimep (lin half 1 * lin half 1) (lin 1 1 * lin 3%:R 1) by rewrite !coprimepMl !coprimepMr C1 C3.
exists (lin half 1 * lin half 1), (lin 1 1 * lin 3%:R 1), (lin (5%:R / 4%:R) 1); split=> //.
- by rewrite -size_poly_eq0 size_lin ?oner_eq0.
- have L (n : nat) u v : u = n%:R / 4%:R -> v = 1 -> lin u v = 'X + (4%:R^-1)%:P *+ n by move=> -> ->; rewrite /lin scale1r -polyCMn -[4%:R^-1 *+ n]mulr_natl.
  rewrite shiftM !shift_lin.
  have -> : lin half 1 = 'X + (4%:R^-1)%:P *+ 2 by apply: L => //; apply/eqP.
  have -> : lin (5%:R / 4%:R) 1 = 'X + (4%:R^-1)%:P *+ 5 by apply: L.
  have -> : lin (5%:R / 4%:R + 1 * 1) 1 = 'X + (4%:R^-1)%:P *+ 9 by apply: L => //; apply/eqP.
  have -> : lin (1 + 1 * -1) 1 = 'X + (4%:R^-1)%:P *+ 0 by apply: L => //; apply/eqP.
  have -> : lin (3%:R + 1 * -1) 1 = 'X + (4%:R^-1)%:P *+ 8 by apply: L => //; apply/eqP.
  have E1 : 1 = (4%:R^-1)%:P *+ 4 :> {poly rat} by rewrite -polyCMn -mulr_natr mulVf.
  have E9 : (9%:R / 16%:R)%:P = (4%:R^-1)%:P * (4%:R^-1)%:P *+ 9 :> {poly rat} by rewrite -polyCM -polyCMn; congr (_%:P); apply/eqP.
  rewrite E9 -[X in _ = X *+ 9]mulr1 [X in _ = _ * X *+ 9]E1 !mulrS !mulr0n.
  move: (4%:R^-1)%:P => q; pring.
- move=> lsolve order; rewrite /for_order.
  have P1 (n m : nat) : \prod_(n <= i < m) (1 : {poly rat}) = 1 by exact: big1_eq.
  have -> : r_k order (fun _ => 1) (lin half 1 * lin half 1) = lin half 1 * lin half 1 by rewrite /r_k P1 mulr1.
  have -> : s_k order (fun _ => 1) (lin 1 1 * lin 3%:R 1) = lin 1 1 * lin 3%:R 1 by rewrite /s_k shiftE shift1 P1 mulr1.
  rewrite (@step_two_coprime _ _ nd0 _ _ _ _ erefl) ?/deg ?(eqP C) // /step_three.
  have -> : \max_(j < order.+1) deg (p0_part order (fun _ => 1%R) (fun _ => 1%R) j * 1%R : {poly rat})%R = 0%N.
    by apply: big1 => j _; rewrite /p0_part !P1 !mulr1 /deg size_poly1.
  have D u v : deg (lin u 1 * lin v 1) = 2%N by rewrite /deg size_mul ?size_lin -?size_poly_eq0 ?size_lin ?oner_eq0.
  by rewrite /degree_x !D !lead_coefM !lead_lin ?oner_eq0.
Qed.

(** The terms C(m+c, k+e) at a fixed m: order 1, with 2 x(m) = x(m+1). *)
Definition Cz (M : nat) (k : int) : rat := if k is Posz k then 'C(M, k)%:R else 0.
Lemma Cz_down M k : Cz M.+1 k * ((M.+1)%:R - k%:~R) = M.+1%:R * Cz M k.
Proof.
case: k => [k|k] /=; last by rewrite mul0r mulr0.
have [le|gt] := leqP k M.+1; last by rewrite !bin_small ?mul0r ?mulr0 // ltnW.
by rewrite -natrB // -!natrM mulnC -mul_bin_down.
Qed.
Lemma Cz_left M k : Cz M (k + 1) * (k%:~R + 1) = Cz M k * (M%:R - k%:~R).
Proof.
case: k => [k|[|k]]; last 2 first.
- by rewrite NegzE addNr [LHS]mulrC [(- 1%:Z)%:~R]mulrNz mulr1z addNr mul0r mul0r.
- have -> : Negz k.+1 + 1 = Negz k by rewrite !NegzE -addn1 PoszD opprD addrNK.
  by rewrite /= !mul0r.
have -> : k%:Z + 1 = k.+1%:Z by rewrite -addn1 PoszD.
rewrite /Cz -[k%:~R + 1](_ : k.+1%:R = _); last by rewrite -addn1 natrD.
have [le|gt] := leqP k M; last by rewrite !bin_small ?mul0r // ltnW.
by rewrite -pmulrn -natrB // -!natrM mulnC mul_bin_left mulnC.
Qed.
Lemma posM (M : nat) : (M%:R + 1 : rat) != 0 /\ (M%:R + 1 + 1 : rat) != 0.
Proof. by rewrite -[1]/(1%:R) -!natrD !addn1 !pnatr_eq0. Qed.
Example C68_binomials (M : nat) (e : int) : exists a, [/\ exists b p1 p2 p3, for_order (@gcdp _) (nd1 M%:R e%:~R) (lsolve1 basis) 1 (s1 M%:R) (s2 M%:R e%:~R) (r1 M%:R e%:~R) (r2 e%:~R) = Some (b, a, (p1, p2, p3)),
  a 0%N = -1 - 1, a 1%N = 1 & forall n : nat, (M.+1 < n)%N ->
  combination [rmorphism of (@idfun rat)] 1 a (fun j => sum_from (fun k => Cz (M + j) (k + e)) (- e - 1) n.+1) = 0].
Proof.
have [n1 n2] := posM M; have [a [E a0 a1]] := binomial_run e%:~R n1 n2; exists a; split=> //; first by do 4!eexists; exact: E.
move=> n lt.
have nr : r2 e%:~R != 0 by rewrite -size_poly_eq0 size_lin ?oner_eq0.
have ns j : (0 < j <= 1)%N -> s2 M%:R e%:~R j != 0 by rewrite -size_poly_eq0 size_lin ?oppr_eq0 ?oner_eq0.
apply: (C68_recurrence gcd0_ok (@numden1_ok _ _ _ _) (@lsolve1_ok _) nr ns E (H := fun k => Cz M.+1 (k + e) / M.+1%:R)).
- move=> k _ _; split.
    case=> [|[|j]] // _; rewrite mulr1 [RHS]/= [LHS]/= ?addn0 ?addn1.
      rewrite big_geq // mul1r big_nat1 horner_lin mulN1r -[M%:R + 1%:R]natrD addn1.
      rewrite mulrAC -addrA -opprD -intrD [e + k]addrC Cz_down [_ * Cz _ _]mulrC mulfK // pnatr_eq0 //.
    rewrite big_nat1 [\prod_(2 <= i < 2) _]big_geq // mulr1 horner_lin mul0r addr0 -[M%:R + 1%:R]natrD addn1 divfK // pnatr_eq0 //.
  rewrite [LHS]/= [RHS]/= !horner_lin mul1r mulN1r mulrAC [RHS]mulrAC; congr (_ / _).
  have -> : k + 1 + e = k + e + 1 by rewrite addrAC.
  have -> : e%:~R + 1 + k%:~R = (k + e)%:~R + 1 :> rat by rewrite intrD addrAC [e%:~R + _]addrC.
  rewrite Cz_left intrD opprD; congr (_ * _); rewrite -[1]/(1%:R) -natrD addn1 -addrA [- e%:~R + _]addrC //.
- by rewrite addrAC addNr add0r /= mul0r.
- have -> : - e - 1 + n.+1%:Z + e = n%:Z by rewrite addrAC [- e - 1 + e]addrAC addNr add0r -addn1 PoszD [n%:Z + 1]addrC addKr.
  by rewrite /= bin_small // mul0r.
Qed.

(** * C69 *)
(** The result is the sum of F(n, k) over all k, if the sums satisfy the recurrence (C68), and if F(i, k) = 0 for k > 10 at the places of the initial conditions. *)
Theorem C69_sum_partial (V : fieldType) (order first : nat) (a : nat -> nat -> V) (F : nat -> nat -> V) (B : nat -> nat) (y : nat -> V) :
  (forall n k, (B n <= k)%N -> F n k = 0) ->
  (forall n, (first <= n)%N -> \sum_(0 <= j < order.+1) a n j * (\sum_(0 <= k < B (n + j)%N) F (n + j)%N k) = 0) ->
  (forall n, (first <= n)%N -> a n order != 0 /\ rhs order (a n) (fun i => y (n + i)%N) = Some (y n)) ->
  (forall i, (i < order)%N -> (B (first + i) <= 11)%N /\ y (first + i)%N = initial_value (F (first + i)%N)) ->
  forall n, (first <= n)%N -> y n = \sum_(0 <= k < B n) F n k.
Proof.
move=> Hz Hr Hy Hi n le; set x := fun n => \sum_(0 <= k < B n) F n k; rewrite -[RHS]/(x n).
rewrite -(subnKC le); move: (n - first)%N => {n le} i; elim/ltn_ind: i => i IH.
have [lt|ge] := ltnP i order.
  have [le ->] := Hi i lt; rewrite /x /initial_value (@big_cat_nat _ _ _ (B (first + i)%N)) //= [X in _ + X](_ : _ = 0) ?addr0 //.
  by rewrite big_nat big1 // => k /andP [l _]; apply: Hz.
set n := (first + (i - order))%N; have Ei : (first + i = n + order)%N by rewrite /n -addnA subnK.
have ln : (first <= n)%N by rewrite /n leq_addr.
have [na Ry] := Hy n ln; have Rx := Hr n ln; rewrite Ei.
have Ry' : \sum_(0 <= j < order.+1) a n j * y (n + j)%N = 0.
  move: Ry; rewrite /rhs; case: eqP => // /eqP n0 [Ey]; rewrite big_nat_recl // addn0 -Ey mulrC mulfVK // addrC; apply/eqP; rewrite subr_eq0; apply/eqP.
  by rewrite [RHS]big_add1.
move: Rx Ry'; rewrite -[\sum_(0 <= j < _) a n j * (\sum_(0 <= k < _) _)]/(\sum_(0 <= j < order.+1) a n j * x (n + j)%N).
rewrite !big_nat_recr //= => Rx Ry'; apply: (mulfI na).
have E : \sum_(0 <= j < order) a n j * y (n + j)%N = \sum_(0 <= j < order) a n j * x (n + j)%N.
  apply: eq_big_nat => j /andP [_ ltj]; congr (_ * _).
  have -> : (n + j = first + (i - order + j))%N by rewrite /n addnA.
  by apply: IH; rewrite -[X in (_ < X)%N](subnK ge) ltn_add2l.
by move/eqP: Ry'; rewrite E addrC addr_eq0 => /eqP ->; move/eqP: Rx; rewrite addrC addr_eq0 => /eqP ->.
Qed.

(** Powers of 2 as sums of binomial coefficients. *)
Lemma pow2_sum (M B : nat) : (M < B)%N -> \sum_(0 <= k < B) 'C(M, k)%:R = 2%:R ^+ M :> rat.
Proof.
move=> lt; rewrite -natrX (Pascal 1 1) natr_sum (@big_cat_nat _ _ _ M.+1) //= [X in _ + X](_ : _ = 0) ?addr0.
  by rewrite big_mkord; apply: eq_bigr => k _; rewrite !exp1n !muln1.
by rewrite big_nat big1 // => k /andP [l _]; rewrite bin_small.
Qed.
(** The recurrence x(n) = x(n+1)/2 that is built from the coefficients -2 and 1, and its solution. *)
Lemma rhs_two (a : nat -> rat) (y0 : rat) (n : nat) : a 0%N = -1 - 1 -> a 1%N = 1 -> rhs 1 a (fun i => 2%:R ^+ (n + i) * y0) = Some (2%:R ^+ n * y0).
Proof.
move=> a0 a1; have E : -1 - 1 = - 2%:R :> rat by rewrite -opprD.
rewrite /rhs a0 E oppr_eq0 pnatr_eq0 /= big_nat1 a1 mul1r; congr Some.
by rewrite addn1 exprS -mulrA invrN mulrN mulNr opprK mulrC mulKf // pnatr_eq0.
Qed.
Lemma big2 (f : nat -> rat) : \sum_(0 <= j < 2) f j = f 0%N + f 1%N.
Proof. by rewrite big_ltn // big_nat1. Qed.
(** The coefficients found for C(n+c, k+e). *)
Definition found (c : nat) (e : int) (n : nat) (a : nat -> rat) : Prop := exists b p, for_order (@gcdp _) (nd1 (n + c)%:R e%:~R) (lsolve1 basis) 1 (s1 (n + c)%:R) (s2 (n + c)%:R e%:~R) (r1 (n + c)%:R e%:~R) (r2 e%:~R) = Some (b, a, p).
Lemma found_two c e n : exists a, [/\ found c e n a, a 0%N = -1 - 1 & a 1%N = 1].
Proof. have [n1 n2] := posM (n + c); have [a [E a0 a1]] := binomial_run e%:~R n1 n2; exists a; split=> //; by exists (-1)%:P, (1, q2 (n + c)%:R e%:~R, r2 e%:~R). Qed.
(** The sum of C(n, k) for all k is 2^n. *)
Example C69_used : exists a : nat -> nat -> rat, (forall n, found 0 0 n (a n)) /\
  forall y : nat -> rat, (forall n, rhs 1 (a n) (fun i => y (n + i)%N) = Some (y n)) -> y 0%N = initial_value (fun k => 'C(0, k)%:R) -> forall n, y n = \sum_(0 <= k < n.+1) 'C(n, k)%:R.
Proof.
pose al (j : nat) : rat := if j is 0%N then -1 - 1 else if j is 1%N then 1 else 0.
have F n : exists a, [/\ found 0 0 n a, a 0%N = -1 - 1 & a 1%N = 1] by apply: found_two.
have [a Ha] : exists a : nat -> nat -> rat, forall n, [/\ found 0 0 n (a n), a n 0%N = -1 - 1 & a n 1%N = 1].
  have R n := binomial_run 0 (posM (n + 0)).1 (posM (n + 0)).2.
  exists (fun n => if for_order (@gcdp _) (nd1 (n + 0)%:R 0) (lsolve1 basis) 1 (s1 (n + 0)%:R) (s2 (n + 0)%:R 0) (r1 (n + 0)%:R 0) (r2 0) is Some (_, a, _) then a else al).
  by move=> n; have [a [E a0 a1]] := R n; rewrite E; split=> //; exists (-1)%:P, (1, q2 (n + 0)%:R 0, r2 0).
exists a; split; first by move=> n; have [] := Ha n.
move=> y Hy H0 n; apply: (@C69_sum_partial _ 1 0 a (fun n k => 'C(n, k)%:R) succn y) => //.
- by move=> m k le; rewrite bin_small.
- move=> m _; have [_ a0 a1] := Ha m; rewrite (big2 (fun j => a m j * \sum_(0 <= k < (m + j).+1) 'C(m + j, k)%:R)) a0 a1 mul1r addn0 addn1 !pow2_sum // exprS -mulrDl -opprD -[1 + 1]/(2%:R) addNr mul0r //.
- by move=> m _; have [_ a0 a1] := Ha m; rewrite a1 oner_neq0.
- by case.
Qed.
(** The sum of C(n+11, k) is 2^(n+11); the sum for k up to 10 that is taken at n = 0 is 2^11 - 1, and so the result is (2^11 - 1) 2^n. *)
Theorem C69_support_refuted : exists y : nat -> rat, [/\ forall n, exists2 a, found 11 0 n a & rhs 1 a (fun i => y (n + i)%N) = Some (y n), y 0%N = initial_value (fun k => 'C(0 + 11, k)%:R) &
  forall n, y n <> \sum_(0 <= k < (n + 11).+1) 'C(n + 11, k)%:R].
Proof.
have I0 : initial_value (fun k => 'C(0 + 11, k)%:R) = 2%:R ^+ 11 - 1 :> rat.
  rewrite add0n -(@pow2_sum 11 12) // [\sum_(0 <= k < 12) _]big_nat_recr // binn addrK //.
have [z Ez] : exists z : rat, z = 2%:R ^+ 11 by eexists; reflexivity.
rewrite -Ez in I0; exists (fun n => 2%:R ^+ n * (z - 1)); split.
- move=> n; have [a [Fa a0 a1]] := found_two 11 0 n; exists a; [exact: Fa|exact: rhs_two].
- by rewrite I0 expr0 mul1r.
- move=> n; rewrite (pow2_sum (ltnSn _)) exprD -Ez => E; have n0 : 2%:R ^+ n != 0 :> rat by rewrite expf_neq0 // pnatr_eq0.
  by move/(mulfI n0)/eqP: E; rewrite subr_eq addrC -subr_eq subrr eq_sym oner_eq0.
Qed.
(** The sum of C(n, k+1) for k from 0 on is 2^n - 1; the term C(n, 0) at k = -1 is not 0, the recurrence 2 x(n) = x(n+1) does not hold, and the result is 0. *)
Theorem C69_boundary_refuted : exists y : nat -> rat, [/\ forall n, exists2 a, found 0 1 n a & rhs 1 a (fun i => y (n + i)%N) = Some (y n), y 0%N = initial_value (fun k => 'C(0, k.+1)%:R) &
  forall n, y n.+1 <> \sum_(0 <= k < n.+1) 'C(n.+1, k.+1)%:R].
Proof.
exists (fun n => 0); split.
- move=> n; have [a [Fa a0 a1]] := found_two 0 1 n; exists a => //.
  by have := rhs_two 0 n a0 a1; rewrite mulr0 /rhs a0; case: eqP => // _ [E]; congr Some; rewrite -[RHS]E; congr (- _ / _); apply: eq_bigr => i _; rewrite !mulr0.
- by rewrite /initial_value big1 // => k _; rewrite bin0n.
- move=> n; rewrite -natr_sum => /eqP; rewrite eq_sym pnatr_eq0 big_nat_recl // bin1 //.
Qed.
Print Assumptions C68_step_two.
Print Assumptions C68_telescopes.
Print Assumptions C68_telescopes_reduced.
Print Assumptions C68_recurrence.
Print Assumptions C68_certificate.
Print Assumptions C68_orders.
Print Assumptions C68_dispersion_refuted.
Print Assumptions C68_degree_refuted.
Print Assumptions C69_sum_partial.
Print Assumptions C69_support_refuted.
Print Assumptions C69_boundary_refuted.
