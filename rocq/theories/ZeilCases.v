(** Cases for C68 and C69: the terms C(m + c, k + e), order 1, at a fixed m; M = m + c. *)
From mathcomp Require Import all_ssreflect all_algebra.
From Verif Require Import ZeilModel ZeilSpec ZeilProofs ZeilProofs2.
Require Import Ring.
Set Implicit Arguments.
Unset Strict Implicit.
Unset Printing Implicit Defensive.
Import Order.TTheory GRing.Theory Num.Theory.
Local Open Scope ring_scope.

Definition Qt : Type := rat.
Definition Qadd (x y : Qt) : Qt := (x : rat) + y.
Definition Qmul (x y : Qt) : Qt := (x : rat) * y.
Definition Qopp (x : Qt) : Qt := - (x : rat).
Definition Q0 : Qt := (0 : rat).
Definition Q1 : Qt := (1 : rat).
Lemma Qring : ring_theory Q0 Q1 Qadd Qmul (fun u v : Qt => Qadd u (Qopp v)) Qopp (@eq Qt).
Proof. split=> * //; rewrite /Qadd /Qmul /Qopp ?/Q0 ?/Q1; [exact: add0r|exact: addrC|exact: addrA|exact: mul1r|exact: mulrC|exact: mulrA|exact: mulrDl|exact: subrr]. Qed.
Add Ring Qring : Qring.
Ltac qring := 
  repeat match goal with
  | |- context [@GRing.add ?W ?x ?y] => change (@GRing.add W x y) with (Qadd x y)
  | |- context [@GRing.opp ?W ?x] => change (@GRing.opp W x) with (Qopp x)
  | |- context [@GRing.mul ?W ?x ?y] => change (@GRing.mul W x y) with (Qmul x y)
  | |- context [@GRing.one ?W] => change (@GRing.one W) with Q1
  | |- context [@GRing.zero ?W] => change (@GRing.zero W) with Q0
  end; match goal with |- @eq _ ?x ?y => change (@eq Qt x y) end; ring.

(** * Functions that meet the contracts *)
Lemma gcd0_ok : gcd_ok (@gcdp [fieldType of rat]). Proof. by move=> p q; exact: eqpxx. Qed.
(** numerator_denominator that gives n/d for r/s. *)
Definition numden1 (r s n d r' s' : {poly rat}) : {poly rat} * {poly rat} := if [&& r' == r, s' == s, d != 0 & n * s == d * r] then (n, d) else (r', s').
Lemma numden1_ok r s n d : fraction_ok (numden1 r s n d).
Proof. move=> r' s' ns; rewrite /numden1; case: ifP => [/and4P [/eqP -> /eqP -> nd /eqP E] //|_]; by split=> //; rewrite mulrC. Qed.
(** lsolve that gives the matrix S if this is a basis of the solutions. *)
Definition lsolve1 (S : nat -> nat -> rat) (n c : nat) (M : 'M[rat]_(n, c)) : 'M[rat]_n :=
  let S' := \matrix_(i, j) S i j in
  if (S' *m M == 0) && (kermx M *m (1%:M - S') == 0) then S' else 1%:M - M *m pinvmx M.
Lemma lsolve1_ok S : lsolve_ok (lsolve1 S).
Proof.
move=> n c M; rewrite /lsolve1; set S' := \matrix_(_, _) _; case: ifP => [/andP [/eqP E1 /eqP E2]|_]; split=> //.
- move=> v Hv; have /submxP [D ->] : (v <= kermx M)%MS by apply/sub_kermxP.
  have : D *m (kermx M *m (1%:M - S')) = 0 by rewrite E2 mulmx0.
  by rewrite mulmxBr mulmx1 mulmxBr mulmxA => /eqP; rewrite subr_eq0 => /eqP.
- by rewrite mulmxBl mul1mx mulmxKpV // subrr.
- by move=> v Hv; rewrite mulmxBr mulmx1 mulmxA Hv mul0mx subr0.
Qed.

(** * The run for binomial coefficients *)
Definition lin (u v : rat) : {poly rat} := v *: 'X + u%:P.
Lemma coef_lin u v j : (lin u v)`_j = if j is 0%N then u else if j is 1%N then v else 0.
Proof. by rewrite /lin coefD coefZ coefX coefC; case: j => [|[|j]] /=; rewrite ?mulr0 ?mulr1 ?add0r ?addr0. Qed.
Lemma horner_lin u v z : (lin u v).[z] = u + v * z. Proof. by rewrite /lin hornerD hornerZ hornerX hornerC addrC. Qed.
Lemma lin_eq u v w x : u = w -> v = x -> lin u v = lin w x. Proof. by move=> -> ->. Qed.
Lemma linB u v w x : lin u v - lin w x = lin (u - w) (v - x).
Proof. apply/polyP => j; rewrite coefB !coef_lin; by case: j => [|[|j]]; rewrite ?subr0. Qed.
Lemma linN u v : - lin u v = lin (- u) (- v).
Proof. apply/polyP => j; rewrite coefN !coef_lin; by case: j => [|[|j]]; rewrite ?oppr0. Qed.
Lemma shift_lin u v h : shift (lin u v) h = lin (u + v * h) v.
Proof. rewrite /lin shiftD shiftZ shiftX shiftC scalerDr -addrA; congr (_ + _); by rewrite [u + _]addrC polyCD -mul_polyC polyCM. Qed.
Lemma size_lin u v : v != 0 -> size (lin u v) = 2%N.
Proof. move=> nv; rewrite /lin size_addl size_scale ?size_polyX // ltnS (leq_trans (size_polyC_leq1 _)) //. Qed.
Lemma deg_lin u v : v != 0 -> deg (lin u v) = 1%N. Proof. by move=> nv; rewrite /deg size_lin. Qed.
Lemma deg_lin0 u : deg (lin u 0) = 0%N. Proof. by rewrite /deg /lin scale0r add0r size_polyC; case: (u == 0). Qed.
Lemma lead_lin u v : v != 0 -> lead_coef (lin u v) = v. Proof. by move=> nv; rewrite /lead_coef size_lin // coef_lin. Qed.
Section Run.
Context (M e : rat) (nM1 : M + 1 != 0) (nM2 : M + 1 + 1 != 0).
Definition s1 (i : nat) : {poly rat} := lin (M + i%:R) 0.
Definition s2 (i : nat) : {poly rat} := lin (M + i%:R - e) (-1).
Definition r1 : {poly rat} := lin (M - e) (-1).
Definition r2 : {poly rat} := lin (e + 1) 1.
Definition q2 : {poly rat} := lin (M + 1 - e) (-1).
Definition basis (i j : nat) : rat :=
  match i, j with 1%N, 1%N => 1 | 3%N, 0%N => -1 | 3%N, 2%N => -1 - 1 | 3%N, 3%N => 1 | _, _ => 0 end.
Definition nd1 := numden1 (r1 * s2 1) (r2 * r1) q2 r2.
Lemma shift_s2 : sub_shift (s2 1) 1 = r1.
Proof. rewrite shiftE shift_lin; apply: lin_eq => //; rewrite mulr1 -[1%:R]/(1 : rat); rewrite -addrA [- e - 1]addrC addrA -[M + 1 + -1]/(M + 1 - 1) addrK //. Qed.
Lemma nm1 : (-1 : rat) != 0. Proof. by rewrite oppr_eq0 oner_eq0. Qed.
Lemma coprime_q : coprimep q2 r2.
Proof.
have E : r2 = 'X - (- (e + 1))%:P by rewrite /r2 /lin scale1r polyCN opprK.
rewrite E coprimep_XsubC rootE horner_lin mulN1r opprK -addrA [- e + _]addrA addNr add0r //.
Qed.
Lemma step_two_run : step_two (@gcdp _) nd1 (r_k 1 s2 r1) (s_k 1 s2 r2) = (q2, r2, 1).
Proof.
have -> : r_k 1 s2 r1 = r1 * s2 1 by rewrite /r_k big_nat1.
have -> : s_k 1 s2 r2 = r2 * r1 by rewrite /s_k big_nat1 shift_s2.
apply: step_two_coprime; last by rewrite /deg (eqP coprime_q).
rewrite /nd1 /numden1 !eqxx /= -size_poly_eq0 size_lin ?oner_eq0 //= [s2 1](_ : _ = q2) // mulrCA [q2 * r1]mulrC eqxx //.
Qed.
Lemma part0 : p0_part 1 s1 s2 0 * 1 = q2. Proof. by rewrite mulr1 /p0_part big_geq // mul1r big_nat1. Qed.
Lemma part1 : p0_part 1 s1 s2 1 * 1 = lin (M + 1) 0. Proof. by rewrite mulr1 /p0_part big_nat1 [X in _ * X]big_geq // mulr1. Qed.
Lemma key0 : key_row q2 r2 0 = lin (M + 1 - e - e) (-1 - 1).
Proof.
rewrite /key_row expr0 !shiftE shift1 !mulr1 shift_lin linB; apply: lin_eq => //.
by rewrite mul1r addrK.
Qed.
Notation ps := (fun j => p0_part 1 s1 s2 j * 1).
Definition srow (i : nat) : {poly rat} := match i with 0%N => lin (M + 1 - e - e) (-1 - 1) | 1%N => 0 | 2%N => - q2 | _ => - lin (M + 1) 0 end.
Lemma rows i : (i < 4)%N -> system_row q2 r2 ps 0 2 i = srow i.
Proof. case: i => [|[|[|[|i]]]] // _; rewrite /system_row /=; [exact: key0|by rewrite part0|by rewrite part1]. Qed.
Lemma big4 (f : nat -> rat) : \sum_(i < 4) f i = f 0%N + f 1%N + f 2%N + f 3%N.
Proof. by rewrite !big_ord_recr big_ord0 /= add0r. Qed.
Lemma row_sum (v : nat -> rat) j : \sum_(i < 4) v i * (srow i)`_j = match j with
  | 0%N => v 0%N * (M + 1 - e - e) - v 2%N * (M + 1 - e) - v 3%N * (M + 1) | 1%N => v 0%N * (-1 - 1) + v 2%N | _ => 0 end.
Proof.
rewrite (big4 (fun i => v i * (srow i)`_j)) /srow /q2 coef0 mulr0 addr0 !coefN !coef_lin; case: j => [|[|j]]; rewrite ?mulrN ?mulr1 ?mulr0 ?oppr0 ?opprK ?addr0 //.
Qed.
Lemma two_e : (-1) * (M + 1 - e - e) - (-1 - 1) * (M + 1 - e) - 1 * (M + 1) = 0 :> rat.
Proof. qring. Qed.
Lemma lsolve_run : lsolve1 basis (\matrix_(i < 4, j < 4) (system_row q2 r2 ps 0 2 i)`_j) = \matrix_(i, j) basis i j.
Proof.
rewrite /lsolve1; set MM := \matrix_(i, j) (system_row _ _ _ _ _ i)`_j; set S' := \matrix_(i, j) basis i j.
have EM i j : MM i j = (srow i)`_j by rewrite mxE rows.
have -> : S' *m MM == 0.
  apply/eqP/matrixP => i j; rewrite !mxE.
  transitivity (\sum_(l < 4) basis i l * (srow l)`_j); first by apply: eq_bigr => l _; rewrite mxE EM.
  rewrite row_sum; case: i j => [[|[|[|[|i]]]] lti] [[|[|j]] ltj] //=; rewrite ?mul0r ?subr0 ?addr0 //; first exact: two_e.
have -> : kermx MM *m (1%:M - S') == 0; last by [].
have H : kermx MM *m MM = 0 by exact: mulmx_ker.
move: (kermx MM) H => Kr H; apply/eqP; rewrite mulmxBr mulmx1; apply/eqP; rewrite subr_eq0; apply/eqP/matrixP => i j.
pose v (l : nat) : rat := Kr i (inord l).
have Hv (l : 'I_4) : Kr i l = v l by rewrite /v inord_val.
have Hs (c : nat) : (c < 4)%N -> \sum_(l < 4) v l * (srow l)`_c = 0.
  move=> lt; move/matrixP/(_ i (Ordinal lt)): H; rewrite mxE [RHS]mxE => H1; rewrite -[RHS]H1; apply: eq_bigr => l _; by rewrite EM Hv.
have := Hs 0%N isT; have := Hs 1%N isT; rewrite !row_sum => E1 E2.
rewrite !mxE; transitivity (\sum_(l < 4) v l * basis l j); last by apply: eq_bigr => l _; rewrite mxE Hv.
rewrite (big4 (fun l => v l * basis l j)) Hv; clear Hs EM H Hv.
have V2 : v 2%N = v 0%N * (1 + 1) by move/eqP: E1; rewrite addrC addr_eq0 => /eqP ->; qring.
have V3 : v 3%N = - v 0%N.
  apply: (mulIf nM1); apply/eqP; rewrite -subr_eq0; apply/eqP; rewrite -[RHS]oppr0 -[X in _ = - X]E2 V2; qring.
case: j => [[|[|[|[|j]]]] ltj] //=; rewrite ?V3 ?V2; move: (v 0%N) (v 1%N) => x y; first [qring|symmetry; qring].
Qed.
Lemma degrees : \max_(j < 2) deg (ps j) = 1%N.
Proof. by rewrite !big_ord_recr big_ord0 /= part0 part1 [deg q2]deg_lin ?nm1 // deg_lin0. Qed.
Lemma degree_run : degree_x q2 r2 1 = Some 0%N.
Proof. by rewrite /degree_x !deg_lin ?nm1 ?oner_eq0 // !lead_lin ?nm1 ?oner_eq0. Qed.
Theorem binomial_run : exists a, [/\ for_order (@gcdp _) nd1 (lsolve1 basis) 1 s1 s2 r1 r2 = Some ((-1)%:P, a, (1, q2, r2)), a 0%N = -1 - 1 & a 1%N = 1].
Proof.
rewrite /for_order step_two_run /step_three degrees degree_run.
have -> : unknowns q2 r2 1 0 = 2%N by rewrite /unknowns !deg_lin ?nm1 ?oner_eq0.
cbv zeta; rewrite lsolve_run; set u := _ *m _.
have Hu (i : nat) : entry u i = if (i < 4)%N then basis 0 i + basis 1 i + basis 2 i + basis 3 i else 0.
  rewrite /entry; case: insubP => [i' lt E|/negbTE -> //]; rewrite -E ltn_ord mxE -(big4 (fun l => basis l i')); apply: eq_bigr => l _; by rewrite !mxE mul1r.
have Hb : \sum_(i < 1) entry u i *: 'X^i = (-1)%:P :> {poly rat}.
  by rewrite big_ord1 Hu /= expr0 !add0r -mul_polyC mulr1.
rewrite Hb polyC_eq0 (negbTE nm1); exists (fun j => entry u (2 + j)); split=> //; rewrite Hu /=; first [qring|symmetry; qring].
Qed.
End Run.
