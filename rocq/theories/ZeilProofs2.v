From mathcomp Require Import all_ssreflect all_algebra.
From Verif Require Import ZeilModel ZeilSpec ZeilProofs.
Require Import Ring.
Set Implicit Arguments.
Unset Strict Implicit.
Unset Printing Implicit Defensive.
Import Order.TTheory GRing.Theory Num.Theory.
Local Open Scope ring_scope.

Section Values.
Context (K V : fieldType) (phi : {rmorphism K -> V}).
Definition Vt : Type := V.
Definition Vadd (x y : Vt) : Vt := (x : V) + y.
Definition Vmul (x y : Vt) : Vt := (x : V) * y.
Definition Vopp (x : Vt) : Vt := - (x : V).
Definition V0 : Vt := (0 : V).
Definition V1 : Vt := (1 : V).
Lemma Vring : ring_theory V0 V1 Vadd Vmul (fun u v : Vt => Vadd u (Vopp v)) Vopp (@eq Vt).
Proof. split=> * //; rewrite /Vadd /Vmul /Vopp ?/V0 ?/V1; [exact: add0r|exact: addrC|exact: addrA|exact: mul1r|exact: mulrC|exact: mulrA|exact: mulrDl|exact: subrr]. Qed.
Add Ring Vring : Vring.
Ltac vring := 
  repeat match goal with
  | |- context [@GRing.add ?W ?x ?y] => change (@GRing.add W x y) with (Vadd x y)
  | |- context [@GRing.opp ?W ?x] => change (@GRing.opp W x) with (Vopp x)
  | |- context [@GRing.mul ?W ?x ?y] => change (@GRing.mul W x y) with (Vmul x y)
  | |- context [@GRing.one ?W] => change (@GRing.one W) with V1
  | |- context [@GRing.zero ?W] => change (@GRing.zero W) with V0
  end; match goal with |- @eq _ ?x ?y => change (@eq Vt x y) end; ring.
Context (order : nat) (s1 s2 : nat -> {poly K}).
Definition part (j : nat) : {poly K} := (\prod_(1 <= i < j.+1) s1 i) * (\prod_(j.+1 <= i < order.+1) s2 i).
Lemma p0_partE j : p0_part order s1 s2 j = part j.
Proof.
rewrite /p0_part /part; congr (_ * _); rewrite big_add1 /= [RHS]big_nat_rev /=.
apply: eq_big_nat => i /andP [_ lt]; congr (s1 _); rewrite add0n subnS prednK //; by rewrite subn_gt0.
Qed.
Definition prod_s : {poly K} := \prod_(1 <= i < order.+1) s2 i.
(** Step one: F(m+j, k) s2_1(k) ... s2_J(k) = F(m, k) part_j(k). *)
Lemma ratios (F : nat -> int -> V) (k : int) : ratio_in_m phi order s1 s2 F k -> forall j, (j <= order)%N -> F j k * phi prod_s.[k%:~R] = F 0%N k * phi (part j).[k%:~R].
Proof.
move=> R.
have A j : (j <= order)%N -> F j k * phi (\prod_(1 <= i < j.+1) s2 i).[k%:~R] = F 0%N k * phi (\prod_(1 <= i < j.+1) s1 i).[k%:~R].
  elim: j => [|j IH] le; first by rewrite !big_geq // .
  have Rj : F j.+1 k * phi (s2 j.+1).[k%:~R] = F j k * phi (s1 j.+1).[k%:~R] by exact: (R j.+1 le).
  have IHj := IH (ltnW le); move: Rj IHj.
  rewrite [\prod_(1 <= i < j.+2) s2 i]big_nat_recr // [\prod_(1 <= i < j.+2) s1 i]big_nat_recr // !hornerM ![phi (_ * _)]rmorphM.
  move: (F j.+1 k) (F j k) (F 0%N k) (phi (s2 j.+1).[_]) (phi (s1 j.+1).[_]) (phi (\prod_(1 <= i < j.+1) s2 i).[_]) (phi (\prod_(1 <= i < j.+1) s1 i).[_]) => u v w x y z t E1 E2.
  transitivity ((u * x) * z); first by vring.
  rewrite E1; transitivity ((v * z) * y); first by vring.
  rewrite E2; vring.
by move=> j le; have Aj := A j le; rewrite /prod_s (@big_cat_nat _ _ _ j.+1) //= /part !hornerM ![phi (_ * _)]rmorphM mulrA Aj -mulrA.
Qed.
(** The combination, where F(m+j, k) = H(k) part_j(k) p1(k). *)
Lemma telescope_reduced p1 p2 p3 b (a : nat -> K) (f : nat -> V) (H : int -> V) (k : int) :
  p2 * shift b 1 - shift p3 (-1) * b = \sum_(0 <= j < order.+1) a j *: (part j * p1) ->
  (forall j, (j <= order)%N -> f j = H k * phi (part j * p1).[k%:~R]) -> H (k + 1) * phi p3.[k%:~R] = H k * phi p2.[k%:~R] ->
  combination phi order a f = phi (p3.[(k + 1 - 1)%:~R] * b.[(k + 1)%:~R]) * H (k + 1) - phi (p3.[(k - 1)%:~R] * b.[k%:~R]) * H k.
Proof.
move=> E Hf HH; rewrite /combination.
have -> : \sum_(0 <= j < order.+1) phi (a j) * f j = H k * phi (\sum_(0 <= j < order.+1) a j *: (part j * p1)).[k%:~R].
  rewrite horner_sum rmorph_sum mulr_sumr; apply: eq_big_nat => j /andP [_ lt]; rewrite Hf // hornerZ rmorphM /= mulrCA //.
rewrite -E hornerD hornerN !hornerM !horner_shift rmorphB !rmorphM /= addrK.
have -> : (k%:~R + 1 : K) = (k + 1)%:~R by rewrite intrD.
have -> : (k%:~R + -1 : K) = (k - 1)%:~R by rewrite intrD.
transitivity (phi b.[(k + 1)%:~R] * (H k * phi p2.[k%:~R]) - phi p3.[(k - 1)%:~R] * phi b.[k%:~R] * H k).
  move: (phi _) (phi _) (phi _) (phi _) (H k) => u v w x y; vring.
rewrite -HH; move: (phi _) (phi _) (phi _) (phi _) (H k) (H (k + 1)) => u v w x y z; vring.
Qed.
(** G(k) = p3(k-1) b(k) F(m, k) / (s2_1(k) ... s2_J(k) p1(k)) *)
Definition antidifference (p1 p3 b : {poly K}) (F : int -> V) (k : int) : V :=
  phi (p3.[(k - 1)%:~R] * b.[k%:~R]) * (F k / phi ((\prod_(1 <= i < order.+1) s2 i) * p1).[k%:~R]).
Lemma telescope r1 r2 p1 p2 p3 b (a : nat -> K) (F : nat -> int -> V) (k : int) :
  p2 * shift b 1 - shift p3 (-1) * b = \sum_(0 <= j < order.+1) a j *: (part j * p1) ->
  r_k order s2 r1 * p3 * p1 = s_k order s2 r2 * p2 * shift p1 1 ->
  ratio_in_m phi order s1 s2 F k -> ratio_in_k phi r1 r2 F k -> r2.[k%:~R] != 0 ->
  (prod_s * p1).[k%:~R] != 0 -> (prod_s * p1).[(k + 1)%:~R] != 0 ->
  combination phi order a (fun j => F j k) = antidifference p1 p3 b (F 0%N) (k + 1) - antidifference p1 p3 b (F 0%N) k.
Proof.
move=> E R Rm Rk nr n0 n1; rewrite /antidifference -/prod_s.
apply: (@telescope_reduced p1 p2 p3 b a _ (fun k => F 0%N k / phi (prod_s * p1).[k%:~R])) => //.
- move=> j le; have := ratios Rm le; move: (part j) => pj; move: n0; rewrite !hornerM !rmorphM /= mulf_eq0 negb_or => /andP [ns np].
  have ns' : phi prod_s.[k%:~R] != 0 by rewrite fmorph_eq0. have np' : phi p1.[k%:~R] != 0 by rewrite fmorph_eq0.
  move: (F j k) (F 0%N k) (phi prod_s.[k%:~R]) (phi p1.[k%:~R]) (phi pj.[k%:~R]) ns' np' => u v w x y nw nx H.
  apply: (mulIf nw); apply: (mulIf nx); rewrite H; transitivity (v * y * ((w * x) / (w * x)) * x); last by vring.
  by rewrite divff ?mulr1 // mulf_neq0.
- have RR := congr1 (fun p => phi p.[k%:~R]) R; move: RR.
  rewrite /r_k /s_k -/prod_s -[\prod_(_ <= i < _) sub_shift (s2 i) 1]/(\prod_(1 <= i < order.+1) shift (s2 i) 1) -shift_prod -/prod_s.
  move: Rk n0 n1 nr; rewrite /ratio_in_k !hornerM !horner_shift !rmorphM /= !mulf_eq0 !negb_or.
  have -> : (k%:~R + 1 : K) = (k + 1)%:~R by rewrite intrD.
  rewrite -!(fmorph_eq0 phi); move: (F 0%N k) (F 0%N (k+1)) (phi r1.[_]) (phi r2.[_]) (phi prod_s.[k%:~R]) (phi p1.[k%:~R]) (phi prod_s.[(k + 1)%:~R]) (phi p1.[(k + 1)%:~R]) (phi p2.[_]) (phi p3.[_]).
  move=> f0 f1 R1 R2 S0 P0 S1 P1 Q2 Q3 H1 /andP [nS0 nP0] /andP [nS1 nP1] nR H2.
  have n2 : R2 * (S1 * P1) * (S0 * P0) != 0 by rewrite !mulf_neq0.
  apply: (mulIf n2).
  transitivity ((f1 * R2) * Q3 * (S0 * P0) * ((S1 * P1) / (S1 * P1))); first by vring.
  transitivity (f0 * (R2 * S1 * Q2 * P1) * ((S0 * P0) / (S0 * P0))); last by vring.
  rewrite !divff ?mulf_neq0 // !mulr1 H1; transitivity (f0 * (R1 * S0 * Q3 * P0)); first by vring.
  by rewrite H2.
Qed.
Lemma sum_telescope (t z : int -> V) lo n : (forall k : int, lo <= k -> k < lo + n%:Z -> t k = z (k + 1) - z k) -> sum_from t lo n = z (lo + n%:Z) - z lo.
Proof.
elim: n => [|n IH] H; first by rewrite /sum_from big_ord0 addr0 subrr.
rewrite /sum_from big_ord_recr /= -[\sum_(i < n) _]/(sum_from t lo n) IH; last first.
  by move=> k l u; apply: H => //; apply: (lt_le_trans u); rewrite ler_add2l lez_nat.
have -> : lo + n.+1%:Z = lo + n%:Z + 1 by rewrite -addn1 PoszD addrA.
rewrite (H (lo + n%:Z)); [|by rewrite ler_addl|by rewrite ltr_add2l ltz_nat].
move: (z (lo + n%:Z + 1)) (z (lo + n%:Z)) (z lo) => u v w; vring.
Qed.
Lemma combination_sum (a : nat -> K) (F : nat -> int -> V) lo n : combination phi order a (fun j => sum_from (F j) lo n) = sum_from (fun k => combination phi order a (fun j => F j k)) lo n.
Proof. rewrite /combination /sum_from exchange_big /=; apply: eq_bigr => j _; by rewrite mulr_sumr. Qed.
End Values.

(** * The run *)
Section Run.
Context (K : fieldType) (ggcd : {poly K} -> {poly K} -> {poly K}) (numden : {poly K} -> {poly K} -> {poly K} * {poly K}) (lsolve : forall n c : nat, 'M[K]_(n, c) -> 'M[K]_n).
Context (Hg : gcd_ok ggcd) (Hn : fraction_ok numden) (Hl : lsolve_ok lsolve).
Context (order : nat) (s1 s2 : nat -> {poly K}) (r1 r2 : {poly K}).
Theorem run_ok b a p1 p2 p3 : s_k order s2 r2 != 0 -> for_order ggcd numden lsolve order s1 s2 r1 r2 = Some (b, a, (p1, p2, p3)) ->
  [/\ b != 0, p3 != 0, r_k order s2 r1 * p3 * p1 = s_k order s2 r2 * p2 * shift p1 1 & p2 * shift b 1 - shift p3 (-1) * b = \sum_(0 <= j < order.+1) a j *: (part order s1 s2 j * p1)].
Proof.
move=> ns; rewrite /for_order; case E2: (step_two _ _ _ _) => [[q2 q3] q1].
case E3: (step_three _ _ _ _ _) => [[b' a']|] // [<- <- <- <- <-].
have [n3 R] := step_two_ratio Hg Hn ns E2; have [nb E] := step_three_ok Hl E3; split=> //.
by rewrite E; apply: eq_bigr => j _; rewrite p0_partE.
Qed.
Lemma s_k_neq0 : r2 != 0 -> (forall j, (0 < j <= order)%N -> s2 j != 0) -> s_k order s2 r2 != 0.
Proof.
move=> nr ns; rewrite /s_k mulf_neq0 // prodf_seq_neq0; apply/allP => j; rewrite mem_index_iota => lt /=.
by rewrite shiftE shift_eq0 ns.
Qed.
End Run.
Lemma algorithm_ok (R : Type) (fixed : nat -> option R) :
  match algorithm fixed with
  | Some (i, r) => [/\ (0 < i < 10)%N, fixed i = Some r & forall j, (0 < j < i)%N -> fixed j = None]
  | None => forall i, (0 < i < 10)%N -> fixed i = None
  end.
Proof.
rewrite /algorithm.
have A (l n : nat) : match foldr (fun i later => if fixed i is Some r then Some (i, r) else later) None (iota n l) with
  | Some (i, r) => [/\ (n <= i < n + l)%N, fixed i = Some r & forall j, (n <= j < i)%N -> fixed j = None]
  | None => forall i, (n <= i < n + l)%N -> fixed i = None end.
  elim: l n => [|l IH] n /=; first by move=> i; rewrite addn0; case: ltngtP.
  case E: (fixed n) => [r|]; first by split=> //; [rewrite leqnn addnS ltnS leq_addr|move=> j; case: ltngtP].
  have := IH n.+1; case: (foldr _ _ _) => [[i r]|].
    case=> H1 H2 H3; split=> //; [move: H1; rewrite addSnnS => /andP [/ltnW -> ->] //|].
    move=> j /andP [l1 l2]; move: l1; rewrite leq_eqVlt => /orP [/eqP <- //|l1]; by apply: H3; rewrite l1.
  move=> H i /andP [l1 l2]; move: l1; rewrite leq_eqVlt => /orP [/eqP <- //|l1]; by apply: H; rewrite l1 addSnnS.
have := A 9%N 1%N; case: (foldr _ _ _) => [[i r]|]; exact.
Qed.
