From mathcomp Require Import all_ssreflect all_algebra all_fingroup.
From Verif Require Import ResModel ResProofs.
Set Implicit Arguments.
Unset Strict Implicit.
Unset Printing Implicit Defensive.
Import GRing.Theory.
Local Open Scope ring_scope.

Section Link.
Context (F : fieldType).
Implicit Types (a b p q f g r : {poly F}) (s : seq {poly F}).
(** * Reversed rows and columns *)
Lemma dsN_rev N s2 : forall s1 s3, size (s1 ++ s2 ++ s3) = N -> dsN N (s1 ++ rev s2 ++ s3) = (-1) ^+ 'C(size s2, 2) * dsN N (s1 ++ s2 ++ s3).
Proof.
elim: s2 => [|a s2 IH] s1 s3 S; first by rewrite expr0 mul1r.
rewrite rev_cons cat_rcons IH; last by rewrite -S !size_cat /= addnS.
rewrite cat_cons dsN_move // mulrA -exprD binS bin1; congr (_ * _).
by rewrite -signr_odd -[RHS]signr_odd; congr (_ ^+ nat_of_bool _); rewrite /= ?binS ?bin1 !oddD addbK.
Qed.
Definition mxa N s : 'M[F]_N := \matrix_(i < N, j < N) (nth 0 s i)`_j.
Definition antidiag N : 'M[F]_N := \matrix_(i < N, j < N) ((i : nat) == (N - j.+1)%N)%:R.
Lemma mxl_mxa N s : mxl N s = mxa N s *m antidiag N.
Proof.
apply/matrixP => i j; rewrite !mxE (bigD1 (rev_ord j)) //= !mxE /= eqxx mulr1 big1 ?addr0 // => k nk.
rewrite !mxE; case: eqP => E; last by rewrite mulr0.
by move/eqP: nk; case; apply: val_inj.
Qed.
Lemma det_antidiag N : \det (antidiag N) = (-1) ^+ 'C(N, 2).
Proof.
have E1 : dsN N (rowsX 1 N) = 1 :> F.
  by have := @G_const F 1 N 0 1 erefl; rewrite /G addn0 cats0 expr1n.
have E2 : dsN N (rev (rowsX 1 N)) = \det (antidiag N).
  rewrite /dsN mxl_mxa det_mulmx -[RHS]mul1r; congr (_ * _); rewrite (_ : mxa _ _ = 1%:M) ?det1 //.
  apply/matrixP => i j; rewrite !mxE /rowsX -map_rev revK (nth_map 0%N) ?size_iota // nth_iota // add0n mulr1 coefXn eq_sym.
  by rewrite -val_eqE.
rewrite -E2; have := @dsN_rev N (rowsX 1 N) [::] [::]; rewrite !cats0 !cat0s => -> //; last by rewrite size_rowsX.
by rewrite E1 mulr1 size_rowsX.
Qed.
Lemma resultant_mxa p q : resultant p q = \det (mxa (degree q + degree p) (rev (rowsX p (degree q)) ++ rev (rowsX q (degree p)))).
Proof.
rewrite /resultant; congr (\det _); apply/matrixP => i j; rewrite Sylvester_mxE mxE nth_cat size_rev size_rowsX /rowsX -!map_rev !revK.
case: splitP => k E; rewrite E.
- by rewrite (nth_map 0%N) ?size_iota // nth_iota // add0n coef_XnM ltnNge; case: leqP.
- by rewrite addKn (nth_map 0%N) ?size_iota // nth_iota // add0n coef_XnM ltnNge; case: leqP.
Qed.
(** The determinant of the program is the resultant, with the sign of the other order of the arguments. *)
Theorem sylvester_resultant p q : sylvester_matrix_resultant p q = (-1) ^+ (degree p * degree q) * resultant p q.
Proof.
rewrite sylvester_G resultant_mxa /G.
set m := degree p; set n := degree q.
have -> : \det (mxa (n + m) (rev (rowsX p n) ++ rev (rowsX q m))) = (-1) ^+ 'C(n + m, 2) * dsN (n + m) (rev (rowsX p n) ++ rev (rowsX q m)).
  by rewrite /dsN mxl_mxa det_mulmx det_antidiag [\det _ * _]mulrC mulrA -exprD addnn -mul2n exprM sqrrN !expr1n mul1r.
have := @dsN_rev (n + m) (rowsX p n) [::] (rev (rowsX q m)); rewrite !cat0s => -> //; last by rewrite size_cat size_rev !size_rowsX.
have := @dsN_rev (n + m) (rowsX q m) (rowsX p n) [::]; rewrite !cats0 => -> //; last by rewrite size_cat !size_rowsX.
rewrite !size_rowsX !mulrA -!exprD.
rewrite -[LHS]mul1r; congr (_ * _); rewrite -signr_odd; have -> // : odd (m * n + 'C(n + m, 2) + 'C(n, 2) + 'C(m, 2)) = false.
rewrite !oddD oddM; elim: m => [|m IH]; first by rewrite addn0 bin0n /= addbb.
move: IH; rewrite addnS !binS !bin1 !oddD /=.
by case: (odd m); case: (odd n); case: (odd 'C(n + m, 2)); case: (odd 'C(n, 2)); case: (odd 'C(m, 2)).
Qed.
Theorem sylvester_vanishes p q : p != 0 -> q != 0 -> (sylvester_matrix_resultant p q == 0) = ~~ coprimep p q.
Proof.
move=> np nq; rewrite sylvester_resultant mulf_eq0 signr_eq0 /= resultant_eq0 /coprimep.
have : gcdp p q != 0 by rewrite gcdp_eq0 negb_and np.
by rewrite -size_poly_eq0; case: (size _) => [|[|n]].
Qed.
End Link.

(** * Euclid's algorithm *)
Section Euclid.
Context (F : fieldType) (rational : {poly F} -> bool).
Implicit Types (a b p q f g r : {poly F}).
Definition E f g : F := G f (degree f) g (degree g).
(** The factor that is lost when the exponent wraps around. *)
Definition excess f g : F := if (degree f <= (degree g).+1)%N then 1 else lead_coef f ^+ (wrap_exponent g f * degree f).
Definition next f g : {poly F} := (lead_coef f ^+ wrap_exponent g f)^-1 *: prem g f.
Lemma sign_swap f g : E f g = (-1) ^+ (degree f * degree g) * E g f. Proof. exact: G_swap. Qed.
Lemma degree0_const f : degree f = 0%N -> f = (f`_0)%:P.
Proof. by move=> H; apply: size1_polyC; have := size_degree f; rewrite H. Qed.
Lemma lead_degree f : lead_coef f = f`_(degree f). Proof. by []. Qed.
Lemma next_small f g : (0 < degree f)%N -> (size (next f g) < size f)%N.
Proof.
move=> df; have nf : f != 0 by apply: contraTneq df => ->; rewrite /degree size_poly0.
have nl : lead_coef f != 0 by rewrite lead_coef_eq0.
rewrite /next size_scale ?invr_eq0 ?expf_neq0 // /prem; have [le|lt] := leqP (degree f) (degree g).
- by rewrite size_scale ?expf_neq0 // ltn_modp.
- by rewrite (leq_ltn_trans (size_degree g)) // -[X in (_ < X)%N](prednK (_ : 0 < size f)%N) ?size_poly_gt0.
Qed.
Lemma euclid_step f g : (0 < degree f)%N ->
  E f g = excess f g * (lead_coef f ^+ (degree g - degree (next f g)) * (-1) ^+ (degree f * degree (next f g)) * E (next f g) f).
Proof.
move=> df; have nf : f != 0 by apply: contraTneq df => ->; rewrite /degree size_poly0.
have nl : lead_coef f != 0 by rewrite lead_coef_eq0.
have [le|lt] := leqP (degree f) (degree g).
- have En : next f g = g %% f.
    by rewrite /next /prem /wrap_exponent le (leq_trans le) // -subSn // scalerA mulVf ?scale1r // expf_neq0.
  have -> : excess f g = 1 by rewrite /excess (leq_trans le).
  rewrite En mul1r -mulrA -sign_swap; set r := g %% f.
  have Eg : g = r + f * (g %/ f) by rewrite addrC mulrC -divp_eq.
  have lr : (degree r <= degree g)%N.
    have L : (size r < size f)%N by rewrite ltn_modp.
    move: L le; rewrite /degree; move: (size r) (size f) (size g) => x y z L le; nl.
  have -> : E f g = G f (degree f) r (degree g).
    rewrite /E {1}Eg G_add //; rewrite size_divp //; move: le df; rewrite /degree; move: (size f) (size g) => x y le df; nl.
  by rewrite -{1}(subnK lr) G_drops ?size_degree.
- have En : next f g = (lead_coef f ^+ wrap_exponent g f)^-1 *: g by rewrite /next /prem leqNgt lt.
  set u := lead_coef f ^+ wrap_exponent g f in En *.
  have nu : u != 0 by rewrite expf_neq0.
  have Ed : degree (next f g) = degree g by rewrite En /degree size_scale // invr_eq0.
  rewrite Ed subnn expr0 mul1r.
  have -> : E (next f g) f = (-1) ^+ (degree f * degree g) * E f (next f g) by rewrite sign_swap Ed mulnC.
  rewrite [X in _ * X]mulrA -exprD addnn -mul2n exprM sqrrN !expr1n mul1r [E f (next f g)]/E Ed En G_scale -/(E f g).
  rewrite mulrA -[LHS]mul1r; congr (_ * _); rewrite /excess; case: leqP => [le2|lt2].
  + have Ew : wrap_exponent g f = 0%N by rewrite /wrap_exponent le2; apply/eqP; rewrite subn_eq0.
    by rewrite /u Ew expr0 invr1 expr1n mulr1.
  + by rewrite exprVn -exprM divff // expf_neq0.
Qed.
Lemma excess_next f g : (0 < degree f)%N -> excess (next f g) f = 1.
Proof.
move=> df; rewrite /excess; case: leqP => // lt; have := next_small g df; move: lt; rewrite /degree; move: (size f) (size (next f g)) => x y A B; nl.
Qed.
Lemma euclid_ok p q fuel : forall f g res, (size f <= fuel)%N -> excess f g = 1 -> exists v, euclid rational fuel p q f g res = Some v /\ ((exists f, ~~ rational f) /\ v = sylvester_matrix_resultant p q \/ v = res * E f g).
Proof.
elim: fuel => [|fuel IH] f g res S X /=.
  have E0 : degree f = 0%N by apply/eqP; rewrite /degree -subn1 subn_eq0 (leq_trans S).
  rewrite E0 /=; eexists; split=> //; right; congr (_ * _).
  by rewrite /E E0 (G_const _ _ (degree0_const E0)).
case: eqP => [E0|/eqP nd].
  by eexists; split=> //; right; congr (_ * _); rewrite /E E0 (G_const _ _ (degree0_const E0)).
case: ifP => [R|_]; first by eexists; split=> //; left; split=> //; case/orP: R => R; [exists f|exists g].
have df : (0 < degree f)%N by rewrite lt0n.
rewrite -[_ *: prem g f]/(next f g).
have S' : (size (next f g) <= fuel)%N by rewrite -ltnS (leq_trans (next_small g df)).
set res' := (if _ then _ else _).
have [v [Ev Hv]] := IH (next f g) f res' S' (excess_next g df); exists v; split=> //.
case: Hv => [|->]; [by left|right].
rewrite (euclid_step g df) X mul1r !mulrA; congr (_ * _).
by rewrite /res' -signr_odd; case: (odd _); rewrite ?expr1 ?expr0 ?mulr1 ?mulrN1.
Qed.
(** The result, up to the factor lost. *)
Theorem resultant_of_ok fuel p q : p != 0 -> q != 0 -> (size p <= fuel)%N ->
  exists v, resultant_of rational fuel p q = Some v /\ ([\/ degree p = 0%N, degree q = 0%N | exists f, ~~ rational f] /\ v = sylvester_matrix_resultant p q \/ v * excess p q = sylvester_matrix_resultant p q).
Proof.
move=> np nq S; rewrite /resultant_of !lead_coef_eq0 (negbTE np) (negbTE nq) /= sylvester_G.
case: eqP => [Ep|/eqP Ep] /=.
  by eexists; split=> //; left; split; [apply: Or31|]; rewrite // Ep expr0 mulr1 (G_const _ _ (degree0_const Ep)) lead_degree Ep.
case: eqP => [Eq|/eqP Eq] /=.
  by eexists; split=> //; left; split; [apply: Or32|]; rewrite // Eq expr0 mul1r G_swap muln0 expr0 mul1r (G_const _ _ (degree0_const Eq)) lead_degree Eq.
have df : (0 < degree p)%N by rewrite lt0n.
case: fuel S => [|fuel] S; first by move: np; rewrite -size_poly_eq0 -leqn0 S.
rewrite /= (negbTE Ep); case: ifP => [R|_]; first by eexists; split=> //; left; split; [apply: Or33; case/orP: R => R; [exists p|exists q]|rewrite sylvester_G].
rewrite -[_ *: prem q p]/(next p q); set res' := (if _ then _ else _).
have S' : (size (next p q) <= fuel)%N by rewrite -ltnS (leq_trans (next_small q df)).
have [v [Ev Hv]] := euclid_ok p q res' S' (excess_next q df); exists v; split=> //.
case: Hv => [[R ->]|->]; [by left; split; [apply: Or33|rewrite sylvester_G]|right].
rewrite -[RHS]/(E p q) (euclid_step q df) mulrC; congr (_ * _); congr (_ * _).
by rewrite /res' -signr_odd; case: (odd _); rewrite ?expr1 ?expr0 ?mulr1 ?mul1r ?mulrN1.
Qed.
End Euclid.
