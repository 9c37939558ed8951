From mathcomp Require Import all_ssreflect all_algebra all_fingroup.
From Verif Require Import ResModel.
Set Implicit Arguments.
Unset Strict Implicit.
Unset Printing Implicit Defensive.
Import GRing.Theory.
Require Import Lia.
Ltac nl := repeat match goal with
  | H : is_true (leq _ _) |- _ => apply (elimT leP) in H
  end; try match goal with |- is_true (leq _ _) => apply/leP end;
  change addn with Nat.add in *; change subn with Nat.sub in *; lia.
Local Open Scope ring_scope.

(** * Determinants of lists of polynomials *)
Section Lists.
Context (F : fieldType).
Implicit Types (a b p q f g r t : {poly F}) (s : seq {poly F}).
Definition mxl N s : 'M[F]_N := \matrix_(i < N, j < N) (nth 0 s i)`_(N - j.+1).
Definition dsN N s : F := \det (mxl N s).

Lemma dsN_swap N s1 a b s2 : ((size s1).+1 < N)%N -> dsN N (s1 ++ a :: b :: s2) = - dsN N (s1 ++ b :: a :: s2).
Proof.
move=> lt; have lt0 : (size s1 < N)%N := ltnW lt.
pose i1 := Ordinal lt0; pose i2 := Ordinal lt.
have -> : dsN N (s1 ++ a :: b :: s2) = \det (xrow i1 i2 (mxl N (s1 ++ b :: a :: s2))).
  congr (\det _); apply/matrixP => i j; rewrite !mxE; congr (_`_ _).
  case: tpermP => [->|->|n1 n2] /=; rewrite ?nth_cat ?ltnn ?subnn //=.
  - by rewrite ltnNge leqnSn /= subSnn.
  - by rewrite ltnNge leqnSn /= subSnn.
  - have [lti|gei] := ltnP i (size s1); first by [].
    case E: (i - size s1)%N => [|[|k]] //=.
    + by case: n1; apply: val_inj => /=; apply/eqP; rewrite eqn_leq gei andbT -subn_eq0 E.
    + by case: n2; apply: val_inj => /=; rewrite -(subnK gei) E add1n.
by rewrite xrowE det_mulmx det_perm odd_tperm /= -val_eqE /= neq_ltn ltnSn /= expr1 mulN1r.
Qed.
Lemma dsN_linear N s1 a b s2 (u : F) : (size s1 < N)%N -> dsN N (s1 ++ (u *: a + b) :: s2) = u * dsN N (s1 ++ a :: s2) + dsN N (s1 ++ b :: s2).
Proof.
move=> lt; rewrite -[X in _ = _ + X]mul1r; pose i0 := Ordinal lt.
have nthi x : nth 0 (s1 ++ x :: s2) i0 = x by rewrite nth_cat ltnn subnn.
have nthj x y (j : 'I_N.-1) : nth 0 (s1 ++ x :: s2) (lift i0 j) = nth 0 (s1 ++ y :: s2) (lift i0 j).
  rewrite !nth_cat; case: ltnP => // ge; case E: (_ - _)%N => [|k] //.
  have : i0 == lift i0 j by rewrite -val_eqE /= eqn_leq ge andTb -subn_eq0 E.
  by rewrite (negbTE (neq_lift _ _)).
apply: (determinant_multilinear (i0 := i0)).
- by apply/rowP => j; rewrite !mxE !nthi coefD coefZ mul1r.
- by apply/matrixP => i j; rewrite !mxE (nthj a (u *: a + b)).
- by apply/matrixP => i j; rewrite !mxE (nthj b (u *: a + b)).
Qed.
Lemma dsN_zero N s1 s2 : (size s1 < N)%N -> dsN N (s1 ++ 0 :: s2) = 0.
Proof.
move=> lt; have := dsN_linear 0 0 s2 1 lt; rewrite scaler0 addr0 mul1r => /eqP.
by rewrite eq_sym -subr_eq0 addrK => /eqP.
Qed.
Lemma dsN_scale N s1 a s2 (u : F) : (size s1 < N)%N -> dsN N (s1 ++ (u *: a) :: s2) = u * dsN N (s1 ++ a :: s2).
Proof. by move=> lt; have := dsN_linear a 0 s2 u lt; rewrite addr0 dsN_zero // addr0. Qed.
Lemma dsN_twice N s1 a s2 (i : nat) : (size s1 < N)%N -> (i < size s1)%N -> nth 0 s1 i = a -> dsN N (s1 ++ a :: s2) = 0.
Proof.
move=> lt lti E; have lti' : (i < N)%N := ltn_trans lti lt.
apply: (determinant_alternate (i1 := Ordinal lti') (i2 := Ordinal lt)); first by rewrite -val_eqE /= neq_ltn lti.
by move=> j; rewrite !mxE /= !nth_cat lti ltnn subnn E.
Qed.
Lemma dsN_drop N a s : (forall i, (i < N)%N -> (nth 0 s i)`_N = 0) -> dsN N.+1 (a :: s) = a`_N * dsN N s.
Proof.
move=> H; rewrite /dsN (expand_det_col _ ord0) big_ord_recl /= big1 ?addr0; last first.
  by move=> i _; rewrite !mxE /= subn1 /= H ?mul0r // ltn_ord.
rewrite !mxE /= subn1 /=; congr (_ * _); rewrite /cofactor expr0 mul1r; congr (\det _).
by apply/matrixP => i j; rewrite !mxE /= /bump /= !add1n /= subSS.
Qed.
(** Moving a row, and exchanging two blocks of rows. *)
Lemma dsN_move N s1 a s2 s3 : size (s1 ++ a :: s2 ++ s3) = N -> dsN N (s1 ++ a :: s2 ++ s3) = (-1) ^+ size s2 * dsN N (s1 ++ s2 ++ a :: s3).
Proof.
elim: s2 s1 => [|b s2 IH] s1 S; first by rewrite expr0 mul1r.
have lt : ((size s1).+1 < N)%N by rewrite -S size_cat /= -addn2 leq_add2l.
rewrite /= dsN_swap // exprS mulN1r mulNr; congr (- _).
have := IH (rcons s1 b); rewrite !cat_rcons; apply; rewrite -S !size_cat /= ; by [].
Qed.
Lemma dsN_exchange N s1 s2 : size (s1 ++ s2) = N -> dsN N (s1 ++ s2) = (-1) ^+ (size s1 * size s2) * dsN N (s2 ++ s1).
Proof.
elim: s1 s2 => [|a s1 IH] s2 S; first by rewrite mul0n expr0 mul1r cats0.
have S' : size (s1 ++ (s2 ++ [:: a])) = N by rewrite -S !size_cat /= !addnS addn0.
have := @dsN_move N [::] a (s1 ++ s2) [::]; rewrite !cats0 !cat0s => -> //.
rewrite -catA (IH _ S') -catA mulrA -exprD !size_cat /= addn1 mulnS; congr (_ * _).
rewrite -signr_odd -[RHS]signr_odd; congr (_ ^+ nat_of_bool _); rewrite mulSn !oddD !oddM; by case: (odd _); case: (odd _).
Qed.

(** * Rows in the span of other rows *)
Definition spanned s b : Prop := exists c : nat -> F, b = \sum_(k < size s) c k *: nth 0 s k.
Lemma dsN_span N s1 s0 b s2 : (size (s1 ++ s0) < N)%N -> spanned s1 b -> dsN N (s1 ++ s0 ++ b :: s2) = 0.
Proof.
move=> lt [c ->]; elim/big_ind: _ => [|x y Hx Hy|k _].
- by rewrite catA dsN_zero.
- rewrite catA; have := dsN_linear x y s2 1 lt; rewrite scale1r => ->; by rewrite -!catA Hx Hy mulr0 addr0.
- rewrite catA dsN_scale // (@dsN_twice _ _ _ _ k) ?mulr0 //; first by rewrite size_cat (leq_trans (ltn_ord k)) // leq_addr.
  by rewrite nth_cat ltn_ord.
Qed.
Lemma dsN_add_span N s1 (A B : nat -> {poly F}) l : forall s0, size (s1 ++ s0 ++ [seq A j | j <- l]) = N -> (forall j, j \in l -> spanned s1 (B j)) ->
  dsN N (s1 ++ s0 ++ [seq A j + B j | j <- l]) = dsN N (s1 ++ s0 ++ [seq A j | j <- l]).
Proof.
elim: l => [|j l IH] s0 S H //=.
have lt : (size (s1 ++ s0) < N)%N by rewrite -S catA [X in (_ < X)%N]size_cat /= addnS ltnS leq_addr.
have := dsN_linear (A j) (B j) [seq A j + B j | j <- l] 1 lt; rewrite scale1r mul1r -!catA => ->.
rewrite (dsN_span _ _ (H j _)) ?inE ?eqxx // addr0.
have := IH (rcons s0 (A j)); rewrite !cat_rcons; apply; first by rewrite -S.
by move=> k Hk; apply: H; rewrite inE Hk orbT.
Qed.
Lemma dsN_scale_all N s1 (A : nat -> {poly F}) (u : F) l : forall s0, size (s1 ++ s0 ++ [seq A j | j <- l]) = N ->
  dsN N (s1 ++ s0 ++ [seq u *: A j | j <- l]) = u ^+ size l * dsN N (s1 ++ s0 ++ [seq A j | j <- l]).
Proof.
elim: l => [|j l IH] s0 S //=; first by rewrite expr0 mul1r.
have lt : (size (s1 ++ s0) < N)%N by rewrite -S catA [X in (_ < X)%N]size_cat /= addnS ltnS leq_addr.
rewrite catA dsN_scale // exprS -mulrA -catA; congr (_ * _).
have := IH (rcons s0 (A j)); rewrite !cat_rcons; apply; by rewrite -S.
Qed.

(** * The resultant with given degrees *)
Definition rowsX p n : seq {poly F} := [seq 'X^i * p | i <- rev (iota 0 n)].
Definition G p m q n : F := dsN (n + m) (rowsX p n ++ rowsX q m).
Lemma rowsX_S p n : rowsX p n.+1 = 'X^n * p :: rowsX p n.
Proof. by rewrite /rowsX -addn1 iotaD rev_cat. Qed.
Lemma size_rowsX p n : size (rowsX p n) = n.
Proof. by rewrite size_map size_rev size_iota. Qed.
Lemma nth_rowsX p n i : (i < n)%N -> nth 0 (rowsX p n) i = 'X^(n - i.+1) * p.
Proof.
move=> lt; rewrite (nth_map 0%N) ?size_rev ?size_iota // nth_rev ?size_iota // nth_iota ?add0n // ltn_subrL; by case: (n) lt.
Qed.
Lemma coef_XnM p n k : ('X^n * p)`_k = if (k < n)%N then 0 else p`_(k - n).
Proof. by rewrite mulrC coefMXn. Qed.
Lemma G_swap p m q n : G p m q n = (-1) ^+ (m * n) * G q n p m.
Proof. by rewrite /G dsN_exchange ?size_cat ?size_rowsX // addnC mulnC. Qed.
Lemma G_scale p m q n (u : F) : G p m (u *: q) n = u ^+ m * G p m q n.
Proof.
rewrite /G; have -> : rowsX (u *: q) m = [seq u *: ('X^i * q) | i <- rev (iota 0 m)] by apply: eq_map => i; rewrite scalerAr.
have := @dsN_scale_all (n + m) (rowsX p n) (fun i => 'X^i * q) u (rev (iota 0 m)) [::]; rewrite !cat0s => ->.
- by rewrite size_rev size_iota.
- by rewrite size_cat size_rowsX size_map size_rev size_iota.
Qed.
(** The rows of q may be changed by multiples of p. *)
Lemma G_add p m q n t : (size t + m <= n.+1)%N -> G p m (q + p * t) n = G p m q n.
Proof.
move=> St; rewrite /G.
have -> : rowsX (q + p * t) m = [seq 'X^j * q + 'X^j * (p * t) | j <- rev (iota 0 m)] by apply: eq_map => j; rewrite mulrDr.
have := @dsN_add_span (n + m) (rowsX p n) (fun j => 'X^j * q) (fun j => 'X^j * (p * t)) (rev (iota 0 m)) [::]; rewrite !cat0s => -> //.
- by rewrite size_cat size_rowsX size_map size_rev size_iota.
- move=> j0; set j : nat := j0; rewrite mem_rev mem_iota add0n -/j => /= lt; move: j lt => {j0} j lt.
  exists (fun i => ('X^j * t)`_(n - i.+1)); rewrite size_rowsX.
  transitivity ('X^j * t * p); first by rewrite -mulrA [t * p]mulrC.
  have Sj : (size ('X^j * t)%R <= n)%N.
    have L : (j + size t <= n)%N by nl.
    by rewrite (leq_trans (size_mul_leq _ _)) // size_polyXn addSn.
  rewrite -{1}(coefK ('X^j * t)) poly_def.
  have -> : \sum_(i < size ('X^j * t)) ('X^j * t)`_i *: 'X^i = \sum_(i < n) ('X^j * t)`_i *: 'X^i :> {poly F}.
    rewrite -!poly_def coefK; apply/polyP => i; rewrite coef_poly; case: ltnP => // ge; by rewrite nth_default // (leq_trans Sj ge).
  rewrite mulr_suml (reindex_inj rev_ord_inj); apply: eq_bigr => i _ /=.
  by rewrite nth_rowsX // scalerAl.
Qed.
(** A lower degree of q. *)
Lemma G_drop p m q n : (size p <= m.+1)%N -> (size q <= n.+1)%N -> G p m q n.+1 = p`_m * G p m q n.
Proof.
move=> Sp Sq; rewrite /G rowsX_S cat_cons addSn dsN_drop.
- by rewrite coef_XnM ltnNge leq_addr addKn.
- move=> i lt; rewrite nth_cat size_rowsX; have [li|gi] := ltnP i n.
    rewrite nth_rowsX // coef_XnM; case: ltnP => // ge; rewrite nth_default // (leq_trans Sp) //.
    nl.
  have lj : (i - n < m)%N by rewrite ltn_subLR.
  rewrite nth_rowsX // coef_XnM; case: ltnP => // ge; rewrite nth_default // (leq_trans Sq) //.
  nl.
Qed.
Lemma G_drops p m q n' k : (size p <= m.+1)%N -> (size q <= n'.+1)%N -> G p m q (k + n') = p`_m ^+ k * G p m q n'.
Proof.
move=> Sp Sq; elim: k => [|k IH]; first by rewrite expr0 mul1r.
by rewrite addSn G_drop ?IH ?exprS ?mulrA // (leq_trans Sq) // ltnS leq_addl.
Qed.
Lemma G_const p n q (c : F) : p = c%:P -> G p 0 q n = c ^+ n.
Proof.
move=> ->; rewrite /G addn0 /rowsX cats0 -/(rowsX _ _); elim: n => [|n IH]; first by rewrite /dsN det_mx00 expr0.
rewrite rowsX_S dsN_drop ?IH ?exprS ?coef_XnM ?ltnn ?subnn ?coefC //.
move=> i lt; rewrite nth_rowsX // coef_XnM; case: ltnP => // ge; rewrite coefC subn_eq0 leqNgt.
have -> : (n - i.+1 < n)%N by nl.
by [].
Qed.
Lemma size_degree p : (size p <= (degree p).+1)%N. Proof. by rewrite /degree; case: (size p). Qed.
(** * The matrix of the program *)
Lemma sylvester_row_nth p N n i j : (degree p + n)%N = N -> (i < n)%N -> (j < N)%N -> nth 0 (sylvester_row p N i.+1) j = ('X^(n - i.+1) * p)`_(N - j.+1).
Proof.
move=> EN li lj; rewrite /sylvester_row subSS subn0 nth_cat size_nseq coef_XnM.
have [lt|ge] := ltnP j i.
  rewrite nth_nseq lt; case: ltnP => // ge2; rewrite nth_default // (leq_trans (size_degree p)) //; nl.
rewrite nth_cat size_map size_rev size_iota.
have [lt|ge2] := ltnP (j - i) (degree p).+1.
  rewrite (nth_map 0%N) ?size_rev ?size_iota // nth_rev ?size_iota // nth_iota ?add0n; last by nl.
  have [lt2|ge2] := ltnP (N - j.+1) (n - i.+1); first by nl.
  by congr (_`_ _); nl.
rewrite nth_nseq if_same; case: ltnP => // ge3; nl.
Qed.
Theorem sylvester_G p q : sylvester_matrix_resultant p q = G p (degree p) q (degree q).
Proof.
rewrite /sylvester_matrix_resultant /sylvester_rows /G [(degree p + degree q)%N]addnC /dsN; congr (\det _); apply/matrixP => i j; rewrite !mxE.
rewrite nth_cat size_map size_iota nth_cat size_rowsX.
have Li := ltn_ord i; have Lj := ltn_ord j.
case: ltnP => [lt|ge].
  by rewrite (nth_map 0%N) ?size_iota // nth_iota // add1n (@sylvester_row_nth p _ (degree q)) ?nth_rowsX // addnC.
have lt : (i - degree q < degree p)%N by nl.
by rewrite (nth_map 0%N) ?size_iota // nth_iota // add1n (@sylvester_row_nth q _ (degree p)) ?nth_rowsX.
Qed.
End Lists.
