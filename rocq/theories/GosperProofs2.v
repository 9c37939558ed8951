From mathcomp Require Import all_ssreflect all_algebra.
From Verif Require Import GosperModel GosperSpec GosperProofs1.
Set Implicit Arguments.
Unset Strict Implicit.
Unset Printing Implicit Defensive.
Import GRing.Theory Num.Theory.
Local Open Scope ring_scope.
Implicit Types (a b c p q x f g : {poly rat}) (h k : rat).

Section Fold.
Context (ggcd : {poly rat} -> {poly rat} -> {poly rat}) (Hg : gcd_ok ggcd).
Lemma step_neq0 a b c (h : nat) a' b' c' : split_step ggcd (a, b, c) h = (a', b', c') -> a != 0 -> b != 0 -> c != 0 -> [/\ a' != 0, b' != 0 & c' != 0].
Proof.
case/(step_facts Hg)=> s [Ea Eb Ec _] na nb nc; split.
- by apply: contraNneq na => E; rewrite Ea E mul0r.
- by apply: contraNneq nb => E; rewrite Eb E mul0r.
- have ns : s != 0 by apply: contraNneq na => E; rewrite Ea E mulr0.
  by rewrite Ec mulf_neq0 // prodf_seq_neq0; apply/allP => j _ /=; rewrite shift_eq0.
Qed.
Lemma step_dvd a b c (h : nat) a' b' c' : split_step ggcd (a, b, c) h = (a', b', c') -> a' %| a /\ b' %| b.
Proof. by case/(step_facts Hg)=> s [-> -> _ _]; split; apply: dvdp_mulr. Qed.
Lemma coprime_smaller a b a' b' k : a' %| a -> b' %| b -> coprimep a (shift b k) -> coprimep a' (shift b' k).
Proof. by move=> Da Db; move/(coprimep_dvdr Da); apply: coprimep_dvdl; rewrite dvdp_shift. Qed.
Lemma fold_facts a0 b0 roots : forall a b c a' b' c', foldl (split_step ggcd) (a, b, c) roots = (a', b', c') -> a != 0 -> b != 0 -> c != 0 -> a0 * b * c = b0 * a * shift c 1 ->
  [/\ [/\ a' != 0, b' != 0 & c' != 0], a0 * b' * c' = b0 * a' * shift c' 1, a' %| a, b' %| b & forall h : nat, h \in roots -> coprimep a' (shift b' h%:R)].
Proof.
elim: roots => [|r roots IH] a b c a' b' c'; first by case=> <- <- <- na nb nc E; split.
rewrite -[foldl _ _ _]/(foldl (split_step ggcd) (split_step ggcd (a, b, c) r) roots).
case Es: (split_step ggcd (a, b, c) r) => [[a1 b1] c1] Ef na nb nc E.
have [na1 nb1 nc1] := step_neq0 Es na nb nc. have [Da Db] := step_dvd Es.
have [nz E' Da' Db' Co] := IH _ _ _ _ _ _ Ef na1 nb1 nc1 (step_ratio Hg Es nb E).
split=> //; [exact: dvdp_trans Da' Da|exact: dvdp_trans Db' Db|].
move=> h; rewrite inE => /orP [/eqP ->|]; last exact: Co.
exact: coprime_smaller Da' Db' (step_coprime Hg Es na).
Qed.
(** The result of the loop over the roots. *)
Theorem split_roots_ok f g roots a b c : f != 0 -> g != 0 -> split_roots ggcd f g roots = (a, b, c) ->
  [/\ [/\ a != 0, b != 0 & c != 0], f * b * c = g * a * shift c 1, a %| f, b %| g & forall h : nat, h \in roots -> coprimep a (shift b h%:R)].
Proof.
move=> nf ng; rewrite /split_roots; case Ef: (foldl _ _ _) => [[a1 b1] c1] [<- <- <-].
have lf : lead_coef f != 0 by rewrite lead_coef_eq0. have lg : lead_coef g != 0 by rewrite lead_coef_eq0.
have E0 : ((lead_coef f)^-1 *: f) * ((lead_coef g)^-1 *: g) * 1 = ((lead_coef g)^-1 *: g) * ((lead_coef f)^-1 *: f) * shift 1 1 by rewrite shift1 !mulr1 mulrC.
have na0 : (lead_coef f)^-1 *: f != 0 by rewrite scaler_eq0 negb_or invr_eq0 lf.
have nb0 : (lead_coef g)^-1 *: g != 0 by rewrite scaler_eq0 negb_or invr_eq0 lg.
have [[na nb nc] E Da Db Co] := fold_facts Ef na0 nb0 (oner_neq0 _) E0.
have lfi := invr_neq0 lf. have lgi := invr_neq0 lg. have lq := mulf_neq0 lf lgi.
split.
- by split=> //; rewrite scaler_eq0 negb_or lq.
- move: E; rewrite -!scalerAl => /(congr1 (fun p => lead_coef f *: p)); rewrite !scalerA divff // scale1r => ->.
  by rewrite -!scalerAr -!scalerAl.
- by rewrite dvdpZl // (dvdp_trans Da) // dvdpZl.
- by rewrite (dvdp_trans Db) // dvdpZl.
- by move=> h Hh; rewrite coprimepZl // Co.
Qed.
End Fold.

(** * The integer roots of the resultant *)
Lemma eval_polyC p (u : rat) : map_poly (horner_eval u) p^:P = p.
Proof. by apply/polyP => i; rewrite coef_map coef_map [LHS]hornerC. Qed.
Lemma res_h_eval f g (u : rat) : f != 0 -> g != 0 -> (res_h f g).[u] = resultant f (shift g u).
Proof.
move=> nf ng; rewrite /res_h -horner_evalE map_resultant.
- rewrite eval_polyC; congr (resultant _ _).
  rewrite /poly_XaY map_comp_poly eval_polyC rmorphD.
  have -> : map_poly_rmorphism (horner_eval_rmorphism u) 'X = 'X by exact: (map_polyX (horner_eval_rmorphism u)).
  have -> : map_poly_rmorphism (horner_eval_rmorphism u) 'Y = u%:P by rewrite -[LHS]/(map_poly (horner_eval_rmorphism u) ('X%:P)) map_polyC; congr (_%:P); exact: hornerX.
  by [].
- by rewrite lead_coef_map_inj ?raddf0 //; [rewrite [X in X != 0]hornerC lead_coef_eq0|exact: polyC_inj].
- by rewrite lead_coef_poly_XaY [X in X != 0]hornerC lead_coef_eq0.
Qed.
Lemma res_h_root f g (u : rat) : f != 0 -> g != 0 -> ((res_h f g).[u] == 0) = ~~ coprimep f (shift g u).
Proof.
move=> nf ng; rewrite res_h_eval // resultant_eq0 /coprimep.
have : gcdp f (shift g u) != 0 by rewrite gcdp_eq0 negb_and nf.
by rewrite -size_poly_eq0; case: (size _) => [|[|n]].
Qed.
Lemma primitive_ok p : exists2 u : rat, u != 0 & p = u *: map_poly intr (primitive p).
Proof.
rewrite /primitive; case: (rat_poly_scale p) => q [a na ->].
have [->|nq] := eqVneq q 0; first by exists 1; rewrite ?oner_neq0 // zprimitive0 !map_poly0 !scaler0.
exists (a%:~R^-1 * (zcontents q)%:~R); first by rewrite mulf_neq0 ?invr_eq0 ?intr_eq0 ?zcontents_eq0.
by rewrite {1}[q]zpolyEprim map_polyZ /= scalerA.
Qed.
Lemma primitive_horner p (z : int) : ((primitive p).[z] == 0) = (p.[z%:~R] == 0).
Proof.
have [u nu E] := primitive_ok p; rewrite {2}E hornerZ mulf_eq0 (negbTE nu) /= -[z%:~R]/(intr z) horner_map /=.
by rewrite intr_eq0.
Qed.
Lemma tcoeff_0 (q : {poly int}) : q`_0 != 0 -> tcoeff q = q`_0.
Proof. by rewrite /tcoeff; case: (polyseq q) => [|c s] //= ->. Qed.
Lemma root_divides (q : {poly int}) (d : nat) : q.[d%:Z] = 0 -> (d %| absz (q`_0)%R)%N.
Proof.
elim/poly_ind: q => [|q c _]; first by rewrite coef0 dvdn0.
rewrite hornerMXaddC coefD coefMX eqxx add0r coefC eqxx => /eqP; rewrite addr_eq0 => /eqP E.
by rewrite -abszN -[- c]E abszM dvdn_mull.
Qed.
Theorem integer_roots_ok find_divisors f g l : divisors_ok find_divisors -> f != 0 -> g != 0 -> coprimep f g -> integer_roots find_divisors f g = Some l ->
  forall h : nat, (h \in l) = ~~ coprimep f (shift g h%:R).
Proof.
move=> Hd nf ng co; rewrite /integer_roots; set q := primitive _.
have Ev (h : nat) : (q.[h%:Z] == 0) = ~~ coprimep f (shift g h%:R) by rewrite /q primitive_horner res_h_root.
have nz : q`_0 != 0 by rewrite -horner_coef0 (Ev 0%N) shift0 co.
rewrite tcoeff_0 //; case E: (find_divisors _) => [d|] // -[<-] h.
rewrite mem_sort mem_filter mem_rev Ev (Hd _ _ _ E) ?absz_gt0 //.
by apply: andb_idr => H; apply: root_divides; apply/eqP; rewrite Ev.
Qed.

(** * Step two *)
Section StepTwo.
Context (ggcd : {poly rat} -> {poly rat} -> {poly rat}) (is_int : {poly rat} -> bool) (int_poly : {poly rat} -> {poly rat} * rat) (find_divisors : nat -> option (seq nat)).
Context (Hg : gcd_ok ggcd) (Hi : int_poly_ok int_poly) (Hd : divisors_ok find_divisors).
Lemma integer_pair_ok a b a' b' : a != 0 -> b != 0 -> integer_pair is_int int_poly a b = (a', b') ->
  exists u v : rat, [/\ u != 0, v != 0, a' = u *: a, b' = v *: b & u = v].
Proof.
move=> na nb; rewrite /integer_pair.
have Nq (u : rat) : u != 0 -> ((numq u)%:~R : rat) != 0 by rewrite intr_eq0 numq_eq0.
have Dq (u : rat) : ((denq u)%:~R : rat) != 0 by rewrite intr_eq0 denq_neq0.
have Sc (u : rat) : ((numq u)%:~R : rat) = (denq u)%:~R * u by rewrite mulrC -{2}(divq_num_den u) mulfVK.
have First : exists2 u : rat, u != 0 & (if is_int a then (a, b) else let: (q, u) := int_poly a in ((numq u)%:~R *: q, (denq u)%:~R *: b)) = (u *: a, u *: b).
  case: (is_int a); first by exists 1; rewrite ?oner_neq0 ?scale1r.
  case E: (int_poly a) => [q u]; have [nu Ea] := Hi na; rewrite E /= in nu Ea.
  by exists (denq u)%:~R => //; rewrite Ea scalerA -Sc.
case: First => u nu ->; case: (is_int _); first by case=> <- <-; exists u, u.
have nb' : u *: b != 0 by rewrite scaler_eq0 negb_or nu.
case E: (int_poly (u *: b)) => [q w]; have [nw Eb] := Hi nb'; rewrite E /= in nw Eb.
case=> <- <-; exists ((denq w)%:~R * u), ((denq w)%:~R * u); split=> //; try by rewrite mulf_neq0.
- by rewrite scalerA.
- by rewrite -scalerA Eb scalerA -Sc.
Qed.
(** f/g = a/b c(m+1)/c(m), and a, b have no common factors at natural distances. *)
Theorem step_two_ok f g a b c : f != 0 -> g != 0 -> coprimep f g -> step_two ggcd is_int int_poly find_divisors f g = Some (a, b, c) ->
  [/\ [/\ a != 0, b != 0 & c != 0], f * b * c = g * a * shift c 1, dispersed a b & b %| g].
Proof.
move=> nf ng co; rewrite /step_two; case Er: (integer_roots _ _ _) => [l|] //.
case Es: (split_roots _ _ _ _) => [[a1 b1] c1]; case Ei: (integer_pair _ _ _ _) => [a2 b2] [<- <- <-].
have [[na nb nc] E Da Db Co] := split_roots_ok Hg nf ng Es.
have [u [v [nu nv -> -> Euv]]] := integer_pair_ok na nb Ei; rewrite -Euv in nv *.
split.
- by split=> //; rewrite scaler_eq0 negb_or nu.
- by rewrite -!scalerAr -!scalerAl E.
- move=> h; rewrite coprimepZl // shiftZ coprimepZr //.
  case Hh: (h \in l); first exact: Co.
  apply: coprime_smaller Da Db _; move: Hh; rewrite (integer_roots_ok Hd nf ng co Er) => /negbT; by rewrite negbK.
- by rewrite dvdpZl.
Qed.
End StepTwo.
