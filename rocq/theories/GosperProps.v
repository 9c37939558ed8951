(** C43, C44: Gosper's algorithm (src/gosper.cc). *)
From mathcomp Require Import all_ssreflect all_algebra.
From Verif Require Import GosperModel GosperSpec GosperProofs1 GosperProofs2 GosperProofs3 GosperProofs4 PolyRing.
Set Implicit Arguments.
Unset Strict Implicit.
Unset Printing Implicit Defensive.
Import Order.TTheory GRing.Theory Num.Theory.
Local Open Scope ring_scope.

(** * The parameters can be met *)
Definition lsolve0 (r c : nat) (M : 'M[rat]_(r, c)) (v : 'rV[rat]_c) : option 'rV[rat]_r := if (v <= M)%MS then Some (v *m pinvmx M) else None.
Definition int_poly0 (p : {poly rat}) : {poly rat} * rat := (p, 1).
Definition divisors0 (n : nat) : option (seq nat) := Some (divisors n).
Example gcd0_ok : gcd_ok (@gcdp _). Proof. by move=> p q; exact: eqpxx. Qed.
Example int_poly0_ok : int_poly_ok int_poly0. Proof. by move=> p _; split; [exact: oner_neq0|rewrite scale1r]. Qed.
Example divisors0_ok : divisors_ok divisors0. Proof. by move=> n l n0 [<-] d; rewrite -dvdn_divisors. Qed.
Example lsolve0_ok : lsolve_ok lsolve0.
Proof.
move=> r c M v; rewrite /lsolve0; case: ifP => [/mulmxKpV -> //|H u E].
by move: H; rewrite -E submxMl.
Qed.
Definition gosper0 : {poly rat} -> {poly rat} -> option (option ({poly rat} * {poly rat} * {poly rat})) := gosper (@gcdp _) (fun _ => true) int_poly0 divisors0 lsolve0.

(** * C43 *)
Section Theorems.
Context (ggcd : {poly rat} -> {poly rat} -> {poly rat}) (is_int : {poly rat} -> bool) (int_poly : {poly rat} -> {poly rat} * rat) (find_divisors : nat -> option (seq nat)).
Context (lsolve : forall r c : nat, 'M[rat]_(r, c) -> 'rV[rat]_c -> option 'rV[rat]_r).
Context (Hg : gcd_ok ggcd) (Hi : int_poly_ok int_poly) (Hd : divisors_ok find_divisors) (Hl : lsolve_ok lsolve).
Notation gosper := (gosper ggcd is_int int_poly find_divisors lsolve).
(** The roots that are kept are the natural numbers h for which f(m) and g(m + h) have a common factor. *)
Theorem C43_resultant_roots f g l : f != 0 -> g != 0 -> coprimep f g -> integer_roots find_divisors f g = Some l ->
  forall h : nat, (h \in l) = ~~ coprimep f (shift g h%:R).
Proof. exact: integer_roots_ok. Qed.
(** Step two: f(m)/g(m) = a(m)/b(m) c(m+1)/c(m), and a(m), b(m+h) are coprime for every natural h. *)
Theorem C43_step_two f g a b c : f != 0 -> g != 0 -> coprimep f g -> step_two ggcd is_int int_poly find_divisors f g = Some (a, b, c) ->
  [/\ [/\ a != 0, b != 0 & c != 0], f * b * c = g * a * shift c 1, dispersed a b & b %| g].
Proof. exact: step_two_ok. Qed.
(** The result is the sum of t(k) for k from lower to upper = m + d. *)
Theorem C43_gosper f g b c x (V : fieldType) (phi : {rmorphism rat -> V}) (t : int -> V) (lower d m : int) (n : nat) :
  f != 0 -> g != 0 -> coprimep f g -> gosper f g = Some (Some (b, c, x)) -> lower + n%:Z = m + d + 1 ->
  (forall k : int, lower <= k -> k <= m + d -> t (k + 1) * phi g.[k%:~R] = t k * phi f.[k%:~R] /\ g.[k%:~R] != 0) ->
  (forall k : int, lower <= k -> k <= m + d + 1 -> c.[k%:~R] != 0) ->
  step_four phi b c x t lower d m = sum_from t lower n.
Proof. exact: gosper_sum. Qed.
(** The same when t(m) = c(m) s(m) and c is cancelled, zeros of c included. *)
Theorem C43_gosper_reduced f g b c x (V : fieldType) (phi : {rmorphism rat -> V}) (s : int -> V) (lower : int) (n : nat) :
  f != 0 -> g != 0 -> coprimep f g -> gosper f g = Some (Some (b, c, x)) ->
  (forall a, f * b * c = g * a * shift c 1 -> forall k : int, lower <= k -> k < lower + n%:Z -> s (k + 1) * phi b.[k%:~R] = s k * phi a.[k%:~R]) ->
  let z (k : int) := phi (b.[(k - 1)%:~R] * x.[k%:~R]) * s k in
  z (lower + n%:Z) - z lower = sum_from (fun k => phi c.[k%:~R] * s k) lower n.
Proof. exact: gosper_sum_reduced. Qed.

(** * C44 *)
(** A polynomial solution of the key equation has at most the degree that is chosen. *)
Theorem C44_degree_bound a b c x : a != 0 -> b != 0 -> c != 0 -> key_equation a b c x -> exists2 d, degree_x a b c = Some d & (deg x <= d)%N.
Proof. exact: degree_bound. Qed.
(** Step three finds a polynomial solution if and only if there is one. *)
Theorem C44_step_three a b c : a != 0 -> b != 0 -> c != 0 ->
  match step_three lsolve a b c with
  | Some x => key_equation a b c x
  | None => forall x, ~ key_equation a b c x
  end.
Proof. exact: step_three_ok. Qed.
(** The symbolic sum is returned only if no r(m) t(m) with a rational function r = p/q is an antidifference of t(m):
    r(m+1) f(m)/g(m) - r(m) = 1 has no solution. *)
Theorem C44_complete f g p q : f != 0 -> g != 0 -> coprimep f g -> gosper f g = Some None -> q != 0 ->
  shift p 1 * f * q - p * g * shift q 1 <> g * q * shift q 1.
Proof. exact: complete. Qed.
End Theorems.
Print Assumptions C43_resultant_roots.
Print Assumptions C43_step_two.
Print Assumptions C43_gosper.
Print Assumptions C43_gosper_reduced.
Print Assumptions C44_degree_bound.
Print Assumptions C44_step_three.
Print Assumptions C44_complete.

(** * Examples *)
Lemma coprime_linear (u v : rat) : u != v -> coprimep ('X + u%:P) ('X + v%:P).
Proof.
move=> nuv; rewrite coprimep_sym -[u]opprK polyCN coprimep_XsubC.
by rewrite rootE hornerD hornerX hornerC addrC subr_eq0 eq_sym.
Qed.
Lemma gosper0_total f g : exists r, gosper0 f g = Some r.
Proof.
rewrite /gosper0 /gosper /step_two /integer_roots /divisors0.
case: (split_roots _ _ _ _) => [[a b] c]; case: (integer_pair _ _ _ _) => a' b'.
by case: (step_three _ _ _ _) => [x|]; [exists (Some (b', c, x))|exists None].
Qed.
(** t(m) = m is summable: f = m + 1, g = m. *)
Example gosper_identity : exists b c x, gosper0 ('X + 1%:P) 'X = Some (Some (b, c, x)).
Proof.
have [[[[b c] x]|] E] := gosper0_total ('X + 1%:P) 'X; first by exists b, c, x.
have nX : 'X != 0 :> {poly rat} by rewrite polyX_eq0.
have nX1 : 'X + 1%:P != 0 :> {poly rat} by rewrite -size_poly_eq0 size_XaddC.
have co : coprimep ('X + 1%:P) ('X : {poly rat}) by rewrite -['X in X in coprimep _ X]addr0 -polyC0; apply: coprime_linear; rewrite oner_eq0.
case: (@C44_complete _ (fun _ => true) _ _ _ gcd0_ok int_poly0_ok divisors0_ok lsolve0_ok _ _ ('X - 1%:P) (2%:R%:P) nX1 nX co E).
  by rewrite polyC_eq0 pnatr_eq0.
rewrite shiftB shiftC shiftC /shift comp_polyX addrK.
have -> : 2%:R%:P = 1 + 1 :> {poly rat} by rewrite -polyC1 -polyCD.
rewrite polyC1; pring.
Qed.
(** t(m) = 1/m is not: f = m, g = m + 1. *)
Example gosper_harmonic : gosper0 'X ('X + 1%:P) = Some None.
Proof.
have nX : 'X != 0 :> {poly rat} by rewrite polyX_eq0.
have nX1 : 'X + 1%:P != 0 :> {poly rat} by rewrite -size_poly_eq0 size_XaddC.
have co : coprimep 'X ('X + 1%:P : {poly rat}) by rewrite -['X in X in coprimep X _]addr0 -polyC0; apply: coprime_linear; rewrite eq_sym oner_eq0.
rewrite /gosper0 /gosper /step_two.
case Er: (integer_roots _ _ _) => [l|]; last by move: Er; rewrite /integer_roots /divisors0.
have El : l = [::].
  case: l Er => // h l Er; have := C43_resultant_roots divisors0_ok nX nX1 co Er h; rewrite inE eqxx /=.
  rewrite shiftD shiftC /shift comp_polyX -addrA -polyCD -['X in X in coprimep X _]addr0 -polyC0 coprime_linear //.
  by rewrite eq_sym -[1]/(1%:R) -natrD addn1 pnatr_eq0.
have Lx : lead_coef ('X + 1%:P : {poly rat}) = 1 by rewrite -(lead_shift _ (-1)) shiftD shiftC /shift comp_polyX polyCN addrNK lead_coefX.
rewrite El /split_roots /= lead_coefX Lx invr1 !scale1r.
have -> : step_three lsolve0 'X ('X + 1%:P) 1 = None; last by [].
have n1 : 1 != 0 :> {poly rat} by exact: oner_neq0.
have := C44_step_three lsolve0_ok nX nX1 n1; case: (step_three _ _ _ _) => // x.
rewrite /key_equation shiftD shiftC /shift comp_polyX polyCN addrNK -mulrBr => E.
by have := congr1 (fun p => p.[0]) E; rewrite hornerM hornerX mul0r hornerC => /eqP; rewrite eq_sym oner_eq0.
Qed.
(** So no rational multiple of 1/m has difference 1/m. *)
Example harmonic_not_rational p q : q != 0 -> shift p 1 * 'X * q - p * ('X + 1%:P) * shift q 1 <> ('X + 1%:P) * q * shift q 1.
Proof.
have nX : 'X != 0 :> {poly rat} by rewrite polyX_eq0.
have nX1 : 'X + 1%:P != 0 :> {poly rat} by rewrite -size_poly_eq0 size_XaddC.
have co : coprimep 'X ('X + 1%:P : {poly rat}) by rewrite -['X in X in coprimep X _]addr0 -polyC0; apply: coprime_linear; rewrite eq_sym oner_eq0.
exact: (C44_complete gcd0_ok int_poly0_ok divisors0_ok lsolve0_ok nX nX1 co gosper_harmonic).
Qed.
(** The sum of k for k from lower to m, from c = m: every limit. *)
Example gosper_identity_sum b c x (lower : int) (n : nat) : gosper0 ('X + 1%:P) 'X = Some (Some (b, c, x)) ->
  (forall k : int, lower <= k -> k <= lower + n%:Z -> k != 0 /\ c.[k%:~R] != 0) ->
  step_four [rmorphism of idfun] b c x (fun k => k%:~R : rat) lower (-1) (lower + n%:Z) = sum_from (fun k => k%:~R : rat) lower n.
Proof.
have nX : 'X != 0 :> {poly rat} by rewrite polyX_eq0.
have nX1 : 'X + 1%:P != 0 :> {poly rat} by rewrite -size_poly_eq0 size_XaddC.
have co : coprimep ('X + 1%:P) ('X : {poly rat}) by rewrite -['X in X in coprimep _ X]addr0 -polyC0; apply: coprime_linear; rewrite oner_eq0.
move=> G H; apply: (C43_gosper gcd0_ok int_poly0_ok divisors0_ok lsolve0_ok nX1 nX co G).
- by rewrite addrNK.
- move=> k L U; have [nk _] : k != 0 /\ c.[k%:~R] != 0 by apply: H => //; apply: (le_trans U); rewrite ger_addl.
  by split; [rewrite /= hornerD !hornerX hornerC intrD mulrC|rewrite hornerX intr_eq0].
- by move=> k L; rewrite addrNK => U; have [] := H k L U.
Qed.
