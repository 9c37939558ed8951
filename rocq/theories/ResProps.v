(** C58: resultants (src/util.cc:334-435). *)
From mathcomp Require Import all_ssreflect all_algebra.
From Verif Require Import ResModel ResProofs ResProofs2.
Set Implicit Arguments.
Unset Strict Implicit.
Unset Printing Implicit Defensive.
Import GRing.Theory Num.Theory.
Local Open Scope ring_scope.

(** sylvester_matrix_resultant is the determinant of the Sylvester matrix: mathcomp's [resultant], which has the
    coefficients in the opposite order. *)
Theorem C58_sylvester (F : fieldType) (p q : {poly F}) : sylvester_matrix_resultant p q = (-1) ^+ ((size p).-1 * (size q).-1) * resultant p q.
Proof. exact: sylvester_resultant. Qed.
Print Assumptions C58_sylvester.
(** It is 0 exactly when the polynomials have a common factor. *)
Theorem C58_sylvester_vanishes (F : fieldType) (p q : {poly F}) : p != 0 -> q != 0 -> (sylvester_matrix_resultant p q = 0 <-> ~~ coprimep p q).
Proof. by move=> np nq; rewrite -sylvester_vanishes //; split=> [/eqP|/eqP]. Qed.
Print Assumptions C58_sylvester_vanishes.
(** Euclid's loop ends with a value (whichever polynomials it takes for rational), *)
Theorem C58_value (F : fieldType) (rational : {poly F} -> bool) (p q : {poly F}) : p != 0 -> q != 0 ->
  (* the degree of p exceeds the degree of q by at most one, or p is monic *)
  (size p <= (size q).+1)%N \/ lead_coef p = 1 ->
  resultant_of rational (size p) p q = Some (sylvester_matrix_resultant p q).
Proof.
move=> np nq H; have [v [-> [[_ ->]|<-]]] := resultant_of_ok rational np nq (leqnn _) => //.
rewrite (_ : excess p q = 1) ?mulr1 // /excess; case: leqP => // lt.
case: H => [le|->]; last by rewrite expr1n.
move: np nq le lt; rewrite -!size_poly_gt0 /degree; move: (size p) (size q) => x y A B C D; nl.
Qed.
Print Assumptions C58_value.
(** which is 0 exactly when the polynomials have a common factor, whatever their degrees. *)
Theorem C58_vanishes (F : fieldType) (rational : {poly F} -> bool) (p q : {poly F}) : p != 0 -> q != 0 ->
  exists v, resultant_of rational (size p) p q = Some v /\ (v = 0 <-> ~~ coprimep p q).
Proof.
move=> np nq; have [v [-> H]] := resultant_of_ok rational np nq (leqnn _); exists v; split=> //.
rewrite -sylvester_vanishes //; case: H => [[_ ->]|<-]; first by split=> [/eqP|/eqP].
rewrite mulf_eq0; have -> : (excess p q == 0) = false.
  by apply: negbTE; rewrite /excess; case: ifP => _; rewrite ?oner_eq0 // expf_neq0 // lead_coef_eq0.
by rewrite orbF; split=> [/eqP|/eqP].
Qed.
Print Assumptions C58_vanishes.
(** The unsigned exponent deg_g - deg_f + 1 wraps around: the resultant of 1 - x^3 and x has the wrong sign. *)
Theorem C58_wrap_refuted : let p : {poly rat} := 1 - 'X^3 in let q : {poly rat} := 'X in
  exists v, [/\ resultant_of (fun _ => true) (size p) p q = Some v, v = - sylvester_matrix_resultant p q & v != sylvester_matrix_resultant p q].
Proof.
move=> p q; have Sp : size p = 4%N by rewrite /p addrC size_addl ?size_opp ?size_polyXn // size_poly1.
have np : p != 0 by rewrite -size_poly_eq0 Sp. have nq : q != 0 by rewrite polyX_eq0.
have Lp : lead_coef p = -1 by rewrite lead_coefE Sp /= coefB coef1 coefXn /= sub0r.
have [v [Ev H]] := resultant_of_ok (fun _ => true) np nq (leqnn _).
have Dp : degree p = 3%N by rewrite /degree Sp. have Dq : degree q = 1%N by rewrite /degree size_polyX.
have X : excess p q = -1.
  rewrite /excess /wrap_exponent Dp Dq /= Lp -signr_odd oddM andbT oddB; last by rewrite expn_gt0.
  by rewrite /word oddX.
have Es : v = - sylvester_matrix_resultant p q.
  by case: H => [[[]]|<-]; rewrite ?Dp ?Dq // ?X ?mulrN1 ?opprK //; case.
exists v; split=> //; rewrite Es -subr_eq0 -opprD oppr_eq0 -mulr2n mulrn_eq0 /= sylvester_vanishes // negbK.
rewrite coprimep_sym -(subr0 q) -polyC0 coprimep_sym coprimep_XsubC.
have -> : root p 0 = false; last by []. by rewrite rootE /p hornerD hornerN hornerC hornerXn expr0n [X in _ - X]/(0) subr0 oner_eq0.
Qed.
Print Assumptions C58_wrap_refuted.
(** x^2 - 1 and x - 1: a common factor; 2 x^2 + 1 and x + 3: none. *)
Example common : ~~ coprimep ('X^2 - 1 : {poly rat}) ('X - 1%:P).
Proof. by rewrite coprimep_XsubC negbK rootE hornerD hornerN hornerC hornerXn expr1n subrr. Qed.
Example common_vanishes : resultant_of (fun _ => true) 3 ('X^2 - 1 : {poly rat}) ('X - 1%:P) = Some 0.
Proof.
have S : size ('X^2 - 1 : {poly rat}) = 3%N by rewrite size_addl ?size_opp ?size_polyXn ?size_poly1.
have np : 'X^2 - 1 != 0 :> {poly rat} by rewrite -size_poly_eq0 S.
have nq : 'X - 1%:P != 0 :> {poly rat} by rewrite polyXsubC_eq0.
have [v [E H]] := C58_vanishes (fun _ => true) np nq; rewrite S in E; rewrite E; congr Some; apply/H; exact: common.
Qed.
(** In the range of C58_value: 2 x + 1 and x + 3. *)
Example value_case : resultant_of (fun _ => true) 2 (2%:R *: 'X + 1 : {poly rat}) ('X + 3%:R%:P) = Some (sylvester_matrix_resultant (2%:R *: 'X + 1) ('X + 3%:R%:P)).
Proof.
have S : size (2%:R *: 'X + 1 : {poly rat}) = 2%N by rewrite size_addl ?size_poly1 size_scale ?size_polyX // pnatr_eq0.
rewrite -[X in resultant_of _ X]S; apply: C58_value; rewrite -?size_poly_eq0 ?S ?size_XaddC //; by left.
Qed.
