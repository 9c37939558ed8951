(** C35: roots of quadratics, cubics and quartics. *)
From Coq Require Import Reals Bool Lra.
From Coquelicot Require Import Complex.
From Verif Require Import Fld CplxF RootModel RootSpec RootProofs RootProofs2.
Local Open Scope C_scope.

(** The two values computed for z^2 + b z + c are its roots, for all complex b, c. *)
Theorem C35_quadratic : forall b c, let '(x1, x2) := solve_equation_2 b c in roots_of_2 b c x1 x2.
Proof. exact solve_equation_2_ok. Qed.
Print Assumptions C35_quadratic.

(** The three values computed for z^3 + a1 z^2 + a2 z + a3 are its roots; the first one is real; the
    function returns true exactly when all are real. *)
Theorem C35_cubic : forall a1 a2 a3, let '(x1, x2, x3, all_real) := solve_equation_3 a1 a2 a3 in
  roots_of_3 (RtoC a1) (RtoC a2) (RtoC a3) x1 x2 x3 /\ is_real x1 /\ (all_real = true <-> is_real x1 /\ is_real x2 /\ is_real x3).
Proof. exact solve_equation_3_ok. Qed.
Print Assumptions C35_cubic.

(** The four values computed for z^4 + a1 z^3 + a2 z^2 + a3 z + a4, when the assertion does not fail,
    are its roots. *)
Theorem C35_quartic : forall a1 a2 a3 a4 x1 x2 x3 x4, solve_equation_4 a1 a2 a3 a4 = Some (x1, x2, x3, x4) ->
  roots_of_4 (RtoC a1) (RtoC a2) (RtoC a3) (RtoC a4) x1 x2 x3 x4.
Proof. exact solve_equation_4_ok. Qed.
Print Assumptions C35_quartic.

(** The assertion does not fail when the quartic has no multiple root (which is the case for the
    factors that find_roots passes). *)
Theorem C35_quartic_defined : forall a1 a2 a3 a4, simple_roots_4 (RtoC a1) (RtoC a2) (RtoC a3) (RtoC a4) ->
  solve_equation_4 a1 a2 a3 a4 <> None.
Proof. exact solve_equation_4_defined. Qed.
Print Assumptions C35_quartic_defined.

(** What sqrt and cubic_root denote: an n-th root, the non-negative real one when there is one. *)
Theorem C35_principal_root : forall n, (0 < n)%nat -> (forall z, fpow (K:=CF) (proot n z) n = z) /\
  forall a, (0 <= a)%R -> proot n (RtoC a) = RtoC (rroot n a) /\ (0 <= rroot n a)%R.
Proof.
  intros n Hn. split; [intros z; apply proot_pow; exact Hn|]. intros a Ha. split; [apply proot_real; exact Ha|].
  unfold rroot. destruct (Req_EM_T a 0); [lra|]. apply Rlt_le, exp_pos.
Qed.
Print Assumptions C35_principal_root.

(** z^4 - 1 has no multiple root. *)
Example C35_simple : simple_roots_4 (RtoC 0) (RtoC 0) (RtoC 0) (RtoC (-1)).
Proof.
  intros z H D. assert (Z : z * z * z = RtoC 0).
  { transitivity ((RtoC 4 * (z * z * z) + RtoC 3 * RtoC 0 * (z * z) + RtoC 2 * RtoC 0 * z + RtoC 0) / RtoC 4); [field; intros X; apply RtoC_inj in X; lra|]. rewrite D. field. intros X; apply RtoC_inj in X; lra. }
  assert (X : RtoC (-1) = RtoC 0).
  { transitivity (z * z * z * z + RtoC 0 * (z * z * z) + RtoC 0 * (z * z) + RtoC 0 * z + RtoC (-1)); [rewrite Z; ring|]. rewrite H. reflexivity. }
  apply RtoC_inj in X. lra.
Qed.
(** Hence z^4 - 1 is solved. *)
Example C35_solved : exists x1 x2 x3 x4, solve_equation_4 0 0 0 (-1) = Some (x1, x2, x3, x4) /\ roots_of_4 (RtoC 0) (RtoC 0) (RtoC 0) (RtoC (-1)) x1 x2 x3 x4.
Proof.
  pose proof (C35_quartic_defined 0 0 0 (-1) C35_simple) as N. destruct (solve_equation_4 0 0 0 (-1)) as [[[[x1 x2] x3] x4]|] eqn:E; [|congruence].
  exists x1, x2, x3, x4. split; auto. apply C35_quartic. exact E.
Qed.
