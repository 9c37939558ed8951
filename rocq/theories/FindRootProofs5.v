(** Pure power equations; criteria used by the examples. *)
From Coq Require Import ZArith QArith Qcanon Qfield List Bool Lia Reals Lra Field Arith Permutation.
From Coquelicot Require Import Complex.
From Verif Require Import IntUtilModel Ast ExprModel ExprProofs1 Fld FPoly PolyMore CplxF RootModel RootSpec RootProofs RootProofs2 FindRootModel FindRootSpec NestedProofs RatRootProofs SearchProofs FindRootProofs FindRootProofs2 FindRootProofs3 FindRootProofs4.
Import ListNotations.
Local Open Scope list_scope.
Local Open Scope nat_scope.

(** * Square-freeness through the derivative *)
Lemma square_free_derivative (p : list Qc) : (forall z, pval p z = RtoC 0 -> pd (K:=CF) (map qC p) z <> RtoC 0) -> square_free p.
Proof.
  intros H z g E. apply (H z); [rewrite E; ring|].
  set (w := pmul (K:=CF) (pmul (K:=CF) [(- z)%C; RtoC 1] [(- z)%C; RtoC 1]) g).
  assert (N : forall x, peval (K:=CF) (map qC p) x = peval (K:=CF) w x).
  { intros x. refine (eq_trans (E x) _). unfold w. rewrite !(peval_pmul (K:=CF)). cbn [peval]. cring. }
  pose proof (nth_peval_ext (K:=CF) _ _ N) as N'.
  assert (D : pd (K:=CF) (map qC p) z = pd (K:=CF) w z).
  { unfold pd. apply (peval_nth_ext (K:=CF)). intros i. rewrite !(nth_pderiv (K:=CF)), N'. reflexivity. }
  refine (eq_trans D _). unfold w. rewrite !(pd_pmul (K:=CF)), !(peval_pmul (K:=CF)). cbn [peval].
  cgen (pd (K:=CF) [(- z)%C; RtoC 1] z). cgen (pd (K:=CF) g z). cring.
Qed.

(** * a x^n + k *)
Section Pure.
Variables (a k : Z) (n : nat).
Hypothesis Ha : a <> 0%Z.
Hypothesis Hk : k <> 0%Z.
Hypothesis Hn : 2 <= n.
Let p : list Qc := pure_power_poly a k n.
Lemma pure_length : length p = S n.
Proof. unfold p, pure_power_poly. cbn [length]. rewrite app_length, repeat_length. cbn [length]. lia. Qed.
Lemma pure_last : last p 0%Qc = zq a.
Proof. unfold p, pure_power_poly. rewrite app_comm_cons, last_last. reflexivity. Qed.
Lemma pure_proper : proper p.
Proof. split; [discriminate|]. rewrite pure_last. apply zq_neq0; auto. Qed.
Lemma pure_degree : degree p = n.
Proof. rewrite proper_degree by apply pure_proper. rewrite pure_length. reflexivity. Qed.
Lemma pure_lcoeff : lcoeff p = zq a.
Proof. rewrite proper_lcoeff by apply pure_proper. apply pure_last. Qed.
Lemma pure_int : integer_coefficients p.
Proof.
  unfold p, pure_power_poly. constructor; [eexists; reflexivity|]. apply Forall_app. split; [|constructor; [eexists; reflexivity|constructor]].
  apply Forall_forall. intros c Hc. apply repeat_spec in Hc. subst c. exists 0%Z. symmetry. apply zq_0.
Qed.
Lemma pure_monomial : is_monomial p = true.
Proof.
  unfold is_monomial. rewrite forallb_forall. intros i Hi. apply in_seq in Hi. rewrite pure_degree in Hi.
  destruct (qzero_spec (coeff p i)) as [|X]; auto. exfalso. apply X. unfold coeff, p, pure_power_poly. destruct i as [|i]; [lia|]. cbn [nth].
  rewrite app_nth1 by (rewrite repeat_length; lia). apply nth_repeat.
Qed.
Lemma pure_val x : pval p x = (qC (zq a) * fpow (K:=CF) x n + qC (zq k))%C.
Proof.
  rewrite is_monomial_val; [|apply pure_proper|rewrite pure_degree; lia|apply pure_monomial].
  rewrite pure_lcoeff, pure_degree. reflexivity.
Qed.
Lemma pd_zeros (c x : C) m : (x * pd (K:=CF) (repeat (@f0 CF) m ++ [c : car CF]) x)%C = (ofn (K:=CF) m * c * fpow (K:=CF) x m)%C.
Proof.
  induction m as [|m IH]; cbn [repeat app].
  - rewrite (pd_cons (K:=CF)). cbn [peval fpow]. rewrite (pd_nil (K:=CF)), (ofn_0 (K:=CF)). cring.
  - rewrite (pd_cons (K:=CF)), (peval_app (K:=CF)), (peval_zeros (K:=CF)), repeat_length, (ofn_S (K:=CF)). cbn [peval fpow]. toC.
    set (D := pd (K:=CF) (repeat (RtoC 0) m ++ [c]) x) in *. transitivity (x * (fpow (K:=CF) x m * c) + x * (x * D))%C; [cgen D; cring|].
    assert (IH' : (x * D)%C = (ofn (K:=CF) m * c * fpow (K:=CF) x m)%C) by exact IH. rewrite IH'. cgen (ofn (K:=CF) m). cring.
Qed.
Lemma pure_square_free : square_free p.
Proof.
  assert (A0 : qC (zq a) <> RtoC 0) by (apply qC_neq0, zq_neq0; auto). assert (K0 : qC (zq k) <> RtoC 0) by (apply qC_neq0, zq_neq0; auto).
  apply square_free_derivative. intros z Z0. rewrite pure_val in Z0.
  assert (NZ : z <> RtoC 0).
  { intros ->. apply K0. pose proof (fpow_0l (K:=CF) n ltac:(lia)) as X. change (@f0 CF) with (RtoC 0) in X. rewrite X in Z0. rewrite <- Z0. ring. }
  assert (M : map qC p = @cons (car CF) (qC (zq k)) (repeat (@f0 CF) (n - 1) ++ [qC (zq a)])).
  { unfold p, pure_power_poly. cbn [map]. f_equal.
    assert (E0 : forall j, map qC (repeat 0%Qc j) = repeat (@f0 CF) j) by (induction j as [|j IHj]; cbn [repeat map]; auto; rewrite IHj, qC_0; reflexivity).
    rewrite map_app, E0. reflexivity. }
  intros D. assert (D' : pd (K:=CF) (@cons (car CF) (qC (zq k)) (repeat (@f0 CF) (n - 1) ++ [qC (zq a)])) z = RtoC 0) by (rewrite <- M; exact D). clear D.
  rewrite (pd_cons (K:=CF)), (peval_app (K:=CF)), (peval_zeros (K:=CF)), repeat_length in D'. cbn [peval] in D'.
  pose proof (pd_zeros (qC (zq a)) z (n - 1)) as PZ.
  assert (F : (ofn (K:=CF) (S (n - 1)) * (qC (zq a) * fpow (K:=CF) z (n - 1)))%C = RtoC 0).
  { rewrite <- D', (ofn_S (K:=CF)). toC. set (D := pd (K:=CF) (repeat (RtoC 0) (n - 1) ++ [qC (zq a)]) z) in *.
    assert (PZ' : (z * D)%C = (ofn (K:=CF) (n - 1) * qC (zq a) * fpow (K:=CF) z (n - 1))%C) by exact PZ. rewrite PZ'. cgen (ofn (K:=CF) (n - 1)). cring. }
  apply C_eq0 in F. destruct F as [F|F]; [revert F; apply (ofn_neq0 (K:=CF))|]. apply C_eq0 in F. destruct F as [F|F]; [auto|].
  revert F. apply (fpow_neq0 (K:=CF)). exact NZ.
Qed.
End Pure.
