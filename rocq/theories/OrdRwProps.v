(** C70: the order reduction on expressions. *)
From Coq Require Import ZArith QArith Qcanon Reals List String Bool Lia Lra FunctionalExtensionality.
From Verif Require Import Ast ExprModel ExprSpec ExprProofs1 ExprProofs2 ExprProofs3 SeqInterp NonLinProofs RatRootProofs OrdRwModel OrdRwSpec OrdRwProofs.
Import ListNotations.
Local Open Scope list_scope.
Local Open Scope R_scope.

(** The rewritten right-hand side at m is the original one at d m + r, for the sequence x(r), x(d + r), ... Missing: n inside sums or products
    that are operands of powers or functions (see below). *)
Theorem C70_rewriting_partial : forall I G, (forall x, ginac_ok (with_x I x) G) -> forall r, r <> "n"%string -> forall d, (0 < d)%nat ->
  forall rhs rhs' inh, Forall (direct_term r d) (terms rhs) -> write_reduced_order_recurrence G r d rhs = Some (rhs', inh) ->
  forall x m r0 rho v, (r0 < d)%nat -> eval (with_x I x) (upd rho "n" (INR (d * m + r0))) rhs = Some v ->
  eval (with_x I (every d r0 x)) (upd (upd rho r (INR r0)) "n" (INR m)) rhs' = Some v.
Proof.
  intros I G HG r Nr d Hd rhs rhs' inh D E x m r0 rho v Hr0. exact (reduced_ok I G HG r d Hd x m r0 Hr0 rhs rhs' inh D E _ _ v (related_intro r Nr d m r0 rho)).
Qed.
(** The inhomogeneous term is that of the terms without x(). *)
Theorem C70_inhomogeneous_partial : forall I G, (forall x, ginac_ok (with_x I x) G) -> forall r, r <> "n"%string -> forall d, (0 < d)%nat ->
  forall rhs rhs' inh, Forall (direct_term r d) (terms rhs) -> write_reduced_order_recurrence G r d rhs = Some (rhs', inh) ->
  (forall t t', In t (terms rhs) -> rewrite_term G r d t = Some t' -> has_x_of_n t' = has_x_of_n t) ->
  forall x m r0 rho v, (r0 < d)%nat -> eval (with_x I x) (upd rho "n" (INR (d * m + r0))) (Add (filter (fun t => negb (has_x_of_n t)) (terms rhs))) = Some v ->
  eval (with_x I (every d r0 x)) (upd (upd rho r (INR r0)) "n" (INR m)) inh = Some v.
Proof.
  intros I G HG r Nr d Hd rhs rhs' inh D E K x m r0 rho v Hr0. exact (inhomogeneous_ok I G HG r d Hd x m r0 Hr0 rhs rhs' inh D E K _ _ v (related_intro r Nr d m r0 rho)).
Qed.
(** The solution of the reduced recurrence, rewritten, has at n the value of the reduced solution at floor(n/d), for the initial conditions x(d k + n mod d). *)
Theorem C70_come_back : forall I G, (forall x, ginac_ok (with_x I x) G) -> (forall a b, b <> 0 -> ifun I FMod [a; b] = Some (rmod a b)) ->
  forall r, r <> "n"%string -> forall d, (0 < d)%nat -> forall e e', come_back_to_original_variable G r d e = Some e' ->
  forall ic n rho v, eval (with_x I (every d (n mod d) ic)) (upd (upd rho r (INR (n mod d))) "n" (INR (n / d))) e = Some v ->
  eval (with_x I ic) (upd rho "n" (INR n)) e' = Some v.
Proof.
  intros I G HG Hm r Nr d Hd e e' E ic n rho v V. refine (come_back_ok I G HG r d Hd ic n Hm e e' E _ _ v _ V).
  pose proof (related_intro r Nr d (n / d) (n mod d) rho) as R. rewrite (N_eq d Hd n) in R. exact R.
Qed.
(** Together: if the expression [s] solves the reduced recurrence for each remainder, then the expression that is returned solves the original one. *)
Theorem C70_solution_partial : forall I G, (forall x, ginac_ok (with_x I x) G) -> (forall a b, b <> 0 -> ifun I FMod [a; b] = Some (rmod a b)) ->
  forall r, r <> "n"%string -> forall d, (0 < d)%nat ->
  forall rhs rhs' inh s s', Forall (direct_term r d) (terms rhs) -> write_reduced_order_recurrence G r d rhs = Some (rhs', inh) -> come_back_to_original_variable G r d s = Some s' ->
  forall rho ic y k, (forall r0 m, (r0 < d)%nat -> eval (with_x I (every d r0 ic)) (upd (upd rho r (INR r0)) "n" (INR m)) s = Some (y r0 m)) ->
  (forall r0, (r0 < d)%nat -> solves_from I (upd rho r (INR r0)) k rhs' (y r0)) ->
  (forall n, eval (with_x I ic) (upd rho "n" (INR n)) s' = Some (interleave d y n)) /\
  (forall n v, (d * k <= n)%nat -> eval (with_x I (interleave d y)) (upd rho "n" (INR n)) rhs = Some v -> v = interleave d y n).
Proof.
  intros I G HG Hm r Nr d Hd rhs rhs' inh s s' D E Es rho ic y k Hs Hy. split.
  - intros n. apply (C70_come_back I G HG Hm r Nr d Hd s s' Es). apply Hs. apply Nat.mod_upper_bound. lia.
  - intros n v Hn V. assert (Hr : (n mod d < d)%nat) by (apply Nat.mod_upper_bound; lia). assert (En : (d * (n / d) + n mod d = n)%nat) by (symmetry; apply Nat.div_mod; lia).
    pose proof (C70_rewriting_partial I G HG r Nr d Hd rhs rhs' inh D E (interleave d y) (n / d) (n mod d) rho v Hr) as H. rewrite En in H. specialize (H V).
    assert (X : every d (n mod d) (interleave d y) = y (n mod d)%nat).
    { apply functional_extensionality. intros j. unfold every, interleave. replace (d * j + n mod d)%nat with (n mod d + j * d)%nat by lia. rewrite Nat.mod_add, Nat.div_add, Nat.mod_mod, (Nat.div_small (n mod d) d Hr) by lia. reflexivity. }
    rewrite X in H. specialize (Hy (n mod d)%nat Hr (n / d)%nat ltac:(apply Nat.div_le_lower_bound; lia)). unfold holds_at in Hy. rewrite H in Hy. unfold interleave. congruence.
Qed.

(** * Examples *)
Definition q (z : Z) : expr := Num (zq z).
Definition x_at (c : Z) : expr := Fun FX [Add [Sym "n"; q c]].
(** x(n) = x(n-2) + n: rewritten, x(n) = x(n-1) + 2 n + r; the solution x(0) + n^2 + n + r n comes back. *)
Definition rhs1 : expr := Add [x_at (-2); Sym "n"].
Definition sol1 : expr := Add [Fun FX [q 0]; Pow (Sym "n") (q 2); Sym "n"; Mul [Sym "r"; Sym "n"]].
Definition rhs1' : expr := Add [Mul [q 2; Sym "n"]; Sym "r"; x_at (-1)].
Definition part1 (ic : nat -> R) (r0 m : nat) : R := ic r0 + INR m ^ 2 + INR m + INR r0 * INR m.
Lemma run G r d e a b : match write_reduced_order_recurrence G r d e with Some (a', b') => expr_eqb a' a && expr_eqb b' b | None => false end = true -> write_reduced_order_recurrence G r d e = Some (a, b).
Proof. destruct (write_reduced_order_recurrence G r d e) as [[a' b']|]; [|discriminate]. intros H. apply andb_prop in H as [H1 H2]. apply expr_eqb_eq in H1, H2. congruence. Qed.
Lemma rewrite1 : exists inh, write_reduced_order_recurrence G0 "r" 2 rhs1 = Some (rhs1', inh).
Proof. exists (Add [Mul [q 2; Sym "n"]; Sym "r"]). apply run. vm_compute. reflexivity. Qed.
Lemma x_val I x rho c v : rho "n"%string = INR v -> (0 <= Z.of_nat v + c)%Z -> eval (with_x I x) rho (x_at c) = Some (x (Z.to_nat (Z.of_nat v + c))).
Proof.
  intros H L. unfold x_at. cbn [eval]. rewrite omap_cons, eval_Add2. unfold q. cbn [eval omap]. rewrite H, rv_zq. cbn [olift2 obind with_x ifun].
  replace (INR v + IZR c) with (IZR (Z.of_nat v + c)) by (rewrite plus_IZR, INR_IZR_INZ; reflexivity). rewrite as_int_IZR. destruct (Z.leb_spec 0 (Z.of_nat v + c)); [reflexivity|lia].
Qed.
Example C70_solution_used : forall I, (forall a b, b <> 0 -> ifun I FMod [a; b] = Some (rmod a b)) -> forall rho ic, exists s', come_back_to_original_variable G0 "r" 2 sol1 = Some s' /\
  (forall n, eval (with_x I ic) (upd rho "n" (INR n)) s' = Some (interleave 2 (part1 ic) n)) /\
  (forall n v, (2 * 1 <= n)%nat -> eval (with_x I (interleave 2 (part1 ic))) (upd rho "n" (INR n)) rhs1 = Some v -> v = interleave 2 (part1 ic) n).
Proof.
  intros I Hm rho ic. destruct rewrite1 as (inh & E). destruct (come_back_to_original_variable G0 "r" 2 sol1) as [s'|] eqn:Es; [|discriminate]. exists s'. split; [reflexivity|].
  refine (C70_solution_partial I G0 (fun x => G0_ok _) Hm "r" ltac:(discriminate) 2 ltac:(lia) rhs1 rhs1' inh sol1 s' _ E Es rho ic (part1 ic) 1 _ _).
  - constructor; [|constructor; [|constructor]]; cbn [direct_term]. + exists (Add [Sym "n"; q (-2)]). split; [reflexivity|]. exists (-1)%Z. left. reflexivity. + cbn. discriminate.
  - intros r0 m Hr0. unfold sol1. rewrite eval_Add, !esum_cons, esum_nil. assert (P : rpow (INR m) 2 = Some (INR m ^ 2)). { change 2 with (INR 2). apply rpow_nat. }
    cbn [eval]. unfold upd, q. cbn [String.eqb Ascii.eqb Bool.eqb eval fold_right]. rewrite rv_zq. cbn [obind]. rewrite P. cbn [omap eval obind with_x ifun]. rewrite rv_zq, as_int_IZR. cbn [Z.leb Z.compare olift2].
    f_equal. unfold part1, every. change (Z.to_nat 0) with 0%nat. rewrite Nat.mul_0_r, Nat.add_0_l. lra.
  - intros r0 Hr0 n Hn. unfold holds_at, rhs1'. rewrite eval_Add, !esum_cons, esum_nil, eval_Mul2.
    rewrite (x_val I _ _ (-1) n); [|unfold upd; now rewrite String.eqb_refl|lia]. cbn [eval]. unfold upd, q. cbn [String.eqb Ascii.eqb Bool.eqb eval]. rewrite rv_zq. cbn [olift2]. f_equal. unfold part1.
    replace (Z.to_nat (Z.of_nat n + -1)) with (n - 1)%nat by lia. rewrite minus_INR by lia. cbn [INR]. lra.
Qed.
Example C70_inhomogeneous_used : forall I x rho, eval (with_x I (every 2 1 x)) (upd (upd rho "r" (INR 1)) "n" (INR 3)) (Add [Mul [q 2; Sym "n"]; Sym "r"]) = Some 7.
Proof.
  intros I x rho. assert (E : write_reduced_order_recurrence G0 "r" 2 rhs1 = Some (rhs1', Add [Mul [q 2; Sym "n"]; Sym "r"])).
  { apply run. vm_compute. reflexivity. }
  refine (C70_inhomogeneous_partial I G0 (fun x => G0_ok _) "r" ltac:(discriminate) 2 ltac:(lia) rhs1 rhs1' _ _ E _ x 3 1 rho 7 ltac:(lia) _).
  - constructor; [|constructor; [|constructor]]; cbn [direct_term]. + exists (Add [Sym "n"; q (-2)]). split; [reflexivity|]. exists (-1)%Z. left. reflexivity. + cbn. discriminate.
  - intros t t' [<-|[<-|[]]] H; vm_compute in H; injection H as <-; reflexivity.
  - cbn. unfold upd. cbn. f_equal. lra.
Qed.

(** x(n) = x(n-2) + 1/(n+1): the sum in the denominator is not rewritten, the reduced recurrence is x(n) = x(n-1) + 1/(n+1), and from its solutions
    we do not get a solution of the original recurrence. *)
Definition rhs2 : expr := Add [x_at (-2); Pow (Add [Sym "n"; q 1]) (q (-1))].
Definition rhs2' : expr := Add [Pow (Add [Sym "n"; q 1]) (q (-1)); x_at (-1)].
Fixpoint harmonic (m : nat) : R := match m with O => 0 | S k => harmonic k + / (INR (S k) + 1) end.
Lemma inverse_val I rho n : rho "n"%string = INR n -> eval I rho (Pow (Add [Sym "n"; q 1]) (q (-1))) = Some (/ (INR n + 1)).
Proof.
  intros H. cbn [eval]. unfold q at 2. cbn [eval]. change (fold_right (fun a acc => olift2 Rplus (eval I rho a) acc) (Some 0) [Sym "n"; q 1]) with (eval I rho (Add [Sym "n"; q 1])). rewrite eval_Add2. unfold q. cbn [eval]. rewrite H, !rv_zq. cbn [olift2 obind].
  unfold rpow. rewrite as_int_IZR. pose proof (pos_INR n). destruct (Req_EM_T (INR n + 1) 0); [lra|]. cbn. change (Pos.to_nat 1) with 1%nat. now rewrite pow_1.
Qed.
Theorem C70_denominator_refuted : exists inh, write_reduced_order_recurrence G0 "r" 2 rhs2 = Some (rhs2', inh) /\
  forall I rho, (forall r0, (r0 < 2)%nat -> solves_from I (upd rho "r" (INR r0)) 1 rhs2' harmonic) /\
  exists v, eval (with_x I (interleave 2 (fun _ => harmonic))) (upd rho "n" (INR 2)) rhs2 = Some v /\ v <> interleave 2 (fun _ => harmonic) 2.
Proof.
  exists (Pow (Add [Sym "n"; q 1]) (q (-1))). split. { apply run. vm_compute. reflexivity. }
  intros I rho. split.
  - intros r0 _ n Hn. unfold holds_at, rhs2'. rewrite eval_Add2, (inverse_val _ _ n) by (unfold upd; now rewrite String.eqb_refl).
    rewrite (x_val I _ _ (-1) n); [|unfold upd; now rewrite String.eqb_refl|lia]. cbn [olift2]. f_equal. destruct n as [|n]; [lia|]. replace (Z.to_nat (Z.of_nat (S n) + -1)) with n by lia. change (harmonic (S n)) with (harmonic n + / (INR (S n) + 1)). lra.
  - unfold rhs2. rewrite eval_Add2, (inverse_val _ _ 2) by (unfold upd; now rewrite String.eqb_refl). rewrite (x_val I _ _ (-2) 2); [|unfold upd; now rewrite String.eqb_refl|lia].
    eexists. split; [reflexivity|]. unfold interleave. change (Z.to_nat (Z.of_nat 2 + -2)) with 0%nat. cbn [Nat.modulo Nat.divmod fst snd Nat.div Nat.sub harmonic INR]. change (0 / 2)%nat with 0%nat. change (2 / 2)%nat with 1%nat. cbn [harmonic INR]. lra.
Qed.
(** x(n) = x(n-2) + log(2 n): the inhomogeneous term stays log(2 n); at n = 2 it has to be log 4, for n -> 2 1 + 0 it is log 2. *)
Definition log2n : expr := Fun FLog [Mul [q 2; Sym "n"]].
Theorem C70_argument_refuted : write_reduced_order_recurrence G0 "r" 2 (Add [x_at (-2); log2n]) = Some (Add [log2n; x_at (-1)], log2n) /\
  forall I, (forall v, 0 < v -> ifun I FLog [v] = Some (ln v)) -> forall rho,
  eval I (upd rho "n" (INR 2)) log2n = Some (ln 4) /\ eval I (upd (upd rho "r" 0) "n" (INR 1)) log2n = Some (ln 2) /\ ln 2 <> ln 4.
Proof.
  split. { apply run. vm_compute. reflexivity. }
  intros I HI rho. unfold log2n. cbn [eval]. rewrite !omap_cons, !eval_Mul2. unfold q. cbn [eval omap]. rewrite rv_zq. unfold upd. rewrite String.eqb_refl. cbn [olift2 obind INR].
  repeat split.
  - replace (2 * (1 + 1)) with 4 by lra. apply HI. lra.
  - replace (2 * 1) with 2 by lra. apply HI. lra.
  - intros H. apply ln_inv in H; lra.
Qed.
Print Assumptions C70_rewriting_partial.
Print Assumptions C70_inhomogeneous_partial.
Print Assumptions C70_come_back.
Print Assumptions C70_solution_partial.
Print Assumptions C70_denominator_refuted.
Print Assumptions C70_argument_refuted.
