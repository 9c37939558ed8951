From Coq Require Import ZArith QArith Qcanon Reals List String Bool Arith Lia Lra.
From Verif Require Import Ast ExprSpec ExprProofs1 SeqInterp RecModel MaxModel MaxSpec.
Import ListNotations.
Local Open Scope R_scope.

Lemma split_max_some rhs c f : split_max rhs = Some (c, f) -> rhs = Fun FMax [c; f] \/ rhs = Fun FMax [f; c].
Proof.
  unfold split_max. destruct rhs as [| | | | | |g l| |]; try discriminate. destruct g; try discriminate. destruct l as [|p [|q [|]]]; try discriminate.
  destruct (number_or_symbol p); [intros [= -> ->]; auto|]. destruct (number_or_symbol q); [intros [= -> ->]; auto|discriminate].
Qed.
Lemma with_x_free I x rho c : number_or_symbol c = true -> eval (with_x I x) rho c = eval I rho c.
Proof. destruct c; try discriminate; reflexivity. Qed.
Lemma max_val I x rho p q u v : (forall a b, ifun I FMax [a; b] = Some (Rmax a b)) -> eval (with_x I x) rho p = Some u -> eval (with_x I x) rho q = Some v ->
  eval (with_x I x) rho (Fun FMax [p; q]) = Some (Rmax u v).
Proof. intros HM Hp Hq. cbn [eval omap]. rewrite Hp, Hq. cbn. apply HM. Qed.
Lemma split_max_num rhs c f : split_max rhs = Some (c, f) -> number_or_symbol c = true.
Proof.
  unfold split_max. destruct rhs as [| | | | | |g l| |]; try discriminate. destruct g; try discriminate. destruct l as [|p [|q [|]]]; try discriminate.
  destruct (number_or_symbol p) eqn:E; [intros [= -> ->]; auto|]. destruct (number_or_symbol q) eqn:E2; [intros [= -> ->]; auto|discriminate].
Qed.

Theorem max_solution I A rho rhs e : (forall a b, ifun I FMax [a; b] = Some (Rmax a b)) -> aux_correct I A ->
  compute_exact_solution_max A rhs = Ok (inl e) ->
  exists c f, (rhs = Fun FMax [c; f] \/ rhs = Fun FMax [f; c]) /\ number_or_symbol c = true /\
  (has "n" c = false ->
   exists y, denotes I rho e y /\ eval I rho c = Some (y O) /\
    forall n, (1 <= n)%nat -> (holds_at I rho rhs y n <-> y O <= y n)).
Proof.
  intros HM HA. unfold compute_exact_solution_max. destruct (split_max rhs) as [[c f]|] eqn:E; [|discriminate].
  destruct (a_order A f) as [k|] eqn:Ek; [|discriminate]. destruct (a_status A f) eqn:Es; try discriminate.
  destruct (1 <? k)%nat eqn:E1; [discriminate|]. intros [= <-]. exists c, f. split; [now apply split_max_some|]. split; [now apply (split_max_num rhs c f)|]. intros Hn.
  apply Nat.ltb_ge in E1. assert (Hv : exists v, eval I rho c = Some v) by (pose proof (split_max_num _ _ _ E) as N; destruct c; try discriminate N; cbn; eauto). destruct Hv as [v Hv].
  destruct (HA f c v k rho Ek E1 Es Hn Hv) as (y & H1 & H2 & H3). subst v. exists y. split; [exact H1|]. split; [exact Hv|].
  intros n Hle. specialize (H3 n Hle). unfold holds_at in *.
  assert (Hc : eval (with_x I y) (upd rho "n" (INR n)) c = Some (y O)).
  { rewrite (with_x_free I y _ c) by now apply (split_max_num rhs c f). rewrite eval_upd_fresh; auto. }
  destruct (split_max_some _ _ _ E) as [-> | ->].
  - rewrite (max_val I y _ _ _ (y O) (y n)); auto. split.
    + intros [= H]. rewrite <- H. apply Rmax_l.
    + intros H. rewrite Rmax_right; auto.
  - rewrite (max_val I y _ _ _ (y n) (y O)); auto. split.
    + intros [= H]. rewrite <- H. apply Rmax_r.
    + intros H. rewrite Rmax_left; auto.
Qed.
Lemma max_affine_val I y rho a b n : (1 <= n)%nat -> eval (with_x I y) (upd rho "n" (INR n)) (affine a b) = Some (rv a * y (n - 1)%nat + rv b).
Proof.
  intros Hn. unfold affine. rewrite eval_Add2, eval_Mul2. cbn [eval olift2 obind]. 
  assert (E : omap (eval (with_x I y) (upd rho "n" (INR n))) [Add [Sym "n"; Num (zq (-1))]] = Some [IZR (Z.of_nat (n - 1))]).
  { cbn [omap]. rewrite eval_Add2. cbn. unfold upd. cbn. rewrite rv_zq. f_equal. f_equal. rewrite <- INR_IZR_INZ, minus_INR by lia. cbn. lra. }
  rewrite E. cbn. rewrite as_int_IZR. destruct (0 <=? Z.of_nat (n - 1))%Z eqn:F; [|apply Z.leb_gt in F; lia]. rewrite Nat2Z.id. reflexivity.
Qed.
(** For a x(n-1) + b with a >= 0 the answer is right exactly if a c + b >= c. *)
Theorem max_affine I A rho a b c e : (forall a b, ifun I FMax [a; b] = Some (Rmax a b)) -> aux_correct I A ->
  number_or_symbol c = true -> has "n" c = false -> 0 <= rv a ->
  compute_exact_solution_max A (Fun FMax [c; affine a b]) = Ok (inl e) \/ compute_exact_solution_max A (Fun FMax [affine a b; c]) = Ok (inl e) ->
  exists y v, denotes I rho e y /\ eval I rho c = Some v /\ y O = v /\
   (solves_from I rho 1 (Fun FMax [affine a b; c]) y <-> v <= rv a * v + rv b).
Proof.
  intros HM HA Hc Hn Ha HH.
  assert (X : exists e', a_order A (affine a b) <> None /\ e = e' /\ e' = a_solution A (affine a b) c /\ (exists k, a_order A (affine a b) = Some k /\ (k <= 1)%nat) /\ a_status A (affine a b) = SUCCESS).
  { unfold compute_exact_solution_max in HH. cbn [split_max] in HH. rewrite Hc in HH. cbn [number_or_symbol affine] in HH. fold (affine a b) in HH.
    destruct HH as [HH|HH]; destruct (a_order A (affine a b)) as [k|]; try discriminate; destruct (a_status A (affine a b)); try discriminate;
    destruct (1 <? k)%nat eqn:E1; try discriminate; injection HH as <-; apply Nat.ltb_ge in E1; eexists; (split; [congruence|]); split; [reflexivity| |reflexivity|]; eauto. }
  destruct X as (e' & _ & -> & -> & (k & Hk & Hk1) & Hs). clear HH.
  assert (Hv : exists v, eval I rho c = Some v) by (destruct c; try discriminate Hc; cbn; eauto). destruct Hv as [v H2].
  destruct (HA _ c v k rho Hk Hk1 Hs Hn H2) as (y & H1 & Hy & H3). subst v. exists y, (y O). split; [exact H1|]. split; [exact H2|]. split; [reflexivity|].
  assert (R1 : forall n, y (S n) = rv a * y n + rv b).
  { intros n. specialize (H3 (S n)). unfold holds_at in H3. rewrite max_affine_val in H3 by lia. replace (S n - 1)%nat with n in H3 by lia. assert (K : Some (rv a * y n + rv b) = Some (y (S n))) by (apply H3; lia). injection K. auto. }
  assert (V : forall n, (1 <= n)%nat -> eval (with_x I y) (upd rho "n" (INR n)) (Fun FMax [affine a b; c]) = Some (Rmax (y n) (y O))).
  { intros n Hle. apply max_val; auto.
    - rewrite max_affine_val by lia. destruct n; [lia|]. replace (S n - 1)%nat with n by lia. now rewrite R1.
    - rewrite with_x_free by auto. rewrite eval_upd_fresh; auto. }
  split.
  - intros S1. specialize (S1 1%nat (le_n _)). unfold holds_at in S1. rewrite V in S1 by lia. injection S1 as S1. rewrite <- R1, <- S1. apply Rmax_r.
  - intros Hv.
    assert (M : forall n, y O <= y n).
    { induction n; [lra|]. rewrite R1. apply Rle_trans with (rv a * y O + rv b); [auto|]. apply Rplus_le_compat_r. now apply Rmult_le_compat_l. }
    intros n Hle. unfold holds_at. rewrite V by auto. rewrite Rmax_left; auto.
Qed.
Lemma unit_aux_correct I : aux_correct I unit_aux.
Proof.
  intros f c v k rho Hk _ _ Hn Hv. cbn [a_order unit_aux] in Hk.
  destruct f as [| | |l| | | | |]; try discriminate. destruct l as [|x [|[b| | | | | | | |] [|]]]; try discriminate.
  destruct (expr_eqb (Add [x; Num b]) (affine 1 b)) eqn:E; [|discriminate]. apply expr_eqb_eq in E.
  exists (fun n => v + rv b * INR n). repeat split.
  - intros n. cbn [a_solution unit_aux]. rewrite eval_Add2, eval_Mul2, eval_upd_fresh, Hv by auto. reflexivity.
  - cbn. lra.
  - intros n Hle. unfold holds_at. rewrite E, max_affine_val by auto. f_equal. rewrite rv_1, minus_INR by auto. cbn. lra.
Qed.
Lemma unit_aux_runs : compute_exact_solution_max unit_aux (Fun FMax [affine 1 (zq (-1)); Num (zq 0)]) =
  Ok (inl (Add [Num (zq 0); Mul [Num (zq (-1)); Sym "n"]])).
Proof. vm_compute. reflexivity. Qed.
Lemma unit_aux_runs2 : compute_exact_solution_max unit_aux (Fun FMax [Sym "a"; affine 1 (zq 3)]) =
  Ok (inl (Add [Sym "a"; Mul [Num (zq 3); Sym "n"]])).
Proof. vm_compute. reflexivity. Qed.
(** x(n) = max(x(n-1) - 1, 0) is "solved" by -n. *)
Theorem max_refuted : ~ (forall A rho rhs e y, aux_correct I0 A -> compute_exact_solution_max A rhs = Ok (inl e) -> denotes I0 rho e y -> solves_from I0 rho 1 rhs y).
Proof.
  intros H. assert (D : denotes I0 (fun _ => 0) (Add [Num (zq 0); Mul [Num (zq (-1)); Sym "n"]]) (fun n => - INR n)).
  { intros n. rewrite eval_Add2, eval_Mul2. cbn. rewrite !rv_zq. unfold upd. cbn. f_equal. lra. }
  specialize (H unit_aux (fun _ => 0) _ _ _ (unit_aux_correct I0) unit_aux_runs D 1%nat (le_n _)).
  unfold holds_at in H. rewrite (max_val I0 _ _ _ _ (-1) 0) in H; auto.
  - injection H as H. rewrite Rmax_right in H; cbn in H; lra.
  - rewrite max_affine_val by lia. f_equal. rewrite rv_1, rv_zq. cbn. lra.
  - cbn. now rewrite rv_zq.
Qed.
