(** C26: the classification of weighted-average recurrences. *)
From Coq Require Import ZArith QArith Qcanon Reals List String Bool Lia Lra.
From Verif Require Import Ast ExprModel ExprSpec ExprCases SeqInterp ElimModel ElimSpec NonLinModel ClassModel VerifySpec VerifyCases WClassModel WClassSpec WClassProofs WClassProofs2 WClassProofs3.
Import ListNotations.
Local Open Scope list_scope.
Local Open Scope R_scope.

(** collect_term keeps the value, if each addend has the term to be collected in one factor at most, as the term or
    as a power of it with a positive integer exponent. *)
Theorem C26_collect_term : forall I G, ginac_ok I G -> forall simplify_input, (forall e, refines I e (simplify_input e)) ->
  forall rho s sv e v, eval I rho s = Some sv -> linear_in_term s (simplify_input e) -> eval I rho e = Some v ->
  eval I rho (fst (collect_term G simplify_input s e)) = Some v.
Proof. intros I G HG si Hsi rho s sv e v Hs. exact (collect_term_val I G HG si Hsi rho s sv Hs e v). Qed.

(** x(0)^2 n + n, collecting x(0). *)
Definition sq : expr := Add [Mul [Pow (Fun FX [Num 0%Qc]) (Num (zq 2)); Sym "n"]; Sym "n"].
Example C26_collect_power_used : forall (I : interp) (rho : string -> R) (x : nat -> R) v, at_n I rho x 3 sq = Some v ->
  linear_in_term (Fun FX [Num 0%Qc]) sq /\ at_n I rho x 3 (fst (collect_term G0 idE (Fun FX [Num 0%Qc]) sq)) = Some v /\
  at_n I rho x 3 (snd (collect_term G0 idE (Fun FX [Num 0%Qc]) sq)) = Some (x 0%nat * 3).
Proof.
  intros I rho x v V. assert (X : at_n I rho x 3 (Fun FX [Num 0%Qc]) = Some (x 0%nat)).
  { unfold at_n. cbn [eval omap obind with_x ifun]. rewrite rv_0. change 0 with (IZR 0). rewrite as_int_IZR. reflexivity. }
  assert (L : linear_in_term (Fun FX [Num 0%Qc]) sq).
  { cbn [linear_in_term sq]. constructor; [|constructor; [|constructor]].
    - split.
      + constructor; [|constructor; [exact Logic.I|constructor]]. intros _. exists 2%Z. split; [lia|reflexivity].
      + intros l1 t l2 E [->|(b & ->)].
        * destruct l1 as [|? [|? [|]]]; discriminate E.
        * destruct l1 as [|? [|? [|]]]; try discriminate E. cbn in E. injection E as _ <-. repeat constructor. intros [C|(b' & C)]; discriminate C.
    - split; [repeat constructor|]. intros l1 t l2 E [->|(b & ->)]; destruct l1 as [|? [|]]; discriminate E. }
  split; [exact L|split].
  - refine (C26_collect_term (with_x I x) G0 (G0_ok _) idE (fun e rho v H => H) _ _ _ sq v X L V).
  - assert (E : snd (collect_term G0 idE (Fun FX [Num 0%Qc]) sq) = Mul [Sym "n"; Pow (Fun FX [Num 0%Qc]) (Num 1%Qc)]) by (apply expr_eqb_eq; vm_compute; reflexivity).
    assert (N : at_n I rho x 3 (Sym "n") = Some 3) by (unfold at_n; cbn [eval]; change (upd rho "n" (INR 3) "n"%string) with (INR 3); f_equal; cbn; lra).
    unfold at_n in *. rewrite E, eval_Mul2, N. revert X. generalize (Fun FX [Num 0%Qc]). intros e X. cbn [eval]. rewrite X, rv_1. cbn [obind]. change 1 with (INR 1). rewrite ExprProofs2.rpow_nat, pow_1. cbn [olift2]. f_equal. ring.
Qed.
(** The summand of an accepted sum is linear in x(k). *)
Theorem C26_linear : forall I G, (forall x, ginac_ok (with_x I x) G) -> x_kept G ->
  forall simplify_input simplify_all expand domain, sound_simplification I expand ->
  forall rhs addend k lo up body w' h' w h rfo rew,
  classify_weighted G simplify_input simplify_all expand domain rhs addend k lo up body = Weighted w' h' w h rfo rew ->
  x_only_at k body -> has "x_k" body = false -> k <> "x_k"%string ->
  forall rho i, exists a b, forall x v, eval (with_x I x) (upd rho k (INR i)) body = Some v -> v = a * x i + b.
Proof. exact accepted_affine. Qed.

(** Below, the sum is sum(k, lo, up, x(k)); the parts c, r of the right-hand side are given by values.
    An accepted right-hand side with upper limit n-1 is c(n) (x(lo) + ... + x(n-1)) + r(n), and these c
    and r are the weight and the inhomogeneous term.  Missing: summands other than x(k), and
    inhomogeneous terms with x, which are accepted (see below). *)
Theorem C26_below_partial : forall I rho G, (forall x, ginac_ok (with_x I x) G) ->
  forall simplify_input simplify_all expand domain rhs addend k lo w' h' w h rfo rew x n c r v,
  let s := SumE k (Num (zq (Z.of_nat lo))) (n_plus (-1)) (Fun FX [Sym k]) in
  input_ok G simplify_input k lo (n_plus (-1)) rhs addend ->
  classify_weighted G simplify_input simplify_all expand domain rhs addend k (Num (zq (Z.of_nat lo))) (n_plus (-1)) (Fun FX [Sym k]) = Weighted w' h' w h rfo rew ->
  has_parts (with_x I x) (upd rho "n" (INR n)) s (simplify_input rhs) c r -> (forall e, refines (with_x I x) e (simplify_input e)) -> at_n I rho x n rhs = Some v ->
  at_n I rho x n w = Some c /\ at_n I rho x n h = Some r /\ v = c * sum_below x lo n + r.
Proof. intros I rho G HG si sa ex dom rhs addend k lo w' h' w h rfo rew x n c r v s. exact (faithful_below I rho G HG si sa ex dom rhs addend k lo w' h' w h rfo rew x n c r v). Qed.
(** Upper limit n: the recurrence is rewritten to an equivalent one with the upper limit n-1. *)
Theorem C26_at_partial : forall I rho G, (forall x, ginac_ok (with_x I x) G) ->
  forall simplify_input simplify_all expand domain rhs addend k lo w' h' w h rfo rew x n c r v, (lo <= n)%nat ->
  let s := SumE k (Num (zq (Z.of_nat lo))) (Sym "n") (Fun FX [Sym k]) in
  input_ok G simplify_input k lo (Sym "n") rhs addend ->
  classify_weighted G simplify_input simplify_all expand domain rhs addend k (Num (zq (Z.of_nat lo))) (Sym "n") (Fun FX [Sym k]) = Weighted w' h' w h rfo rew ->
  is_num 1 (used_weight G s simplify_input rhs addend) = false -> c <> 1 ->
  has_parts (with_x I x) (upd rho "n" (INR n)) s (simplify_input rhs) c r -> (forall e, refines (with_x I x) e (simplify_input e)) -> at_n I rho x n rhs = Some v ->
  at_n I rho x n w = Some (c / (1 - c)) /\ at_n I rho x n h = Some (r / (1 - c)) /\
  (x n = v <-> x n = c / (1 - c) * sum_below x lo n + r / (1 - c)).
Proof. intros I rho G HG si sa ex dom rhs addend k lo w' h' w h rfo rew x n c r v Hn s. exact (faithful_at I rho G HG si sa ex dom rhs addend k lo w' h' w h rfo rew x n c r v Hn). Qed.
(** Upper limit n and weight 1: x(n+1) = ... is rewritten for x(n). *)
Theorem C26_one_partial : forall I rho G, (forall x, ginac_ok (with_x I x) G) ->
  forall simplify_input simplify_all expand domain rhs addend k lo w' h' w h rfo rew x n c r v, (lo <= n)%nat ->
  let s := SumE k (Num (zq (Z.of_nat lo))) (Sym "n") (Fun FX [Sym k]) in
  input_ok G simplify_input k lo (Sym "n") rhs addend ->
  classify_weighted G simplify_input simplify_all expand domain rhs addend k (Num (zq (Z.of_nat lo))) (Sym "n") (Fun FX [Sym k]) = Weighted w' h' w h rfo rew ->
  used_weight G s simplify_input rhs addend = Num 1%Qc -> not_bound "n" (gsub G (fst (collect_term G simplify_input s rhs)) (gmul G (Num 1%Qc) s)) ->
  has_parts (with_x I x) (upd rho "n" (INR (S n))) s (simplify_input rhs) c r -> (forall e, refines (with_x I x) e (simplify_input e)) -> at_n I rho x (S n) rhs = Some v ->
  at_n I rho x n w = Some (-1) /\ at_n I rho x n h = Some (- r) /\ (x (S n) = v <-> x n = - 1 * sum_below x lo n + - r).
Proof. intros I rho G HG si sa ex dom rhs addend k lo w' h' w h rfo rew x n c r v Hn s. exact (faithful_one I rho G HG si sa ex dom rhs addend k lo w' h' w h rfo rew x n c r v Hn). Qed.
(** The final weight and inhomogeneous term are shifted by the lower limit. *)
Theorem C26_shift : forall I rho G, (forall x, ginac_ok (with_x I x) G) ->
  forall simplify_input simplify_all expand domain rhs addend k lo up w' h' w h rfo rew x n v u,
  classify_weighted G simplify_input simplify_all expand domain rhs addend k (Num (zq (Z.of_nat lo))) up (Fun FX [Sym k]) = Weighted w' h' w h rfo rew ->
  not_bound "n" w -> not_bound "n" h ->
  let l := (if expr_eqb up (Sym "n") && is_num 1 (used_weight G (SumE k (Num (zq (Z.of_nat lo))) up (Fun FX [Sym k])) simplify_input rhs addend) then S lo else lo)%nat in
  (at_n I rho x (n + l) w = Some v -> at_n I rho x n w' = Some v) /\ (at_n I rho x (n + l) h = Some u -> at_n I rho x n h' = Some u) /\
  rew = (expr_eqb up (Sym "n") || negb (Nat.eqb l 0))%bool.
Proof. intros I rho G HG. exact (shifts_ok I rho G HG). Qed.
(** The associated first order recurrence is y(n) = f(n+1)/f(n) (1+f(n)) y(n-1) + f(n+1) (g(n+1)/f(n+1) - g(n)/f(n)): the
    equation to which C25 applies. *)
Theorem C26_first_order : forall I rho G, (forall x, ginac_ok (with_x I x) G) ->
  forall simplify_input simplify_all expand domain, (forall x e, refines (with_x I x) e (simplify_all e)) ->
  forall rhs addend k lo up w' h' w h rfo rew y n f0 f1 g0 g1,
  classify_weighted G simplify_input simplify_all expand domain rhs addend k (Num (zq (Z.of_nat lo))) up (Fun FX [Sym k]) = Weighted w' h' w h rfo rew -> (1 <= n)%nat ->
  not_bound "n" w' -> not_bound "n" h' ->
  not_bound "n" (simplify_all (gmul G (gdiv G w' (shifted G (-1) w')) (gadd G (Num 1%Qc) (shifted G (-1) w')))) ->
  not_bound "n" (simplify_all (gmul G w' (gsub G (gdiv G h' w') (gdiv G (shifted G (-1) h') (shifted G (-1) w'))))) ->
  at_n I rho y n w' = Some f0 -> at_n I rho y (S n) w' = Some f1 -> at_n I rho y n h' = Some g0 -> at_n I rho y (S n) h' = Some g1 -> f0 <> 0 -> f1 <> 0 ->
  at_n I rho y n rfo = Some (f1 / f0 * (1 + f0) * y (n - 1)%nat + f1 * (g1 / f1 - g0 / f0)).
Proof. intros I rho G HG si sa ex dom Hsa. exact (first_order_ok I rho G HG si sa ex dom Hsa). Qed.

(** x(n) = sum(k, 0, n-1, k x(k)) is accepted with weight 1 and inhomogeneous term 0, i.e. as
    x(n) = x(0) + ... + x(n-1): the sequence 1, 0, 0, ... satisfies the former only. *)
Definition any_domain (_ _ : expr) : option nat := Some 0%nat.
Definition kx : expr := Mul [Sym "k"; Fun FX [Sym "k"]].
Definition bad_rhs : expr := SumE "k" (Num 0%Qc) (n_plus (-1)) kx.
Definition delta (n : nat) : R := match n with O => 1 | _ => 0 end.
Example C26_linear_used : forall I rho i, exists a b, forall x v, eval (with_x I x) (upd rho "k" (INR i)) kx = Some v -> v = a * x i + b.
Proof.
  intros I rho i. assert (C : exists w' h' w h rfo rew, classify_weighted G0 idE idE idE any_domain bad_rhs bad_rhs "k" (Num 0%Qc) (n_plus (-1)) kx = Weighted w' h' w h rfo rew) by (do 6 eexists; vm_compute; reflexivity).
  destruct C as (w' & h' & w & h & rfo & rew & C).
  refine (C26_linear I G0 (fun x => G0_ok _) G0_x_kept idE idE idE any_domain (idE_sound I) _ _ _ _ _ _ _ _ _ _ _ _ C _ eq_refl _ rho i); [repeat split|discriminate].
Qed.
(** x(k)^2 is refused. *)
Example C26_square_refused : classify_weighted G0 idE idE idE any_domain (SumE "k" (Num 0%Qc) (n_plus (-1)) (Pow (Fun FX [Sym "k"]) (Num (zq 2))))
  (SumE "k" (Num 0%Qc) (n_plus (-1)) (Pow (Fun FX [Sym "k"]) (Num (zq 2)))) "k" (Num 0%Qc) (n_plus (-1)) (Pow (Fun FX [Sym "k"]) (Num (zq 2))) = Too_complex.
Proof. vm_compute. reflexivity. Qed.
Theorem C26_factor_k_refuted : exists w' h' w h rfo rew,
  classify_weighted G0 idE idE idE any_domain bad_rhs bad_rhs "k" (Num 0%Qc) (n_plus (-1)) kx = Weighted w' h' w h rfo rew /\
  forall I rho, (forall n, (1 <= n)%nat -> at_n I rho delta n bad_rhs = Some (delta n)) /\
  at_n I rho delta 1 w = Some 1 /\ at_n I rho delta 1 h = Some 0 /\ delta 1 <> 1 * sum_below delta 0 1 + 0.
Proof.
  do 6 eexists. split; [vm_compute; reflexivity|]. intros I rho.
  assert (V : forall n, (1 <= n)%nat -> at_n I rho delta n bad_rhs = Some 0).
  { intros n Hn. unfold at_n, bad_rhs. pose proof (proj2 (up_val I rho delta n _) eq_refl) as U. unfold at_n in U. cbn [eval]. rewrite rv_0, U. clear U.
    cbn [obind]. change 0 with (IZR 0) at 1. rewrite !as_int_IZR. cbn [obind]. rewrite (osum_some _ _ (fun _ => 0)).
    - f_equal. induction (Z.to_nat _) as [|m IH]; cbn [range_sum]; auto. rewrite IH. ring.
    - intros i _. unfold kx. rewrite eval_Mul2. cbn [eval omap obind with_x ifun]. change (upd (upd rho "n" (INR n)) "k" (IZR (0 + Z.of_nat i)) "k"%string) with (IZR (0 + Z.of_nat i)). rewrite as_int_IZR. cbn [obind].
      replace (0 <=? 0 + Z.of_nat i)%Z with true by (symmetry; apply Z.leb_le; lia). cbn [olift2]. destruct i as [|i]; [cbn; f_equal; ring|].
      replace (Z.to_nat (0 + Z.of_nat (S i))) with (S i) by lia. cbn [delta]. f_equal. ring. }
  split; [intros n Hn; rewrite (V n Hn); destruct n; [lia|reflexivity]|]. split; [|split].
  - unfold at_n. cbn [eval]. unfold rv. cbn. f_equal. unfold Q2R. cbn. lra.
  - assert (E : forall e m, at_n I rho delta 1 e = Some 0 -> rv m = -1 -> at_n I rho delta 1 (Add [e; Mul [Num m; e]]) = Some 0).
    { intros e m E Em. unfold at_n in *. cbn [eval fold_right]. rewrite E, Em. cbn. f_equal. ring. }
    apply E; [|unfold rv; cbn [this]; unfold Q2R; cbn; lra].
    replace (SumE "k" (Num _) (Add _) (Mul _)) with bad_rhs by (apply expr_eqb_eq; vm_compute; reflexivity). apply V. lia.
  - unfold sum_below, delta. cbn. lra.
Qed.
(** A second sum over x goes to the inhomogeneous term: x(n) = sum(k, 0, n-1, x(k)) + sum(j, 0, n-2, x(j)). *)
Definition sum_k : expr := SumE "k" (Num 0%Qc) (n_plus (-1)) (Fun FX [Sym "k"]).
Definition sum_j : expr := SumE "j" (Num 0%Qc) (n_plus (-2)) (Fun FX [Sym "j"]).
Theorem C26_second_sum_refuted : exists w' h' w h rfo rew,
  classify_weighted G0 idE idE idE any_domain (Add [sum_k; sum_j]) sum_k "k" (Num 0%Qc) (n_plus (-1)) (Fun FX [Sym "k"]) = Weighted w' h' w h rfo rew /\
  forall I rho x, at_n I rho x 3 w = Some 1 /\ at_n I rho x 3 h = Some (x 0%nat + x 1%nat).
Proof.
  do 6 eexists. split; [vm_compute; reflexivity|]. intros I rho x.
  assert (K : at_n I rho x 3 sum_k = Some (x 0%nat + x 1%nat + x 2%nat)).
  { unfold sum_k. replace (Num 0%Qc) with (Num (zq (Z.of_nat 0))) by reflexivity. rewrite (sum_val I rho x 3 "k" 0 (n_plus (-1)) 2); [change (Z.to_nat (2 - Z.of_nat 0 + 1)) with 3%nat; cbn [range_sum Nat.add]; f_equal; ring|discriminate|].
    rewrite (proj2 (up_val I rho x 3 _) eq_refl). reflexivity. }
  assert (J : at_n I rho x 3 sum_j = Some (x 0%nat + x 1%nat)).
  { unfold sum_j. replace (Num 0%Qc) with (Num (zq (Z.of_nat 0))) by reflexivity. rewrite (sum_val I rho x 3 "j" 0 (n_plus (-2)) 1); [change (Z.to_nat (1 - Z.of_nat 0 + 1)) with 2%nat; cbn [range_sum Nat.add]; f_equal; ring|discriminate|].
    unfold at_n, n_plus. rewrite eval_Add2. cbn [eval olift2]. change (upd rho "n" (INR 3) "n"%string) with (INR 3). rewrite rv_zq. f_equal. cbn. lra. }
  split; [unfold at_n; cbn [eval]; unfold rv; cbn; f_equal; unfold Q2R; cbn; lra|].
  assert (E : forall a b c m, at_n I rho x 3 a = Some (x 0%nat + x 1%nat + x 2%nat) -> at_n I rho x 3 b = Some (x 0%nat + x 1%nat) -> at_n I rho x 3 c = Some (x 0%nat + x 1%nat + x 2%nat) -> rv m = -1 ->
     at_n I rho x 3 (Add [b; a; Mul [Num m; c]]) = Some (x 0%nat + x 1%nat)).
  { intros a b c m A B C M. unfold at_n in *. cbn [eval fold_right]. rewrite A, B, C, M. cbn. f_equal. ring. }
  apply E; try exact K; try exact J; [..|unfold rv; cbn [this]; unfold Q2R; cbn; lra].
Qed.

(** Non-vacuity: x(n) = 2 sum(k, 0, n-1, x(k)) + n, x(n) = 2 sum(k, 0, n, x(k)) + n and
    x(n) = sum(k, 0, n, x(k)) + n. *)
Definition rhs_below : expr := Add [Mul [Num (zq 2); sum_k]; Sym "n"].
Definition sum_n : expr := SumE "k" (Num 0%Qc) (Sym "n") (Fun FX [Sym "k"]).
Definition rhs_at : expr := Add [Mul [Num (zq 2); sum_n]; Sym "n"].
Definition rhs_one : expr := Add [sum_n; Sym "n"].
Lemma zq0 : Num (zq (Z.of_nat 0)) = Num 0%Qc. Proof. apply expr_eqb_eq. vm_compute. reflexivity. Qed.
Lemma not_unit (rhs addend : expr) s : is_num 1 (snd (collect_term G0 idE s rhs)) = false -> ~ unit_clash G0 s idE rhs addend.
Proof. intros N (_ & _ & E). rewrite E in N. vm_compute in N. discriminate. Qed.
Lemma parts_2 I rho s : has_parts I (upd rho "n" (INR 5)) s (Add [Mul [Num (zq 2); s]; Sym "n"]) 2 5.
Proof.
  cbn [has_parts]. replace 2 with (2 + (0 + 0)) at 1 by ring. replace 5 with (0 + (INR 5 + 0)) by (rewrite INR_IZR_INZ; cbn; lra). repeat apply SP_cons; [| |apply SP_nil].
  - apply (TP_mul _ _ _ [Num (zq 2)] []); [repeat constructor|]. cbn [app eval fold_right]. rewrite rv_zq. cbn [olift2]. f_equal. ring.
  - apply TP_free; reflexivity.
Qed.
Example C26_below_nonvacuous : input_ok G0 idE "k" 0 (n_plus (-1)) rhs_below (Mul [Num (zq 2); sum_k]) /\
  (exists w' h' w h rfo rew, classify_weighted G0 idE idE idE any_domain rhs_below (Mul [Num (zq 2); sum_k]) "k" (Num 0%Qc) (n_plus (-1)) (Fun FX [Sym "k"]) = Weighted w' h' w h rfo rew) /\
  forall I rho x, has_parts (with_x I x) (upd rho "n" (INR 5)) sum_k (idE rhs_below) 2 5.
Proof.
  split; [|split].
  - constructor; [discriminate|rewrite zq0; right; exists [Num (zq 2)], []; reflexivity|right; eexists; split; [reflexivity|now left]|apply not_unit; vm_compute; reflexivity].
  - do 6 eexists. vm_compute. reflexivity.
  - intros. apply parts_2.
Qed.
Example C26_at_nonvacuous : input_ok G0 idE "k" 0 (Sym "n") rhs_at (Mul [Num (zq 2); sum_n]) /\
  (exists w' h' w h rfo rew, classify_weighted G0 idE idE idE any_domain rhs_at (Mul [Num (zq 2); sum_n]) "k" (Num 0%Qc) (Sym "n") (Fun FX [Sym "k"]) = Weighted w' h' w h rfo rew) /\
  is_num 1 (used_weight G0 sum_n idE rhs_at (Mul [Num (zq 2); sum_n])) = false /\
  forall I rho x, has_parts (with_x I x) (upd rho "n" (INR 5)) sum_n (idE rhs_at) 2 5.
Proof.
  split; [|split; [|split]].
  - constructor; [discriminate|rewrite zq0; right; exists [Num (zq 2)], []; reflexivity|right; eexists; split; [reflexivity|now left]|apply not_unit; vm_compute; reflexivity].
  - do 6 eexists. vm_compute. reflexivity.
  - vm_compute. reflexivity.
  - intros. apply parts_2.
Qed.
Example C26_one_nonvacuous : input_ok G0 idE "k" 0 (Sym "n") rhs_one sum_n /\
  (exists w' h' w h rfo rew, classify_weighted G0 idE idE idE any_domain rhs_one sum_n "k" (Num 0%Qc) (Sym "n") (Fun FX [Sym "k"]) = Weighted w' h' w h rfo rew) /\
  expr_eqb (used_weight G0 sum_n idE rhs_one sum_n) (Num 1%Qc) = true /\
  not_bound "n" (gsub G0 (fst (collect_term G0 idE sum_n rhs_one)) (gmul G0 (Num 1%Qc) sum_n)) /\
  forall I rho x n, has_parts (with_x I x) (upd rho "n" (INR n)) sum_n (idE rhs_one) 1 (INR n).
Proof.
  split; [|split; [|split; [|split]]].
  - constructor; [discriminate|rewrite zq0; left; reflexivity|right; eexists; split; [reflexivity|now left]|].
    intros (_ & (fs & E) & _). discriminate.
  - do 6 eexists. vm_compute. reflexivity.
  - vm_compute. reflexivity.
  - cbv. repeat split; auto; try discriminate; repeat constructor; discriminate.
  - intros. cbn [has_parts idE]. replace 1 with (1 + (0 + 0)) by ring. replace (INR n) with (0 + (INR n + 0)) at 2 by ring. repeat apply SP_cons; [| |apply SP_nil].
    + apply TP_sum.
    + apply TP_free; reflexivity.
Qed.
(** The associated first order recurrence for f(n) = 2, g(n) = n. *)
Example C26_first_order_nonvacuous : forall (I : interp) (rho : string -> R) (y : nat -> R) (n : nat), exists w' h' w h rfo rew,
  classify_weighted G0 idE idE idE any_domain rhs_below (Mul [Num (zq 2); sum_k]) "k" (Num 0%Qc) (n_plus (-1)) (Fun FX [Sym "k"]) = Weighted w' h' w h rfo rew /\
  at_n I rho y n w' = Some 2.
Proof. intros. do 6 eexists. split; [vm_compute; reflexivity|]. unfold at_n. cbn [eval]. f_equal. unfold rv. cbn [this]. unfold Q2R. cbn. lra. Qed.

Print Assumptions C26_collect_term.
Print Assumptions C26_linear.
Print Assumptions C26_below_partial.
Print Assumptions C26_at_partial.
Print Assumptions C26_one_partial.
Print Assumptions C26_shift.
Print Assumptions C26_first_order.
Print Assumptions C26_factor_k_refuted.
Print Assumptions C26_second_sum_refuted.
