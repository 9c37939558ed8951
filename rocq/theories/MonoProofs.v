From Coq Require Import ZArith QArith Qcanon Reals List String Bool Lia Lra Psatz.
From Verif Require Import Ast ExprModel ExprSpec ExprProofs1 ExprProofs2 ExprProofs3 NonLinProofs MonoModel MonoSpec.
From Verif Require FuncEqProofs.
Import ListNotations.
Local Open Scope list_scope.
Local Open Scope R_scope.

Lemma rpow_zero_base y a : 0 < y -> rpow 0 y = Some a -> a = 0.
Proof.
  intros Hy. unfold rpow. destruct (as_int y) as [z|] eqn:E.
  - apply as_int_spec in E. subst y. apply lt_IZR in Hy. destruct (Req_EM_T 0 0) as [_|?]; [|lra]. destruct (Z.ltb_spec z 0); [lia|]. intros H0.
    assert (powerRZ 0 z = a) by congruence. subst a. destruct z; try lia. simpl. now rewrite pow_ne_zero by lia.
  - destruct (Rlt_dec 0 0); [lra|]. destruct (Req_EM_T 0 0); [|lra]. destruct (Rlt_dec 0 y); congruence.
Qed.
Lemma rpow_mono v w y a b : 0 <= v <= w -> 0 <= y -> rpow v y = Some a -> rpow w y = Some b -> 0 <= a <= b.
Proof.
  intros Hv Hy Ha Hb. pose proof (rpow_nonneg v y a ltac:(lra) Ha). split; [easy|]. destruct (Req_dec y 0) as [->|Hy0].
  - assert (E : forall u, rpow u 0 = Some 1) by (intros u; replace 0 with (INR 0) by reflexivity; now rewrite rpow_nat).
    rewrite E in Ha, Hb. assert (a = 1) by congruence. assert (b = 1) by congruence. lra.
  - destruct (Req_dec v 0) as [->|Hv0].
    + rewrite (rpow_zero_base y a ltac:(lra) Ha). apply (rpow_nonneg w y b); [lra|easy].
    + rewrite rpow_pos in Ha, Hb by lra. assert (E1 : Rpower v y = a) by congruence. assert (E2 : Rpower w y = b) by congruence. subst a b. apply FuncEqProofs.Rp_mono_base; lra.
Qed.
Lemma rpow_mono2 v w y z a b : 1 <= v <= w -> 0 <= y <= z -> rpow v y = Some a -> rpow w z = Some b -> 0 <= a <= b.
Proof.
  intros Hv Hy Ha Hb. rewrite rpow_pos in Ha, Hb by lra. assert (E1 : Rpower v y = a) by congruence. assert (E2 : Rpower w z = b) by congruence. subst a b.
  split; [left; apply FuncEqProofs.Rp_pos|]. apply Rle_trans with (Rpower w y). apply FuncEqProofs.Rp_mono_base; lra. apply FuncEqProofs.Rp_mono_exp; lra.
Qed.

Section P.
Context (I : interp) (rho : string -> R) (c : Z) (Hc : (0 <= c)%Z).
Local Notation at_ := (value_at I rho).
Local Notation nnd := (nnd I rho).
Local Notation benign := (benign I rho).

Lemma at_const n m e : has "n" e = false -> at_ n e = at_ m e.
Proof. intros H. unfold value_at. now rewrite !eval_upd_fresh. Qed.
Lemma nnd_sum l : Forall (nnd c) l -> nnd c (Add l).
Proof.
  induction 1 as [|e l He _ IH]; intros n v w Hn Hv Hw. { cbn in Hv, Hw. assert (v = 0) by congruence. assert (w = 0) by congruence. lra. }
  unfold value_at in Hv, Hw. rewrite eval_Add, esum_cons in Hv, Hw. apply olift2_some in Hv as (a & b & Ha & Hb & ->). apply olift2_some in Hw as (a' & b' & Ha' & Hb' & ->).
  pose proof (He n a a' Hn Ha Ha'). pose proof (IH n b b' Hn Hb Hb'). lra.
Qed.
Lemma nnd_prod l : Forall (nnd c) l -> nnd c (Mul l).
Proof.
  induction 1 as [|e l He _ IH]; intros n v w Hn Hv Hw. { cbn in Hv, Hw. assert (v = 1) by congruence. assert (w = 1) by congruence. lra. }
  unfold value_at in Hv, Hw. rewrite eval_Mul, eprod_cons in Hv, Hw. apply olift2_some in Hv as (a & b & Ha & Hb & ->). apply olift2_some in Hw as (a' & b' & Ha' & Hb' & ->).
  pose proof (He n a a' Hn Ha Ha'). pose proof (IH n b b' Hn Hb Hb'). nra.
Qed.
Lemma benign_all l : benign c (Add l) -> Forall (benign c) l.
Proof. induction l as [|e l IH]; intros H; constructor. apply H. apply IH, H. Qed.
Lemma pos_int_num b : is_pos_int_num b = true -> exists q, b = Num q /\ 0 < rv q.
Proof. destruct b; cbn [is_pos_int_num]; try easy. rewrite andb_true_iff. intros [_ H]. apply q_lt_spec in H. rewrite rv_0 in H. eauto. Qed.
Lemma nnd_pow_const a q : nnd c a -> 0 < rv q -> nnd c (Pow a (Num q)).
Proof.
  intros Ha Hq n v w Hn Hv Hw. unfold value_at in Hv, Hw. cbn [eval] in Hv, Hw. fold (value_at I rho n a) in Hv. fold (value_at I rho (n + 1) a) in Hw.
  destruct (at_ n a) as [x|] eqn:Ex; [|easy]. destruct (at_ (n + 1) a) as [y|] eqn:Ey; [|easy]. cbn [obind] in Hv, Hw.
  apply (rpow_mono x y (rv q)); try easy; try lra. now apply (Ha n).
Qed.
Lemma nd_poly_ok e : is_non_decreasing_poly "n" e = true -> benign c e -> nnd c e.
Proof.
  induction e as [q|s|s|l IH|l IH|a b IHa IHb|f l IH|k lo up e _ _ _|k lo up e _ _ _] using expr_ind'; cbn [is_non_decreasing_poly]; intros H Hb; try easy.
  - intros n v w Hn Hv Hw. cbn in Hv, Hw, Hb. assert (v = rv q) by congruence. assert (w = rv q) by congruence. lra.
  - intros n v w Hn Hv Hw. cbn in Hv, Hw, Hb. assert (v = icst I s) by congruence. assert (w = icst I s) by congruence. lra.
  - apply String.eqb_eq in H. subst s. intros n v w Hn Hv Hw. unfold value_at, upd in Hv, Hw. cbn in Hv, Hw. 
    assert (E1 : IZR n = v) by congruence. assert (E2 : IZR (n + 1) = w) by congruence. subst. rewrite plus_IZR. apply IZR_le in Hn. apply IZR_le in Hc. lra.
  - apply nnd_sum. apply benign_all in Hb. rewrite forallb_forall in H. rewrite Forall_forall in *. intros e He. apply IH; auto. specialize (H e He). apply andb_true_iff in H. tauto.
  - apply nnd_prod. apply (benign_all l) in Hb. rewrite forallb_forall in H. rewrite Forall_forall in *. intros e He. apply IH; auto.
  - cbn [MonoSpec.benign] in Hb. destruct (has "n" (Pow a b)); [|easy]. cbn [negb orb] in H. apply andb_true_iff in H as [H1 H2]. apply pos_int_num in H2 as (q & -> & Hq). apply nnd_pow_const; tauto.
Qed.
Lemma nd_no_poly_eq x e : is_non_decreasing_no_poly x e =
  if is_polynomial x e then is_non_decreasing_poly x e
  else match e with
  | Mul l => forallb (is_non_decreasing_no_poly x) l
  | Add l => forallb (fun a => negb (is_non_positive_number a) && is_non_decreasing_no_poly x a) l
  | Fun FLog _ => true
  | Pow a b =>
    (expr_eqb a (Sym "n") && is_positive_number b)
    || (is_polynomial x a && is_polynomial x b &&
        match b with
        | Num _ => is_pos_int_num b
        | _ => is_non_decreasing_poly x a && is_non_decreasing_poly x b
        end)
  | _ => false
  end.
Proof. destruct e; reflexivity. Qed.
Lemma nnd_sym : nnd c (Sym "n").
Proof. intros n v w Hn Hv Hw. unfold value_at, upd in Hv, Hw. cbn in Hv, Hw. 
    assert (E1 : IZR n = v) by congruence. assert (E2 : IZR (n + 1) = w) by congruence. subst. rewrite plus_IZR. apply IZR_le in Hn. apply IZR_le in Hc. lra. Qed.
Lemma nd_no_poly_ok e : is_non_decreasing_no_poly "n" e = true -> benign c e -> nnd c e.
Proof.
  induction e as [q|s|s|l IH|l IH|a b IHa IHb|f l IH|k lo up e _ _ _|k lo up e _ _ _] using expr_ind'; rewrite nd_no_poly_eq; intros H Hb;
    destruct (is_polynomial "n" _) eqn:Ep; try (now apply nd_poly_ok); try easy.
  - apply nnd_sum. apply benign_all in Hb. rewrite forallb_forall in H. rewrite Forall_forall in *. intros e He. apply IH; auto. specialize (H e He). apply andb_true_iff in H. tauto.
  - apply nnd_prod. apply (benign_all l) in Hb. rewrite forallb_forall in H. rewrite Forall_forall in *. intros e He. apply IH; auto.
  - cbn [MonoSpec.benign] in Hb. destruct (has "n" (Pow a b)) eqn:Hn; [|easy]. destruct Hb as (Ha & Hbb & H1). apply orb_true_iff in H as [H|H].
    + apply andb_true_iff in H as [E H]. apply expr_eqb_eq in E. subst a. destruct b; try easy. cbn in H. apply q_lt_spec in H. rewrite rv_0 in H. apply nnd_pow_const; [apply nnd_sym|easy].
    + apply andb_true_iff in H as [H H2]. apply andb_true_iff in H as [Pa Pb]. 
      assert (Hcase : (exists q, b = Num q /\ is_pos_int_num b = true) \/ is_non_decreasing_poly "n" a = true /\ is_non_decreasing_poly "n" b = true).
      { destruct b; try (right; now apply andb_true_iff in H2). left; eauto. }
      destruct Hcase as [(q & -> & Hq)|(Na & Nb)].
      * exfalso. cbn [is_polynomial] in Ep. apply orb_false_iff in Ep as [_ Ep]. rewrite Hq, andb_true_r in Ep. congruence.
      * pose proof (nd_poly_ok a Na Ha) as Ma. pose proof (nd_poly_ok b Nb Hbb) as Mb. intros n v w Hcn Hv Hw. unfold value_at in Hv, Hw. cbn [eval] in Hv, Hw.
        fold (value_at I rho n a) in Hv. fold (value_at I rho n b) in Hv. fold (value_at I rho (n + 1) a) in Hw. fold (value_at I rho (n + 1) b) in Hw.
        destruct (at_ n a) as [x|] eqn:Ex; [|easy]. destruct (at_ (n + 1) a) as [x'|] eqn:Ex'; [|easy]. cbn [obind] in Hv, Hw.
        destruct (at_ n b) as [y|] eqn:Ey; [|easy]. destruct (at_ (n + 1) b) as [y'|] eqn:Ey'; [|easy]. cbn [obind] in Hv, Hw.
        pose proof (Ma n x x' Hcn Ex Ex') as Mx. pose proof (Mb n y y' Hcn Ey Ey') as My. destruct (has "n" b) eqn:Hnb.
        -- pose proof (H1 eq_refl n x Hcn Ex). apply (rpow_mono2 x x' y y'); try easy; lra.
        -- rewrite (at_const (n + 1) n b Hnb) in Ey'. assert (y' = y) by congruence. subst y'. apply (rpow_mono x x' y); try easy; lra.
Qed.
End P.

Lemma nnd_exp_of I rho base c e : (0 <= c)%Z -> 1 <= rv base -> nnd I rho c e -> nnd_exp I rho base c e.
Proof.
  intros Hc Hb He n v w Hn Hv Hw. pose proof (He n v w Hn Hv Hw) as W. rewrite powerRZ_add, powerRZ_1 by lra.
  pose proof (powerRZ_lt (rv base) n ltac:(lra)) as P. set (p := powerRZ (rv base) n) in *. clearbody p. split; [nra|]. rewrite Rmult_assoc. apply Rmult_le_compat_l; nra.
Qed.
Definition domain_ok (fd : expr -> string -> Z -> option Z) : Prop := forall e x i j, fd e x i = Some j -> (i <= j)%Z.
Lemma is_non_negative_ge fd e x i j : domain_ok fd -> (-1 <= i)%Z -> is_non_negative fd e x i = Some j -> (0 <= j /\ i <= j)%Z.
Proof. intros Hd Hi. unfold is_non_negative. destruct (fd e x i) as [k|] eqn:E; [|easy]. apply Hd in E. destruct (Z.eqb_spec k (-1)); intros [= <-]; lia. Qed.

Theorem test_direct I rho fd df base e (poly : bool) c : domain_ok fd -> 1 <= rv base -> (if poly then is_non_decreasing_poly "n" e = true else True) ->
  is_non_negative_non_decreasing fd df base e poly "n" (-1) = Some c -> benign I rho c e -> (0 <= c)%Z /\ nnd_exp I rho base c e.
Proof.
  intros Hd Hb Hp H He. unfold is_non_negative_non_decreasing in H. destruct (negb (q_lt 0 base)); [easy|]. destruct (is_non_negative fd e "n" (-1)) as [i|] eqn:E; [|easy].
  apply (is_non_negative_ge fd) in E; [|easy|lia]. destruct poly.
  - rewrite Hp in H. injection H as ->. split; [easy|]. apply nnd_exp_of; try easy. apply nd_poly_ok; easy.
  - destruct (is_non_decreasing_no_poly "n" e) eqn:En; [|easy]. injection H as ->. split; [easy|]. apply nnd_exp_of; try easy. apply nd_no_poly_ok; easy.
Qed.
(** the second chance: the difference *)
Definition difference_ok (I : interp) (rho : string -> R) (df : expr -> expr) : Prop := forall e n v w, value_at I rho n e = Some v -> value_at I rho (n + 1) e = Some w -> value_at I rho n (df e) = Some (w - v).
Theorem test_difference I rho fd df base e c : domain_ok fd -> difference_ok I rho df -> 1 <= rv base -> is_non_decreasing_poly "n" e = false ->
  is_non_negative_non_decreasing fd df base e true "n" (-1) = Some c -> benign I rho c (df e) ->
  (forall n, (c <= n)%Z -> value_at I rho n e <> None) -> (forall v, value_at I rho c e = Some v -> 0 <= v) ->
  (0 <= c)%Z /\ nnd_exp I rho base c e.
Proof.
  intros Hd Hdf Hb Hp H He Hdef H0. unfold is_non_negative_non_decreasing in H. destruct (negb (q_lt 0 base)) eqn:Eb; [easy|]. destruct (is_non_negative fd e "n" (-1)) as [i|] eqn:E; [|easy].
  rewrite Hp in H. unfold second_time in H. rewrite Eb in H. apply (is_non_negative_ge fd) in E; [|easy|lia]. destruct (is_non_negative fd (df e) "n" i) as [j|] eqn:E2; [|easy].
  destruct (is_non_decreasing_poly "n" (df e)) eqn:En; [|easy]. injection H as ->. apply (is_non_negative_ge fd) in E2; [|easy|lia]. assert (Hc : (0 <= c)%Z) by lia. split; [easy|].
  assert (Hdiff : forall n v w, (c <= n)%Z -> value_at I rho n e = Some v -> value_at I rho (n + 1) e = Some w -> v <= w).
  { intros n v w Hn Hv Hw. pose proof (Hdf e n v w Hv Hw) as D1.
    destruct (value_at I rho (n + 1 + 1) e) as [z|] eqn:Ez; [|destruct (Hdef (n + 1 + 1)%Z ltac:(lia) Ez)]. pose proof (Hdf e (n + 1)%Z w z Hw Ez) as D2.
    pose proof (nd_poly_ok I rho c Hc (df e) En He n _ _ Hn D1 D2). lra. }
  apply nnd_exp_of; try easy. intros n v w Hn Hv Hw. split; [|now apply (Hdiff n)].
  revert v w Hv Hw. replace n with (c + Z.of_nat (Z.to_nat (n - c)))%Z by lia. induction (Z.to_nat (n - c)) as [|m IH]; intros v w Hv Hw.
  { replace (c + Z.of_nat 0)%Z with c in Hv by lia. now apply H0. }
  destruct (value_at I rho (c + Z.of_nat m) e) as [u|] eqn:Eu; [|destruct (Hdef (c + Z.of_nat m)%Z ltac:(lia) Eu)].
  replace (c + Z.of_nat (S m))%Z with (c + Z.of_nat m + 1)%Z in Hv by lia. specialize (IH u v eq_refl Hv). pose proof (Hdiff (c + Z.of_nat m)%Z u v ltac:(lia) Eu Hv). lra.
Qed.
