From Coq Require Import ZArith QArith Qcanon Reals List String Bool Lia Lra.
From Verif Require Import Ast ExprModel ExprSpec ExprProofs1 ExprProofs2 NonLinModel ProdProofs ProdProofs2 NumDenProofs NumDenCases CollectModel CollectSpec.
Import ListNotations.
Local Open Scope list_scope.
Local Open Scope R_scope.

Section Collect.
Context (I : interp) (G : ginac) (HG : ginac_ok I G) (simplify_nd : expr -> expr) (Hs : forall e, refines I e (simplify_nd e)).
Context (rho : string -> R).
Notation ev := (eval I rho).
Definition pw (p : expr * expr) : expr := Pow (fst p) (snd p).
Definition nz (b : expr) : Prop := exists u, ev b = Some u /\ u <> 0.
Notation prod l := (eprod I rho (map pw l)).

Lemma eval_Pow b x : ev (Pow b x) = obind (ev b) (fun u => obind (ev x) (rpow u)). Proof. reflexivity. Qed.
Lemma power_inv b x s : ev (Pow b x) = Some s -> exists u y, ev b = Some u /\ ev x = Some y /\ rpow u y = Some s.
Proof. rewrite eval_Pow. destruct (ev b) as [u|]; [|discriminate]. destruct (ev x) as [y|]; [|discriminate]. cbn [obind]. eauto. Qed.
Lemma power_intro b x u y s : ev b = Some u -> ev x = Some y -> rpow u y = Some s -> ev (Pow b x) = Some s.
Proof. intros Hb Hx H. rewrite eval_Pow, Hb, Hx. exact H. Qed.
Lemma num1 : ev (Num 1) = Some 1. Proof. cbn [eval]. now rewrite rv_1. Qed.
Lemma num0 : ev (Num 0) = Some 0. Proof. cbn [eval]. now rewrite rv_0. Qed.
Lemma minus_one_v : ev minus_one = Some (-1). Proof. unfold minus_one. cbn [eval]. rewrite rv_opp, rv_1. f_equal. Qed.
Lemma rpow_0 u : rpow u 0 = Some 1. Proof. change 0 with (INR 0). rewrite rpow_nat. reflexivity. Qed.
Lemma rpow_1r u : rpow u 1 = Some u. Proof. change 1 with (INR 1). rewrite rpow_nat, pow_1. reflexivity. Qed.
Lemma rpow_inv_base u y s : u <> 0 -> rpow u y = Some s -> rpow (/ u) (- y) = Some s.
Proof.
  intros Hu H. unfold rpow in *. destruct (as_int y) as [z|] eqn:Ez.
  - apply as_int_spec in Ez. subst y. rewrite <- opp_IZR, as_int_IZR. destruct (Req_EM_T u 0); [contradiction|]. destruct (Req_EM_T (/ u) 0) as [E|E]; [now apply Rinv_neq_0_compat in Hu|].
    rewrite <- H. f_equal. clear H E. assert (Hi := Hu). destruct z as [|p|p]; cbn [Z.opp powerRZ]; auto; rewrite pow_inv; auto. rewrite Rinv_inv; auto.
  - destruct (as_int (- y)) as [z|] eqn:E2.
    + exfalso. apply as_int_spec in E2. assert (as_int y = Some (- z)%Z) by (apply as_int_spec; rewrite opp_IZR; lra). congruence.
    + destruct (Rlt_dec 0 u) as [P|P]; [|destruct (Req_EM_T u 0); [contradiction|discriminate]]. destruct (Rlt_dec 0 (/ u)) as [Q|Q]; [|now apply Rinv_0_lt_compat in P].
      rewrite <- H. f_equal. unfold Rpower. rewrite ln_Rinv by auto. f_equal. lra.
Qed.
Lemma gneg_v x y : ev x = Some y -> ev (gneg G x) = Some (- y).
Proof. intros H. replace (- y) with (-1 * y) by lra. apply (gmul_val _ _ HG); auto. apply minus_one_v. Qed.
Lemma nz_mul b c : nz b -> nz c -> nz (gmul G b c).
Proof. intros (u & Hu & U) (w & Hw & W). exists (u * w). split; [now apply (gmul_val _ _ HG)|now apply Rmult_integral_contrapositive_currified]. Qed.
Lemma div_v b c u w : ev b = Some u -> ev c = Some w -> w <> 0 -> ev (gdiv G b c) = Some (u / w).
Proof. apply (div_val I G HG). Qed.
Lemma nz_div b c : nz b -> nz c -> nz (gdiv G b c).
Proof. intros (u & Hu & U) (w & Hw & W). exists (u / w). split; [now apply div_v|]. apply Rmult_integral_contrapositive_currified; auto. now apply Rinv_neq_0_compat. Qed.

(** * Exponents *)
Lemma merge_equal b c x s t : nz b -> nz c -> ev (Pow b x) = Some s -> ev (Pow c x) = Some t -> ev (Pow (gmul G b c) x) = Some (s * t).
Proof.
  intros (u & Hu & U) (w & Hw & W) Hb Hc. apply power_inv in Hb as (u' & y & A & B & C). apply power_inv in Hc as (w' & y' & D & E & F).
  assert (u' = u) by congruence. assert (w' = w) by congruence. assert (y' = y) by congruence. subst. apply (power_intro _ _ (u * w) y); auto; [now apply (gmul_val _ _ HG)|]. now apply rpow_mult.
Qed.
Lemma merge_opp1 b c x s t : nz b -> nz c -> ev (Pow b x) = Some s -> ev (Pow c (gneg G x)) = Some t -> ev (Pow (gdiv G b c) x) = Some (s * t).
Proof.
  intros (u & Hu & U) (w & Hw & W) Hb Hc. apply power_inv in Hb as (u' & y & A & B & C). apply power_inv in Hc as (w' & y' & D & E & F).
  assert (u' = u) by congruence. assert (w' = w) by congruence. subst. rewrite (gneg_v _ _ B) in E. injection E as <-.
  apply (power_intro _ _ (u / w) y); auto; [now apply div_v|]. apply rpow_mult; auto; [now apply Rinv_neq_0_compat|]. apply rpow_inv_base in F; auto. now rewrite Ropp_involutive in F.
Qed.
Lemma merge_opp2 b c x s t : nz b -> nz c -> ev (Pow b x) = Some s -> ev (Pow c (gneg G x)) = Some t -> ev (Pow (gdiv G c b) (gneg G x)) = Some (s * t).
Proof.
  intros (u & Hu & U) (w & Hw & W) Hb Hc. apply power_inv in Hb as (u' & y & A & B & C). apply power_inv in Hc as (w' & y' & D & E & F).
  assert (u' = u) by congruence. assert (w' = w) by congruence. subst. pose proof (gneg_v _ _ B) as E'. rewrite E' in E. injection E as <-.
  apply (power_intro _ _ (w / u) (- y)); auto; [now apply div_v|]. rewrite Rmult_comm. apply rpow_mult; auto; [now apply Rinv_neq_0_compat|]. now apply rpow_inv_base.
Qed.
Definition nzs (l : list (expr * expr)) : Prop := Forall (fun p => nz (fst p)) l.
Lemma prod_cons p l t : prod (p :: l) = Some t -> exists s r, ev (pw p) = Some s /\ prod l = Some r /\ t = s * r.
Proof. cbn [map]. rewrite eprod_cons. intros H. apply olift2_some in H as (s & r & A & B & ->). eauto. Qed.
Lemma prod_intro p l s r : ev (pw p) = Some s -> prod l = Some r -> prod (p :: l) = Some (s * r).
Proof. intros A B. cbn [map]. rewrite eprod_cons, A, B. reflexivity. Qed.
Lemma pw_0 c : nz c -> ev (pw (c, Num 0)) = Some 1.
Proof. intros (u & Hu & _). apply (power_intro _ _ u 0); auto; [apply num0|apply rpow_0]. Qed.

Lemma same_exponents_ok only l : forall b x s t p l', same_exponents G only b x l = (p, l') -> nz b -> nzs l -> ev (Pow b x) = Some s -> prod l = Some t ->
  exists s' t', ev (pw p) = Some s' /\ prod l' = Some t' /\ s' * t' = s * t /\ nz (fst p) /\ nzs l' /\ List.length l' = List.length l.
Proof.
  induction l as [|[c y] l IH]; intros b x s t p l' H Nb Nl Es Et; cbn [same_exponents] in H.
  - injection H as <- <-. exists s, t. repeat (split; [assumption|]). split; [ring|]. split; auto.
  - inversion Nl as [|? ? Nc Nl']; subst. cbn [fst] in Nc. apply prod_cons in Et as (sc & tl & Ec & Etl & ->). unfold pw in Ec. cbn [fst snd] in Ec.
    (* skipping the entry *)
    assert (Skip : forall q l0, same_exponents G only b x l = (q, l0) -> p = q -> l' = (c, y) :: l0 ->
      exists s' t', ev (pw p) = Some s' /\ prod l' = Some t' /\ s' * t' = s * (sc * tl) /\ nz (fst p) /\ nzs l' /\ List.length l' = S (List.length l)).
    { intros q l0 Hq -> ->. destruct (IH b x s tl _ _ Hq Nb Nl' Es Etl) as (s' & t' & A & B & C & D & E & F). exists s', (sc * t'). split; auto. split; [now apply prod_intro|]. split; [|split; auto; split; [constructor; auto|cbn; lia]].
      transitivity (sc * (s' * t')); [ring|]. rewrite C. ring. }
    (* absorbing it *)
    assert (Take : forall b' x' q l0, same_exponents G only b' x' l = (q, l0) -> nz b' -> ev (Pow b' x') = Some (s * sc) -> p = q -> l' = (c, Num 0) :: l0 ->
      exists s' t', ev (pw p) = Some s' /\ prod l' = Some t' /\ s' * t' = s * (sc * tl) /\ nz (fst p) /\ nzs l' /\ List.length l' = S (List.length l)).
    { intros b' x' q l0 Hq Nb' Es' -> ->. destruct (IH b' x' (s * sc) tl _ _ Hq Nb' Nl' Es' Etl) as (s' & t' & A & B & C & D & E & F). exists s', (1 * t'). split; auto. split; [apply prod_intro; auto; now apply pw_0|]. split; [rewrite Rmult_1_l, C; ring|split; auto; split; [constructor; auto|cbn; lia]]. }
    destruct (expr_eqb y x) eqn:E1.
    + apply expr_eqb_eq in E1. subst y. destruct (negb only || expr_eqb x (Sym "n"))%bool.
      * destruct (same_exponents G only (gmul G b c) x l) as [q l0] eqn:Hq. injection H as <- <-. apply (Take _ _ _ _ Hq); auto; [now apply nz_mul|now apply merge_equal].
      * destruct (same_exponents G only b x l) as [q l0] eqn:Hq. injection H as <- <-. now apply (Skip _ _ eq_refl).
    + destruct (expr_eqb y (gneg G x)) eqn:E2.
      * apply expr_eqb_eq in E2. subst y. destruct (Nat.ltb _ _).
        -- destruct (same_exponents G only (gdiv G b c) x l) as [q l0] eqn:Hq. injection H as <- <-. apply (Take _ _ _ _ Hq); auto; [now apply nz_div|now apply merge_opp1].
        -- destruct (same_exponents G only (gdiv G c b) (gneg G x) l) as [q l0] eqn:Hq. injection H as <- <-. apply (Take _ _ _ _ Hq); auto; [now apply nz_div|now apply merge_opp2].
      * destruct (same_exponents G only b x l) as [q l0] eqn:Hq. injection H as <- <-. now apply (Skip _ _ eq_refl).
Qed.
Lemma exponents_loop_ok only n : forall l acc a t, List.length l = n -> nzs l -> ev acc = Some a -> prod l = Some t -> ev (exponents_loop G simplify_nd only n l acc) = Some (a * t).
Proof.
  induction n as [|n IH]; intros l acc a t L Nl Ea Et; destruct l as [|[b x] l]; try discriminate; cbn [exponents_loop].
  - cbn [map] in Et. rewrite eprod_nil in Et. injection Et as <-. now rewrite Rmult_1_r.
  - apply prod_cons in Et as (s & r & Es & Er & ->). inversion Nl as [|? ? Nb Nl']; subst. cbn [fst] in Nb. destruct (same_exponents G only b x l) as [[b' x'] l'] eqn:H.
    destruct (same_exponents_ok only l b x s r _ _ H Nb Nl' Es Er) as (s' & t' & A & B & C & D & E & F). cbn in L. rewrite <- C, <- Rmult_assoc. apply IH; auto; [lia|].
    apply (gmul_val _ _ HG); auto. unfold pw in A. cbn [fst snd] in A. apply power_inv in A as (u & y & U & Y & P). apply (gpow_val _ _ HG _ _ _ u y); auto. now apply Hs.
Qed.

(** * The factors *)
Lemma entry_v f p : entry f = Some p -> forall v, ev f = Some v -> ev (pw p) = Some v.
Proof.
  unfold entry. destruct (expr_eqb f minus_one) eqn:E.
  - apply expr_eqb_eq in E. subst f. intros [= <-] v H. apply (power_intro _ _ v 1); auto; [apply num1|apply rpow_1r].
  - destruct f; try discriminate. intros [= <-] v H. exact H.
Qed.
Lemma entries_ok l : bases_nonzero I rho l -> forall v, eprod I rho l = Some v -> nzs (entries l) /\
  exists u w, prod (entries l) = Some u /\ eprod I rho (filter plain_factor l) = Some w /\ v = u * w.
Proof.
  intros Nz. induction l as [|f l IH]; intros v H.
  - cbn in H. injection H as <-. split; [constructor|]. exists 1, 1. cbn. split; auto. split; auto. ring.
  - rewrite eprod_cons in H. apply olift2_some in H as (a & r & Ea & Er & ->). destruct (IH (fun b x u Hi => Nz b x u (or_intror Hi)) r Er) as [Nl (u & w & Hu & Hw & ->)].
    cbn [entries filter]. destruct (entry f) as [p|] eqn:Ef.
    + assert (Pf : plain_factor f = false) by (unfold entry, plain_factor in *; destruct (expr_eqb f minus_one); [now rewrite andb_false_r|destruct f; try discriminate; reflexivity]). rewrite Pf.
      pose proof (entry_v f p Ef a Ea) as Ep. split.
      * constructor; auto. unfold entry in Ef. destruct (expr_eqb f minus_one) eqn:E.
        -- apply expr_eqb_eq in E. subst f. injection Ef as <-. exists (-1). split; [apply minus_one_v|lra].
        -- destruct f; try discriminate. injection Ef as <-. apply power_inv in Ep as (u' & y & U & _). exists u'. split; auto. apply (Nz f1 f2 u'); auto. now left.
      * exists (a * u), w. split; [now apply prod_intro|]. split; auto. ring.
    + assert (Pf : plain_factor f = true) by (unfold entry, plain_factor in *; destruct (expr_eqb f minus_one); [discriminate|destruct f; try discriminate; reflexivity]). rewrite Pf. split; auto.
      exists u, (a * w). split; auto. rewrite eprod_cons, Ea, Hw. split; auto. ring.
Qed.
Lemma plain_loop l : forall acc a w, ev acc = Some a -> eprod I rho (filter plain_factor l) = Some w -> ev (fold_right (fun f acc => if plain_factor f then gmul G acc f else acc) acc l) = Some (a * w).
Proof.
  induction l as [|f l IH]; intros acc a w Ea Ew; cbn [filter fold_right] in *.
  - rewrite eprod_nil in Ew. injection Ew as <-. now rewrite Rmult_1_r.
  - destruct (plain_factor f); auto. rewrite eprod_cons in Ew. apply olift2_some in Ew as (p & q & Ep & Eq & ->). replace (a * (p * q)) with (a * q * p) by ring. apply (gmul_val _ _ HG); auto.
Qed.
Theorem collect_same_exponents_ok only l v : bases_nonzero I rho l -> ev (Mul l) = Some v -> ev (collect_same_exponents G simplify_nd only (Mul l)) = Some v.
Proof.
  intros Nz H. rewrite eval_Mul in H. destruct (entries_ok l Nz v H) as [Nl (u & w & Hu & Hw & ->)]. unfold collect_same_exponents. cbn [ops].
  apply plain_loop; auto. replace u with (1 * u) by ring. apply exponents_loop_ok; auto. apply num1.
Qed.
End Collect.
