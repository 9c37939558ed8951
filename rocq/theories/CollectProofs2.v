From Coq Require Import ZArith QArith Qcanon Reals List String Bool Lia Lra.
From Verif Require Import Ast ExprModel ExprSpec ExprProofs1 ExprProofs2 NonLinModel ProdProofs ProdProofs2 NumDenProofs NumDenCases FactRwProofs2 CollectModel CollectSpec CollectProofs.
Import ListNotations.
Local Open Scope list_scope.
Local Open Scope R_scope.

Section Bases.
Context (I : interp) (G : ginac) (HG : ginac_ok I G).

(** Nothing to replace. *)
Lemma substitute_absent a r e : ~ occurs a e -> refines I e (substitute G a r e).
Proof.
  induction e using expr_ind'; intros N rho v E;
  match goal with |- context [substitute G a r ?x] => assert (Ne : expr_eqb x a = false) by (destruct (expr_eqb x a) eqn:Q; auto; apply expr_eqb_eq in Q; subst; exfalso; apply N; constructor) end;
  cbn [substitute]; rewrite Ne; auto.
  - apply (add_all_ok I G HG). rewrite eval_Add in *. eapply esum_map; [|exact E]. rewrite Forall_forall in *. intros b Hb u Hu. apply H; auto. intros O. apply N. exact (O_in a (Add l) b Hb O).
  - apply (mul_all_ok I G HG). rewrite eval_Mul in *. eapply eprod_map; [|exact E]. rewrite Forall_forall in *. intros b Hb u Hu. apply H; auto. intros O. apply N. exact (O_in a (Mul l) b Hb O).
  - eapply (pow_limits I G HG); [| |exact E]; intros w Ew; [apply IHe1|apply IHe2]; auto; intros O; apply N; (eapply O_in; [|exact O]); cbn; auto.
  - apply (gfun_ok _ _ HG). cbn [eval] in E |- *. destruct (omap (eval I rho) l) as [vs|] eqn:Ev; [|discriminate]. rewrite (omap_refine I rho l (map (substitute G a r) l) vs); auto.
    assert (Nl : forall b, In b l -> ~ occurs a b) by (intros b Hb O; apply N; exact (O_in a (Fun f l) b Hb O)). clear - H Nl.
    induction H as [|b l Hb Hl IH]; cbn [map]; constructor; [apply Hb, Nl; now left|apply IH; intros; apply Nl; now right].
  - assert (Nk : expr_eqb (Sym k) a = false) by (destruct (expr_eqb (Sym k) a) eqn:Q; auto; apply expr_eqb_eq in Q; subst; exfalso; apply N; apply (O_in _ _ (Sym k)); [cbn; auto|constructor]).
    rewrite Nk. cbn [apply_sum]. apply (gsum_ok _ _ HG). apply (sum_limits I rho k e1 e2 e3); auto; intros; [apply IHe1|apply IHe2|apply IHe3]; auto; intros O; apply N; (eapply O_in; [|exact O]); cbn; auto.
  - assert (Nk : expr_eqb (Sym k) a = false) by (destruct (expr_eqb (Sym k) a) eqn:Q; auto; apply expr_eqb_eq in Q; subst; exfalso; apply N; apply (O_in _ _ (Sym k)); [cbn; auto|constructor]).
    rewrite Nk. cbn [apply_prod]. apply (gprod_ok _ _ HG). apply (prod_limits I rho k e1 e2 e3); auto; intros; [apply IHe1|apply IHe2|apply IHe3]; auto; intros O; apply N; (eapply O_in; [|exact O]); cbn; auto.
Qed.
Lemma eprod_app rho l m v : eprod I rho (l ++ m) = Some v -> exists x y, eprod I rho l = Some x /\ eprod I rho m = Some y /\ v = x * y.
Proof.
  revert v. induction l as [|a l IH]; intros v H; cbn [app] in H.
  - exists 1, v. rewrite eprod_nil. split; auto. split; auto. ring.
  - rewrite eprod_cons in H. apply olift2_some in H as (p & q & Ep & Eq & ->). destruct (IH q Eq) as (x & y & A & B & ->). exists (p * x), y. rewrite eprod_cons, Ep, A. split; auto. split; auto. ring.
Qed.
(** One factor multiplied by f: [new] is old * f. *)
Lemma substitute_factor rho old new acc f a v : single_factor old acc -> (forall o, eval I rho old = Some o -> eval I rho new = Some (o * f)) ->
  eval I rho acc = Some a -> v = a * f -> eval I rho (substitute G old new acc) = Some v.
Proof.
  intros [->|(l1 & l2 & -> & Ne & Fo)] Hn Ea ->.
  - destruct old; cbn [substitute]; rewrite expr_eqb_refl; auto.
  - cbn [substitute]. destruct (expr_eqb (Mul (l1 ++ old :: l2)) old) eqn:Q; [now apply expr_eqb_eq in Q|]. apply (mul_all_ok I G HG). rewrite eval_Mul in *. apply eprod_app in Ea as (x & y & Hx & Hy & ->). rewrite eprod_cons in Hy. apply olift2_some in Hy as (o & z & Ho & Hz & ->).
    rewrite map_app. cbn [map]. assert (So : substitute G old new old = new) by (destruct old; cbn [substitute]; rewrite expr_eqb_refl; auto). rewrite So.
    apply Forall_app in Fo as [F1 F2].
    assert (M : forall l w, Forall (fun b => ~ occurs old b) l -> eprod I rho l = Some w -> eprod I rho (map (substitute G old new) l) = Some w).
    { intros l w Fl. apply eprod_map. rewrite Forall_forall in *. intros b Hb u Hu. apply substitute_absent; auto. }
    assert (J : forall l m p q, eprod I rho l = Some p -> eprod I rho m = Some q -> eprod I rho (l ++ m) = Some (p * q)).
    { clear. induction l as [|b l IH]; intros m p q Hp Hq; cbn [app].
      - rewrite eprod_nil in Hp. injection Hp as <-. now rewrite Rmult_1_l.
      - rewrite eprod_cons in *. apply olift2_some in Hp as (s & t & Es & Et & ->). rewrite Es, (IH m t q Et Hq). cbn [olift2]. f_equal. ring. }
    replace (x * (o * z) * f) with (x * ((o * f) * z)) by ring. apply J; auto. rewrite eprod_cons, (Hn o Ho), (M l2 z F2 Hz). reflexivity.
Qed.

Context (rho : string -> R).
Notation ev := (eval I rho).
Notation prod l := (eprod I rho (map pw l)).
Lemma merge_base b x y s t : ev (Pow b x) = Some s -> ev (Pow b y) = Some t -> ev (Pow b (gadd G x y)) = Some (s * t).
Proof.
  intros Hb Hc. apply power_inv in Hb as (u & p & A & B & C). apply power_inv in Hc as (u' & q & D & E & F). assert (u' = u) by congruence. subst.
  apply (power_intro I rho _ _ u (p + q)); auto; [now apply (gadd_val _ _ HG)|]. now apply rpow_add.
Qed.
Definition defined (p : expr * expr) : Prop := exists s, ev (pw p) = Some s.
Lemma zero_power b x s : ev (Pow b x) = Some s -> ev (Pow b (Num 0)) = Some 1.
Proof. intros H. apply power_inv in H as (u & y & U & _). apply (power_intro I rho _ _ u 0); auto; [apply num0|apply rpow_0]. Qed.
Lemma same_base_ok b l : forall x s t x' l', same_base G b x l = (x', l') -> ev (Pow b x) = Some s -> prod l = Some t ->
  exists s' t', ev (Pow b x') = Some s' /\ prod l' = Some t' /\ s' * t' = s * t /\ List.length l' = List.length l.
Proof.
  induction l as [|[c y] l IH]; intros x s t x' l' H Es Et; cbn [same_base] in H.
  - injection H as <- <-. exists s, t. auto.
  - apply prod_cons in Et as (sc & tl & Ec & Etl & ->). unfold pw in Ec. cbn [fst snd] in Ec. destruct (expr_eqb c b) eqn:Q.
    + apply expr_eqb_eq in Q. subst c. destruct (same_base G b (gadd G x y) l) as [x0 l0] eqn:H0. injection H as <- <-.
      destruct (IH _ (s * sc) tl _ _ H0 (merge_base b x y s sc Es Ec) Etl) as (s' & t' & A & B & C & D). exists s', (1 * t'). split; auto. split; [apply prod_intro; auto; exact (zero_power b y sc Ec)|]. split; [rewrite Rmult_1_l, C; ring|cbn; lia].
    + destruct (same_base G b x l) as [x0 l0] eqn:H0. injection H as <- <-.
      destruct (IH _ s tl _ _ H0 Es Etl) as (s' & t' & A & B & C & D). exists s', (sc * t'). split; auto. split; [apply prod_intro; auto|]. split; [|cbn; lia]. transitivity (sc * (s' * t')); [ring|]. rewrite C. ring.
Qed.
Lemma bases_loop_ok n : forall l acc a t r l', List.length l = n -> bases_loop G n l acc = (r, l') -> ev acc = Some a -> prod l = Some t ->
  ev r = Some (a * t) /\ Forall defined l'.
Proof.
  induction n as [|n IH]; intros l acc a t r l' L H Ea Et; destruct l as [|[b x] l]; try discriminate; cbn [bases_loop] in H.
  - injection H as <- <-. cbn [map] in Et. rewrite eprod_nil in Et. injection Et as <-. rewrite Rmult_1_r. auto.
  - apply prod_cons in Et as (s & t0 & Es & Er & ->). destruct (same_base G b x l) as [x' l0] eqn:H0.
    destruct (same_base_ok b l x s t0 _ _ H0 Es Er) as (s' & t' & A & B & C & D). destruct (bases_loop G n l0 (gmul G acc (gpow G b x'))) as [r0 l1] eqn:H1. injection H as <- <-. cbn in L.
    assert (Ep : ev (gpow G b x') = Some s') by (apply (gpow_ok _ _ HG); exact A).
    destruct (IH l0 _ (a * s') t' _ _ ltac:(lia) H1 (gmul_val _ _ HG _ _ _ _ _ Ea Ep) B) as [X Y]. split; [rewrite <- C, <- Rmult_assoc; exact X|]. constructor; auto. exists s'. exact A.
Qed.
Lemma absorber_ok f fv l old new : ev f = Some fv -> Forall defined l -> absorber G f l = Some (old, new) -> exists o, ev old = Some o /\ ev new = Some (o * fv).
Proof.
  intros Ef. induction 1 as [|[b x] l [s Hs] Hl IH]; [discriminate|]. cbn [absorber]. destruct (absorber G f l) as [[o' n']|]; [intros [= <- <-]; apply IH; reflexivity|].
  destruct (expr_eqb b f && negb (expr_eqb x (Num 0)))%bool eqn:Q; [|discriminate]. intros [= <- <-]. apply andb_true_iff in Q as [Q _]. apply expr_eqb_eq in Q. subst b. unfold pw in Hs. cbn [fst snd] in Hs.
  exists s. split; [apply (gpow_ok _ _ HG); exact Hs|].
  assert (P1 : ev (gpow G f (gadd G x (Num 1))) = Some (s * fv)).
  { apply (gpow_ok _ _ HG). apply merge_base; auto. apply (power_intro I rho _ _ fv 1); auto; [apply num1|apply rpow_1r]. }
  assert (P2 : ev (gmul G (gpow G f x) f) = Some (s * fv)) by (apply (gmul_val _ _ HG); auto; apply (gpow_ok _ _ HG); exact Hs).
  unfold absorbed. destruct f; auto. destruct x; auto. destruct (_ || _)%bool; auto.
Qed.

Lemma entries_value l : forall v, eprod I rho l = Some v -> exists u w, prod (entries l) = Some u /\ eprod I rho (filter plain_factor l) = Some w /\ v = u * w.
Proof.
  induction l as [|f l IH]; intros v H.
  - cbn in H. injection H as <-. exists 1, 1. cbn. split; auto. split; auto. ring.
  - rewrite eprod_cons in H. apply olift2_some in H as (a & r & Ea & Er & ->). destruct (IH r Er) as (u & w & Hu & Hw & ->).
    cbn [entries filter]. destruct (entry f) as [p|] eqn:Ef.
    + assert (Pf : plain_factor f = false) by (unfold entry, plain_factor in *; destruct (expr_eqb f minus_one); [now rewrite andb_false_r|destruct f; try discriminate; reflexivity]). rewrite Pf.
      exists (a * u), w. split; [apply prod_intro; auto; exact (entry_v I rho f p Ef a Ea)|]. split; auto. ring.
    + assert (Pf : plain_factor f = true) by (unfold entry, plain_factor in *; destruct (expr_eqb f minus_one); [discriminate|destruct f; try discriminate; reflexivity]). rewrite Pf.
      exists u, (a * w). split; auto. rewrite eprod_cons, Ea, Hw. split; auto. ring.
Qed.
Theorem collect_same_base_ok l v : absorbs_single G l -> ev (Mul l) = Some v -> ev (collect_same_base G (Mul l)) = Some v.
Proof.
  intros As H. rewrite eval_Mul in H. destruct (entries_value l v H) as (u & w & Hu & Hw & ->). unfold collect_same_base. cbn [ops].
  destruct (bases_loop G (List.length (entries l)) (entries l) (Num 1)) as [acc p] eqn:Hb. destruct (bases_loop_ok _ _ _ 1 u _ _ eq_refl Hb (num1 I rho) Hu) as [Ea Fd]. rewrite Rmult_1_l in Ea.
  assert (L : forall l1 l2, l = l1 ++ l2 -> forall w, eprod I rho (filter plain_factor l2) = Some w -> ev (fold_right (add_factor G p) acc l2) = Some (u * w)).
  { intros l1 l2. revert l1. induction l2 as [|f l2 IH]; intros l1 El w0 Ew; cbn [filter fold_right] in *.
    - rewrite eprod_nil in Ew. injection Ew as <-. now rewrite Rmult_1_r.
    - pose proof (IH (l1 ++ [f]) ltac:(now rewrite <- app_assoc)) as IH'. unfold add_factor at 1. destruct (plain_factor f) eqn:Pf; [|now apply IH'].
      rewrite eprod_cons in Ew. apply olift2_some in Ew as (s & t & Es & Et & ->). pose proof (IH' t Et) as E2. destruct (absorber G f p) as [[old new]|] eqn:Ab.
      + destruct (absorber_ok f s p old new Es Fd Ab) as (o & Eo & En). apply (substitute_factor rho old new _ s (u * t)); auto; [now apply (As l1 f l2 old new acc p Hb El Pf Ab)|intros o' Eo'; rewrite Eo in Eo'; injection Eo' as <-; exact En|ring].
      + replace (u * (s * t)) with (u * t * s) by ring. now apply (gmul_val _ _ HG). }
  exact (L [] l eq_refl w Hw).
Qed.
End Bases.
