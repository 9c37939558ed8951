From Coq Require Import ZArith QArith Qcanon Reals List String Bool Permutation Lia Lra.
From Verif Require Import Ast ExprModel ExprSpec ExprProofs1 ExprProofs2 NonLinModel NonLinProofs NumDenProofs FactRwModel FactRwProofs2 CollectModel CollectProofs LogModel LogSpec LogProofs LogProofs2.
Import ListNotations.
Local Open Scope list_scope.
Local Open Scope R_scope.

Section Power.
Context (I : interp) (G : ginac) (HG : ginac_ok I G) (HL : log_std I) (HE : exp_std I) (simplify_powers : expr -> expr).

Lemma eprod_perm rho l m : Permutation l m -> eprod I rho l = eprod I rho m.
Proof.
  induction 1 as [|x l m P IH|x y l|l m n P1 IH1 P2 IH2]; auto; [now rewrite !eprod_cons, IH| |congruence].
  rewrite !eprod_cons. destruct (eval I rho x), (eval I rho y), (eprod I rho l); cbn [olift2]; auto. f_equal. ring.
Qed.
Lemma eprod_rev rho l : eprod I rho (rev l) = eprod I rho l.
Proof. apply eprod_perm. apply Permutation_sym, Permutation_rev. Qed.
Lemma eprod_filter rho (p : expr -> bool) l v : eprod I rho l = Some v -> exists x y, eprod I rho (filter p l) = Some x /\ eprod I rho (filter (fun f => negb (p f)) l) = Some y /\ v = x * y.
Proof.
  revert v. induction l as [|f l IH]; intros v E.
  - rewrite eprod_nil in E. injection E as <-. exists 1, 1. cbn. repeat split; auto. ring.
  - rewrite eprod_cons in E. apply olift2_some in E as (a & b & Ea & Eb & ->). destruct (IH b Eb) as (x & y & Ex & Ey & ->). cbn [filter].
    destruct (p f); cbn [negb]; rewrite eprod_cons, Ea, ?Ex, ?Ey; cbn [olift2]; eexists _, _; repeat split; eauto; ring.
Qed.
Lemma mul_all_v rho l v : eprod I rho l = Some v -> eval I rho (mul_all G l) = Some v.
Proof. intros H. apply (mul_all_ok _ _ HG). now rewrite eval_Mul. Qed.

Lemma log_arg_inv f a : log_arg f = Some a -> f = Fun FLog [a].
Proof. unfold log_arg. destruct f as [| | | | | |g l| |]; try discriminate. destruct g; try discriminate. destruct l as [|b [|? ?]]; try discriminate. congruence. Qed.
Lemma inv_log_arg_inv f a : inv_log_arg f = Some a -> f = Pow (Fun FLog [a]) minus_one.
Proof. unfold inv_log_arg. destruct f as [| | | | |b x| | |]; try discriminate. destruct (expr_eqb x minus_one) eqn:X; [|discriminate]. apply expr_eqb_eq in X. intros H. apply log_arg_inv in H. congruence. Qed.
Lemma inv_log_v rho a v : eval I rho (Pow (Fun FLog [a]) minus_one) = Some v -> exists u, eval I rho a = Some u /\ 0 < u /\ ln u <> 0 /\ v = / ln u.
Proof.
  intros E. apply power_inv in E as (w & y & Ew & Ey & Ep). apply (log_inv I HL) in Ew as (u & Eu & Pu & ->). rewrite (minus_one_v I rho) in Ey. injection Ey as <-.
  exists u. split; auto. split; auto. destruct (Req_dec (ln u) 0) as [Z|Z].
  - rewrite Z in Ep. unfold rpow in Ep. change (-1) with (IZR (-1)) in Ep. rewrite as_int_IZR in Ep. cbn in Ep. destruct (Req_EM_T 0 0); [|contradiction]. cbn in Ep. discriminate.
  - split; auto. unfold rpow in Ep. change (-1) with (IZR (-1)) in Ep. rewrite as_int_IZR in Ep. destruct (Req_EM_T (ln u) 0); [contradiction|]. injection Ep as <-. cbn. now rewrite Rmult_1_r.
Qed.

(** * The logarithms in the exponent *)
Lemma log_only_ok rho a r v : log_fine I simplify_powers rho false a -> log_only G simplify_powers a = Some r -> eval I rho (Fun FLog [a]) = Some v -> eval I rho r = Some v.
Proof. intros F H E. apply (elementary_ok I G HG HL simplify_powers (fun _ => None) rho false a r v F); auto. discriminate. Qed.
Lemma exponent_factor_ok rho f r v : (forall a, f = Fun FLog [a] \/ (exists y, f = Pow (Fun FLog [a]) y) -> log_fine I simplify_powers rho false a) ->
  exponent_factor G simplify_powers f = Some r -> eval I rho f = Some v -> eval I rho r = Some v.
Proof.
  intros F H E. unfold exponent_factor in H. destruct (log_arg f) as [a|] eqn:La.
  - apply log_arg_inv in La. subst f. apply (log_only_ok rho a r v); auto.
  - destruct f as [| | | | |b x| | |]; try (injection H as <-; exact E). destruct (log_arg b) as [a|] eqn:Lb; [|injection H as <-; exact E]. apply log_arg_inv in Lb. subst b.
    apply olift_inv in H as (p & q & Hp & Hq & ->). injection Hq as <-. apply (pow_limits I G HG rho (Fun FLog [a]) x p x v); auto.
    intros w Ew. apply (log_only_ok rho a p w); eauto.
Qed.
Theorem exponent_ok rho x r v : exponent_fine I simplify_powers rho x -> exponent_simpl G simplify_powers x = Some r -> eval I rho x = Some v -> eval I rho r = Some v.
Proof.
  intros [F1 F2] H E. unfold exponent_simpl in H.
  assert (Single : match log_arg x with Some a => log_only G simplify_powers a | None => Some x end = Some r -> eval I rho r = Some v).
  { intros H'. destruct (log_arg x) as [a|] eqn:La; [|injection H' as <-; exact E]. apply log_arg_inv in La. subst x. apply (log_only_ok rho a r v); auto. }
  destruct x as [| | | |l| | | |]; try exact (Single H).
  rewrite eval_Mul in E. assert (F : Forall (fun f => forall a, f = Fun FLog [a] \/ (exists y, f = Pow (Fun FLog [a]) y) -> log_fine I simplify_powers rho false a) l).
  { apply Forall_forall. intros f Hf a [->|[y ->]]; apply (F2 l a eq_refl); eauto. }
  clear Single F1 F2. revert r v H E. induction F as [|f l Hf F IH]; intros r v H E; cbn [fold_right] in H.
  - injection H as <-. cbn in E |- *. rewrite rv_1. exact E.
  - apply olift_inv in H as (p & q & Hp & Hq & ->). rewrite eprod_cons in E. apply olift2_some in E as (s & t & Es & Et & ->). rewrite Rmult_comm. apply (gmul_val _ _ HG); [now apply IH|now apply (exponent_factor_ok rho f q s)].
Qed.

(** * b^(c log a) = a^(c log b) *)
Lemma is_number_inv e : is_number e = true <-> exists q, e = Num q.
Proof. split; [destruct e; try discriminate; eauto|now intros [q ->]]. Qed.
Lemma candidate_some base f a : candidate base f = Some a -> f = Fun FLog [a] /\ exchanged base f.
Proof.
  unfold candidate. destruct (log_arg f) as [b|] eqn:La; [|discriminate]. apply log_arg_inv in La. subst f. destruct (has "n" b || _)%bool eqn:Q; [|discriminate]. intros H. assert (b = a) by congruence. subst b. split; auto.
  exists a. split; auto. apply orb_true_iff in Q as [Q|Q]; auto. right. apply andb_true_iff in Q as [Q1 Q2]. apply is_number_inv in Q1. split; auto. intros q ->. discriminate.
Qed.
Lemma candidate_none base f : ~ exchanged base f -> candidate base f = None.
Proof. intros N. destruct (candidate base f) as [a|] eqn:C; auto. apply candidate_some in C as [_ C]. contradiction. Qed.
Lemma candidate_iff base f : exchanged base f -> exists a, candidate base f = Some a.
Proof.
  intros (a & -> & H). exists a. unfold candidate. cbn [log_arg]. destruct H as [->|[[q ->] Na]]; [reflexivity|]. replace (is_number a) with false by (destruct a; try reflexivity; now destruct (Na q0)). cbn. now rewrite orb_true_r.
Qed.
Lemma scan_none rho base l : (forall g, In g l -> candidate base g = None) -> forall arg rem c p, eval I rho rem = Some c -> eprod I rho l = Some p ->
  exists r, scan G base l arg rem = (arg, r) /\ eval I rho r = Some (c * p).
Proof.
  induction l as [|f l IH]; intros N arg rem c p Ec Ep; cbn [scan].
  - rewrite eprod_nil in Ep. injection Ep as <-. exists rem. split; auto. now rewrite Rmult_1_r.
  - rewrite (N f (or_introl eq_refl)). rewrite eprod_cons in Ep. apply olift2_some in Ep as (s & t & Es & Et & ->).
    destruct (IH (fun g Hg => N g (or_intror Hg)) arg (gmul G rem f) (c * s) t) as (r & Er & Hr); auto; [now apply (gmul_val _ _ HG)|]. exists r. split; auto. rewrite Hr. f_equal. ring.
Qed.
Lemma scan_one rho base l : (forall l1 f l2, l = l1 ++ f :: l2 -> exchanged base f -> positive_at I rho base /\ forall g, In g (l1 ++ l2) -> ~ exchanged base g) ->
  forall rem c p arg r, eval I rho rem = Some c -> eprod I rho l = Some p -> scan G base l None rem = (arg, r) ->
  match arg with None => True | Some a => positive_at I rho base /\ exists u t, eval I rho a = Some u /\ 0 < u /\ eval I rho r = Some t /\ c * p = t * ln u end.
Proof.
  induction l as [|f l IH]; intros F rem c p arg r Ec Ep H; cbn [scan] in H.
  - injection H as <- <-. exact Logic.I.
  - rewrite eprod_cons in Ep. apply olift2_some in Ep as (s & t & Es & Et & ->). destruct (candidate base f) as [a|] eqn:C.
    + apply candidate_some in C as [-> C]. destruct (F [] _ l eq_refl C) as [P N]. cbn [app] in N.
      destruct (scan_none rho base l (fun g Hg => candidate_none _ _ (N g Hg)) (Some a) rem c t Ec Et) as (r' & Er & Hr). rewrite Er in H. injection H as <- <-. split; auto.
      apply (log_inv I HL) in Es as (u & Eu & Pu & ->). exists u, (c * t). repeat split; auto. ring.
    + assert (X := IH (fun l1 g l2 E X => match F (f :: l1) g l2 (f_equal (cons f) E) X with conj A B => conj A (fun h Hh => B h (or_intror Hh)) end) (gmul G rem f) (c * s) t arg r (gmul_val _ _ HG _ _ _ _ _ Ec Es) Et H).
      destruct arg as [a|]; auto. destruct X as (P & u & w & Eu & Pu & Ew & Eq). split; auto. exists u, w. repeat split; auto. rewrite <- Eq. ring.
Qed.
Definition exchange_fine (rho : string -> R) (b x : expr) : Prop := forall l, x = Mul l ->
  forall l1 f l2, l = l1 ++ f :: l2 -> exchanged b f -> positive_at I rho b /\ forall g, In g (l1 ++ l2) -> ~ exchanged b g.
Theorem first_property_ok rho b x b' x' v : exchange_fine rho b x -> first_property G b x = (b', x') -> eval I rho (Pow b x) = Some v -> eval I rho (Pow b' x') = Some v.
Proof.
  intros F H E. unfold first_property in H. assert (Same : (b, x) = (b', x') -> eval I rho (Pow b' x') = Some v) by (intros X; assert (b = b') by congruence; assert (x = x') by congruence; subst; auto).
  destruct x as [| | | |l| | | |]; try exact (Same H). destruct (scan G b (rev l) None (Num 1)) as [arg rem] eqn:Sc.
  destruct arg as [a|]; [|exact (Same H)]. injection H as <- <-. apply power_inv in E as (w & y & Ew & Ey & Ep). rewrite eval_Mul in Ey.
  assert (Fr : forall l1 f l2, rev l = l1 ++ f :: l2 -> exchanged b f -> positive_at I rho b /\ forall g, In g (l1 ++ l2) -> ~ exchanged b g).
  { intros l1 f l2 E X. destruct (F l eq_refl (rev l2) f (rev l1)) as [P N]; auto.
    - rewrite <- (rev_involutive l), E, rev_app_distr. cbn [rev]. now rewrite <- app_assoc.
    - split; auto. intros g Hg. apply N. apply in_app_iff in Hg. apply in_app_iff. rewrite <- !in_rev. tauto. }
  pose proof (scan_one rho b (rev l) Fr (Num 1) 1 y (Some a) rem (num1 I rho) ltac:(now rewrite eprod_rev) Sc) as ((w' & Ew' & Pw) & u & t & Eu & Pu & Et & Eq).
  assert (w' = w) by congruence. subst w'. rewrite Rmult_1_l in Eq. subst y. rewrite rpow_pos in Ep by auto. injection Ep as <-.
  apply (power_intro I rho a _ u (t * ln w)); auto.
  - apply (gmul_val _ _ HG); auto. now apply (log_v I G HG HL).
  - rewrite rpow_pos by auto. f_equal. unfold Rpower. f_equal. ring.
Qed.

(** * (a^i)^(log c / log a) = c^i *)
Definition lv (rho : string -> R) (c : option expr) : option R := match c with None => Some 1 | Some b => eval I rho (Fun FLog [b]) end.
Definition av (rho : string -> R) (a : option Qc) : option R := match a with None => Some 1 | Some q => eval I rho (Pow (Fun FLog [Num q]) minus_one) end.
Lemma scan2_ok rho l : forall c a rem x y z p c' a' rem', lv rho c = Some x -> av rho a = Some y -> eval I rho rem = Some z -> eprod I rho l = Some p -> scan2 G l c a rem = Some (c', a', rem') ->
  exists x' y' z', lv rho c' = Some x' /\ av rho a' = Some y' /\ eval I rho rem' = Some z' /\ x * y * z * p = x' * y' * z'.
Proof.
  induction l as [|f l IH]; intros c a rem x y z p c' a' rem' Hx Hy Hz Hp H; cbn [scan2] in H.
  - rewrite eprod_nil in Hp. injection Hp as <-. injection H as <- <- <-. exists x, y, z. repeat split; auto. ring.
  - rewrite eprod_cons in Hp. apply olift2_some in Hp as (s & t & Es & Et & ->).
    assert (Rest : scan2 G l c a (gmul G rem f) = Some (c', a', rem') -> exists x' y' z', lv rho c' = Some x' /\ av rho a' = Some y' /\ eval I rho rem' = Some z' /\ x * y * z * (s * t) = x' * y' * z').
    { intros H'. destruct (IH c a (gmul G rem f) x y (z * s) t c' a' rem' Hx Hy (gmul_val _ _ HG _ _ _ _ _ Hz Es) Et H') as (x' & y' & z' & A & B & C & D). exists x', y', z'. repeat split; auto. rewrite <- D. ring. }
    destruct (log_arg f) as [b|] eqn:Lf.
    + destruct c as [c|]; [discriminate|]. apply log_arg_inv in Lf. subst f. cbn [lv] in Hx. injection Hx as <-.
      destruct (IH (Some b) a rem s y z t c' a' rem' Es Hy Hz Et H) as (x' & y' & z' & A & B & C & D). exists x', y', z'. repeat split; auto. rewrite <- D. ring.
    + destruct (inv_log_arg f) as [b|] eqn:Li; [|exact (Rest H)]. destruct b as [q| | | | | | | |]; try exact (Rest H).
      destruct a as [a|]; [discriminate|]. apply inv_log_arg_inv in Li. subst f. cbn [av] in Hy. injection Hy as <-.
      destruct (IH c (Some q) rem x s z t c' a' rem' Hx Es Hz Et H) as (x' & y' & z' & A & B & C & D). exists x', y', z'. repeat split; auto. rewrite <- D. ring.
Qed.
Definition outcome (rho : string -> R) (v : R) (o : expr + expr * expr) : Prop := match o with inl r => eval I rho r = Some v | inr (b, x) => eval I rho (Pow b x) = Some v end.
Lemma log_like_or f : log_like f = (is_log f || is_inv f)%bool.
Proof. unfold log_like, is_log, is_inv. destruct (log_arg f), (inv_log_arg f); reflexivity. Qed.
Theorem power_result_ok rho fuel b x o v : power_result G fuel b x = Some o -> eval I rho (Pow b x) = Some v -> outcome rho v o.
Proof.
  intros H E. pose proof E as E0. apply power_inv in E as (w & y & Ew & Ey & Ep).
  assert (Next : Some (inr (b, x)) = Some o -> outcome rho v o) by (intros [= <-]; exact E0).
  assert (Second : (if expr_eqb b napier then match x with Fun FLog [a] => Some (inl a) | Mul l => match filter log_like l with [Fun FLog [a]] => Some (inl (gpow G a (mul_all G (filter (fun f => negb (log_like f)) l)))) | _ => Some (inr (b, x)) end | _ => Some (inr (b, x)) end else Some (inr (b, x))) = Some o -> outcome rho v o).
  { intros H'. destruct (expr_eqb b napier) eqn:Nb; [|exact (Next H')]. apply expr_eqb_eq in Nb.
    assert (w = exp 1). { rewrite Nb in Ew. unfold napier in Ew. cbn [eval omap obind] in Ew. rewrite HE, rv_1 in Ew. congruence. } subst w.
    rewrite rpow_pos in Ep by apply exp_pos. assert (v = exp y) by (injection Ep as <-; unfold Rpower; now rewrite ln_exp, Rmult_1_r). clear Ep. subst v.
    destruct x as [| | | |l| |g l| |]; try exact (Next H').
    - clear H. destruct (filter log_like l) as [|f [|f2 l2]] eqn:Fl; [exact (Next H')| |destruct f as [| | | | | |g m| |]; try exact (Next H'); destruct g; try exact (Next H'); destruct m as [|? [|? ?]]; exact (Next H')].
      destruct f as [| | | | | |g m| |]; try exact (Next H'). destruct g; try exact (Next H'). destruct m as [|a [|? ?]]; try exact (Next H'). injection H' as <-. cbn [outcome].
      rewrite eval_Mul in Ey. destruct (eprod_filter rho log_like l y Ey) as (s & t & Es & Et & ->). rewrite Fl, eprod_1 in Es. apply (log_inv I HL) in Es as (u & Eu & Pu & ->).
      apply (gpow_val _ _ HG _ _ _ u t); auto; [now apply mul_all_v|]. rewrite rpow_pos by auto. unfold Rpower. f_equal. f_equal. ring.
    - destruct g; try exact (Next H'). destruct l as [|a [|? ?]]; try exact (Next H'). injection H' as <-. cbn [outcome]. apply (log_inv I HL) in Ey as (u & Eu & Pu & ->). now rewrite exp_ln. }
  unfold power_result in H. destruct b as [q| | | | | | | |]; try exact (Second H). destruct x as [| | | |l| | | |]; try exact (Second H). clear Second.
  destruct (q_lt 0 q) eqn:Pq; [|exact (Next H)]. apply q_lt_spec in Pq. rewrite rv_0 in Pq. cbn [eval] in Ew. injection Ew as <-.
  destruct (scan2 G (rev l) None None (Num 1)) as [[[c a] rem]|] eqn:Sc; [|exact (Next H)]. destruct c as [c|]; [|exact (Next H)]. destruct a as [a|]; [|exact (Next H)].
  destruct (is_perfect_power fuel q a) as [[i|]|] eqn:PP; [|exact (Next H)|discriminate]. injection H as <-. cbn [outcome].
  apply perfect_power_sound in PP as (Pa & _ & PP). rewrite eval_Mul in Ey.
  destruct (scan2_ok rho (rev l) None None (Num 1) 1 1 1 y _ _ _ eq_refl eq_refl (num1 I rho) ltac:(now rewrite eprod_rev) Sc) as (s & t & z & Hs & Ht & Hz & Eq). cbn [lv av] in Hs, Ht.
  apply (log_inv I HL) in Hs as (u & Eu & Pu & ->). apply inv_log_v in Ht as (u2 & Eu2 & _ & Nz & ->). cbn [eval] in Eu2. injection Eu2 as <-.
  rewrite rpow_pos in Ep by auto. injection Ep as <-. apply (gpow_val _ _ HG _ _ _ u (IZR i * z)); auto.
  - apply (gmul_val _ _ HG); auto. cbn [eval]. now rewrite rv_zq.
  - rewrite rpow_pos by auto. unfold Rpower. f_equal. f_equal. rewrite <- PP, ln_powerRZ by auto. replace y with (ln u * / ln (rv a) * z) by (rewrite <- Eq; ring). field. auto.
Qed.
Theorem power_step_ok rho fuel b x o v : power_fine I G simplify_powers rho b x -> power_step G simplify_powers fuel b x = Some o -> eval I rho (Pow b x) = Some v -> outcome rho v o.
Proof.
  intros [F1 F2] H E. unfold power_step in H. destruct (exponent_simpl G simplify_powers x) as [x1|] eqn:Ex; [|discriminate].
  assert (E1 : eval I rho (Pow b x1) = Some v).
  { apply power_inv in E as (w & y & Ew & Ey & Ep). apply (power_intro I rho b x1 w y); auto. now apply (exponent_ok rho x). }
  destruct (first_property G b x1) as [b2 x2] eqn:Fp. apply (power_result_ok rho fuel b2 x2 o v H). apply (first_property_ok rho b x1 b2 x2 v); auto.
  intros l ->. now apply F2.
Qed.
End Power.

Section Quotient.
Context (I : interp) (G : ginac) (HG : ginac_ok I G) (HL : log_std I) (numer denom : expr -> expr) (HF : fractions I numer denom) (canon : list expr -> list expr) (HC : forall l, Permutation (canon l) l).
Lemma recip_ok rho f g s t : recip numer denom f g = true -> eval I rho f = Some s -> eval I rho g = Some t -> s * t = -1.
Proof.
  unfold recip. destruct (log_arg f) as [a|] eqn:La; [|discriminate]. destruct (inv_log_arg g) as [b|] eqn:Lb; [|discriminate]. unfold reciprocal. intros R Es Et.
  apply log_arg_inv in La. apply inv_log_arg_inv in Lb. subst f g. apply andb_true_iff in R as [R1 R2]. apply expr_eqb_eq in R1, R2.
  apply (log_inv I HL) in Es as (u & Eu & Pu & ->). apply (inv_log_v I HL) in Et as (w & Ew & Pw & Nz & ->).
  destruct (HF rho a u Eu) as (p & q & Hp & Hq & Nq & ->). destruct (HF rho b w Ew) as (p' & q' & Hp' & Hq' & Nq' & ->).
  assert (q' = p) by congruence. assert (p' = q) by congruence. subst q' p'. replace (p / q) with (/ (q / p)) by (field; auto). rewrite ln_Rinv by auto. field. auto.
Qed.
Lemma canon_rev rho l g r v : rev (canon l) = g :: r -> eprod I rho l = Some v -> exists s t, eval I rho g = Some s /\ eprod I rho (rev r) = Some t /\ v = t * s /\ In g l.
Proof.
  intros H E. assert (Ec : canon l = rev r ++ [g]) by (rewrite <- (rev_involutive (canon l)), H; reflexivity).
  assert (In g l) by (apply (Permutation_in _ (HC l)); rewrite Ec; apply in_app_iff; right; now left).
  rewrite <- (eprod_perm I rho _ _ (HC l)), Ec, eprod_app, eprod_1 in E. apply olift2_some in E as (x & y & Ex & Ey & ->). eauto 8.
Qed.
Lemma pair_logs_ok rho logs : forall invs acc a p q r invs', eval I rho acc = Some a -> eprod I rho logs = Some p -> eprod I rho invs = Some q ->
  pair_logs G numer denom canon logs invs acc = (r, invs') -> exists s t, eval I rho r = Some s /\ eprod I rho invs' = Some t /\ a * p * q = s * t.
Proof.
  induction logs as [|f logs IH]; intros invs acc a p q r invs' Ea Ep Eq H; cbn [pair_logs] in H.
  - rewrite eprod_nil in Ep. injection Ep as <-. injection H as <- <-. exists a, q. repeat split; auto. ring.
  - rewrite eprod_cons in Ep. apply olift2_some in Ep as (x & y & Ex & Ey & ->). destruct (rev (canon invs)) as [|g iv] eqn:R.
    + assert (invs = []) by (apply Permutation_nil; rewrite <- (HC invs), <- (rev_involutive (canon invs)), R; constructor). subst invs. rewrite eprod_nil in Eq. injection Eq as <-.
      destruct (IH [] (gmul G acc f) (a * x) y 1 r invs' (gmul_val _ _ HG _ _ _ _ _ Ea Ex) Ey eq_refl H) as (s & t & A & B & C). exists s, t. repeat split; auto. rewrite <- C. ring.
    + destruct (canon_rev rho invs g iv q R Eq) as (s & t & Eg & Et & -> & _).
      assert (Ea' : exists c, eval I rho (if recip numer denom f g then gmul G acc minus_one else gmul G acc (gmul G f g)) = Some c /\ c = a * (x * s)).
      { destruct (recip numer denom f g) eqn:Rc.
        - exists (a * -1). split; [apply (gmul_val _ _ HG); auto; apply minus_one_v|]. now rewrite (recip_ok rho f g x s Rc Ex Eg).
        - eexists. split; [|reflexivity]. apply (gmul_val _ _ HG); auto. now apply (gmul_val _ _ HG). }
      destruct Ea' as (c & Ec & ->). destruct (IH _ _ _ y t r invs' Ec Ey Et H) as (s' & t' & A & B & C). exists s', t'. repeat split; auto. rewrite <- C. ring.
Qed.
Lemma not_both f : is_log f = true -> is_inv f = false.
Proof. unfold is_log, is_inv. destruct (log_arg f) eqn:L; [|discriminate]. apply log_arg_inv in L. subst f. reflexivity. Qed.
Lemma split_three rho l v : eprod I rho l = Some v -> exists o p q, eprod I rho (filter (fun f => negb (log_like f)) l) = Some o /\ eprod I rho (filter is_log l) = Some p /\ eprod I rho (filter is_inv l) = Some q /\ v = o * p * q.
Proof.
  revert v. induction l as [|f l IH]; intros v E.
  - rewrite eprod_nil in E. injection E as <-. exists 1, 1, 1. cbn. repeat split; auto. ring.
  - rewrite eprod_cons in E. apply olift2_some in E as (x & y & Ex & Ey & ->). destruct (IH y Ey) as (o & p & q & Eo & Ep & Eq & ->). cbn [filter]. rewrite log_like_or. pose proof (not_both f) as NB.
    destruct (is_log f); [rewrite (NB eq_refl)|destruct (is_inv f)]; cbn [orb negb]; rewrite ?eprod_cons, ?Ex, ?Eo, ?Ep, ?Eq; cbn [olift2]; eexists _, _, _; repeat split; eauto; ring.
Qed.
Theorem quotient_ok rho l v : quotient_fine numer denom canon l -> eprod I rho l = Some v -> eval I rho (simpl_quotient_of_logs G numer denom canon l) = Some v.
Proof.
  intros F E. destruct (split_three rho l v E) as (o & p & q & Eo & Ep & Eq & ->). unfold simpl_quotient_of_logs, quotient_fine in *.
  apply mul_all_v with (G := G) in Eo; auto. set (others := mul_all G (filter (fun f => negb (log_like f)) l)) in *. clearbody others.
  assert (Hinv : forall g, In g (filter is_inv l) -> is_inv g = true) by (intros g Hg; now apply filter_In in Hg).
  set (logs := filter is_log l) in *. set (invs := filter is_inv l) in *. clearbody logs invs.
  assert (All : eval I rho (gmul G (gmul G others (mul_all G logs)) (mul_all G invs)) = Some (o * p * q)) by (repeat apply (gmul_val _ _ HG); auto; now apply mul_all_v).
  destruct logs as [|f logs]; [exact All|]. destruct invs as [|g invs]; [destruct logs; exact All|]. clear All.
  destruct logs as [|f2 logs].
  - rewrite eprod_1 in Ep. destruct invs as [|g2 invs].
    + rewrite eprod_1 in Eq. destruct (recip numer denom f g) eqn:Rc.
      * replace (o * p * q) with (o * -1) by (rewrite <- (recip_ok rho f g p q Rc Ep Eq); ring). apply (gmul_val _ _ HG); auto. apply minus_one_v.
      * repeat apply (gmul_val _ _ HG); auto.
    + pose proof (mul_all_v I G HG rho _ _ Eq) as Em. set (iv := g :: g2 :: invs) in *. assert (Len : (2 <= List.length iv)%nat) by (cbn; lia). clearbody iv.
      destruct (rev (canon iv)) as [|h iv'] eqn:R.
      * exfalso. assert (iv = []) by (apply Permutation_nil; rewrite <- (HC iv), <- (rev_involutive (canon iv)), R; constructor). subst. cbn in Len. lia.
      * rewrite (F f h iv' eq_refl Len eq_refl). destruct (canon_rev rho iv h iv' q R Eq) as (s & t & Eh & Et & -> & Hin).
        pose proof (recip_ok rho f h p s (F f h iv' eq_refl Len eq_refl) Ep Eh) as Rc. assert (s <> 0) by (intros ->; lra).
        replace (o * p * (t * s)) with (o * -1 * (t * s) / s) by (rewrite <- Rc; field; auto). apply (div_v I G HG rho); auto.
        repeat apply (gmul_val _ _ HG); auto. apply minus_one_v.
  - destruct (pair_logs G numer denom canon (rev (canon (f :: f2 :: logs))) (g :: invs) others) as [acc iv] eqn:P.
    assert (Ep' : eprod I rho (rev (canon (f :: f2 :: logs))) = Some p) by (rewrite eprod_rev, (eprod_perm I rho _ _ (HC (f :: f2 :: logs))); exact Ep).
    destruct (pair_logs_ok rho _ _ _ o p q acc iv Eo Ep' Eq P) as (s & t & A & B & ->).
    apply (gmul_val _ _ HG); auto. now apply mul_all_v.
Qed.
End Quotient.

Section Main.
Context (I : interp) (G : ginac) (HG : ginac_ok I G) (HL : log_std I) (HE : exp_std I) (numer denom simplify_powers : expr -> expr) (HF : fractions I numer denom) (canon : list expr -> list expr) (HC : forall l, Permutation (canon l) l).
Local Notation sl := (simplify_log G numer denom simplify_powers canon).
Theorem simplify_log_ok fuel : forall rho e r v, logs_fine I G numer denom simplify_powers canon rho e -> sl fuel e = Some r -> eval I rho e = Some v -> eval I rho r = Some v.
Proof.
  induction fuel as [|fuel IH]; intros rho e r v HR H E; [discriminate|].
  inversion HR as [rho' e' Lf E1 E2|rho' l Fl E1 E2|rho' l l' Qf El Fl E1 E2|rho' l t Qf Et Nt Rt E1 E2|rho' b x Pf Rb Rx E1 E2|rho' a Lf Rf E1 E2|rho' f l Nf Fl E1 E2|rho' k lo up b R1 R2 R3 E1 E2|rho' k lo up b R1 R2 R3 E1 E2]; subst rho'; [|subst e..]; cbn [simplify_log] in H.
  - subst e'. destruct e; try contradiction; injection H as <-; exact E.
  - rewrite eval_Add in E. clear HR. revert r v H E. induction Fl as [|a l Ra Fl IHl]; intros r v H E; cbn [fold_right] in H.
    + injection H as <-. cbn in E |- *. rewrite rv_0. exact E.
    + apply olift_inv in H as (x & y & Hx & Hy & ->). rewrite esum_cons in E. apply olift2_some in E as (p & q & Ep & Eq & ->). rewrite Rplus_comm. apply (gadd_val _ _ HG); [now apply IHl|now apply (IH rho a)].
  - rewrite eval_Mul in E. apply (quotient_ok I G HG HL numer denom HF canon HC rho l v Qf) in E. rewrite El in H, E. rewrite eval_Mul in E. clear HR El. revert r v H E. induction Fl as [|a l' Ra Fl IHl]; intros r v H E; cbn [fold_right] in H.
    + injection H as <-. cbn in E |- *. rewrite rv_1. exact E.
    + apply olift_inv in H as (x & y & Hx & Hy & ->). rewrite eprod_cons in E. apply olift2_some in E as (p & q & Ep & Eq & ->). rewrite Rmult_comm. apply (gmul_val _ _ HG); [now apply IHl|now apply (IH rho a)].
  - rewrite eval_Mul in E. apply (quotient_ok I G HG HL numer denom HF canon HC rho l v Qf) in E. rewrite Et in H, E. assert (H' : sl fuel t = Some r) by (destruct t; try exact H; now destruct (Nt l0)). exact (IH rho t r v Rt H' E).
  - destruct (power_step G simplify_powers fuel b x) as [[p|[b1 x1]]|] eqn:P; [| |discriminate].
    + injection H as <-. exact (power_step_ok I G HG HL HE simplify_powers rho fuel b x (inl p) v Pf P E).
    + pose proof (power_step_ok I G HG HL HE simplify_powers rho fuel b x (inr (b1, x1)) v Pf P E) as E'. cbn [outcome] in E'. apply olift_inv in H as (b2 & x2 & H1 & H2 & ->).
      apply (pow_limits I G HG rho b1 x1 b2 x2 v); [intros w Ew; exact (IH rho b1 b2 w (Rb _ _ _ P) H1 Ew)|intros w Ew; exact (IH rho x1 x2 w (Rx _ _ _ P) H2 Ew)|exact E'].
  - apply (elementary_ok I G HG HL simplify_powers (sl fuel) rho true a r v Lf); auto. intros l f s w _ Hl Hf Q Hs Ew. apply (IH rho (glog G f) s w); auto. apply (Rf l f); auto. destruct f; try discriminate; exact Logic.I.
  - assert (H' : match oall (map (sl fuel) l) with Some l => Some (gfun G f l) | None => None end = Some r).
    { destruct f; auto. destruct l as [|a [|? ?]]; auto. now destruct (Nf a). }
    destruct (oall (map (sl fuel) l)) as [l'|] eqn:O; [|discriminate]. injection H' as <-. apply (gfun_ok _ _ HG). cbn [eval] in E |- *.
    destruct (omap (eval I rho) l) as [vs|] eqn:Ev; [|discriminate]. rewrite (omap_refine I rho l l' vs); auto.
    apply oall_inv in O. clear - O Fl IH. revert l' O. induction Fl as [|a l Ra Fl IHl]; intros l' O; cbn [map] in O; inversion O; subst; constructor; auto. intros w Ew. match goal with X : sl fuel a = Some _ |- _ => exact (IH rho a _ w Ra X Ew) end.
  - destruct (sl fuel lo) as [lo'|] eqn:S1; [|discriminate]. destruct (sl fuel up) as [up'|] eqn:S2; [|discriminate]. destruct (sl fuel b) as [b'|] eqn:S3; [|discriminate]. injection H as <-.
    apply (gsum_ok _ _ HG). apply (sum_limits I rho k lo up b lo' up' b' v); [intros w Ew; exact (IH rho lo _ w R1 S1 Ew)|intros w Ew; exact (IH rho up _ w R2 S2 Ew)|intros i w Ew; exact (IH _ b _ w (R3 i) S3 Ew)|exact E].
  - destruct (sl fuel lo) as [lo'|] eqn:S1; [|discriminate]. destruct (sl fuel up) as [up'|] eqn:S2; [|discriminate]. destruct (sl fuel b) as [b'|] eqn:S3; [|discriminate]. injection H as <-.
    apply (gprod_ok _ _ HG). apply (prod_limits I rho k lo up b lo' up' b' v); [intros w Ew; exact (IH rho lo _ w R1 S1 Ew)|intros w Ew; exact (IH rho up _ w R2 S2 Ew)|intros i w Ew; exact (IH _ b _ w (R3 i) S3 Ew)|exact E].
Qed.
End Main.
