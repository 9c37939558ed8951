From Coq Require Import ZArith QArith Qcanon Reals List String Bool Lia Lra.
From Verif Require Import Ast ExprModel ExprSpec ExprProofs1 ExprProofs2 DecompModel DecompSpec DecompProofs VerifyProofs2 ProdSpec ProdProofs ProdProofs2 ProdProofs3 SumSimpModel SumSimpSpec SumSimpProofs SumSimpProofs2.
Import ListNotations.
Local Open Scope list_scope.
Local Open Scope R_scope.

Section Sums.
Context (I : interp) (G : ginac) (HG : ginac_ok I G) (expand simplify : expr -> expr).
Context (sum_pe : expr -> string -> string -> expr -> expr) (gosper : string -> expr -> Z -> expr -> option expr) (h : string).
Context (Hexp : forall e, refines I e (expand e)) (Hsimp : forall e, refines I e (simplify e)) (Hsum : sums_powers I sum_pe) (Hgos : telescopes I gosper).
Notation right := (sums_right I G expand simplify sum_pe h).
Notation simp := (simplify_sum G expand simplify sum_pe gosper h).

Lemma oadd_inv a b r : oadd G a b = Some r -> exists x y, a = Some x /\ b = Some y /\ r = gadd G x y.
Proof. destruct a, b; try discriminate. intros [= <-]. eauto. Qed.
Lemma omul_inv a b r : omul G a b = Some r -> exists x y, a = Some x /\ b = Some y /\ r = gmul G x y.
Proof. destruct a, b; try discriminate. intros [= <-]. eauto. Qed.
Lemma oall_omap rho (F : expr -> option expr) l vs : Forall (fun a => forall a' v, F a = Some a' -> eval I rho a = Some v -> eval I rho a' = Some v) l ->
  omap (eval I rho) l = Some vs -> forall l', oall (map F l) = Some l' -> omap (eval I rho) l' = Some vs.
Proof.
  intros Fl. revert vs. induction Fl as [|a l Ha Fl IH]; intros vs Hv l' H; cbn [map oall] in H.
  - now injection H as <-.
  - destruct (F a) as [a'|] eqn:Fa; [|discriminate]. destruct (oall (map F l)) as [r|] eqn:Fr; [|discriminate]. injection H as <-.
    cbn [omap] in Hv. destruct (eval I rho a) as [v|] eqn:Ev; [|discriminate]. fold (omap (eval I rho) l) in Hv. destruct (omap (eval I rho) l) as [ws|] eqn:Ew; [|discriminate]. injection Hv as <-.
    cbn [omap]. fold (omap (eval I rho) r). rewrite (Ha a' v eq_refl eq_refl), (IH ws eq_refl r eq_refl). reflexivity.
Qed.
(** The sum of a sum. *)
Lemma sum_of_sum rho k lo up l v : eval I rho (SumE k lo up (Add l)) = Some v ->
  exists vs, Forall2 (fun a w => eval I rho (SumE k lo up a) = Some w) l vs /\ v = fold_right Rplus 0 vs.
Proof.
  intros E. apply eval_sum_inv in E as (a & b & Ha & Hb & Es). revert v Es. induction l as [|x l IH]; intros v Es.
  - exists []. split; [constructor|]. cbn [fold_right]. revert v Es. generalize (Z.to_nat (b - a + 1)). induction n; intros v; cbn [osum]; [congruence|].
    intros H. apply olift2_some in H as (p & q & Ep & Eq & ->). rewrite (IHn _ Ep). cbn in Eq. assert (q = 0) by congruence. subst. ring.
  - set (n := Z.to_nat (b - a + 1)) in *.
    assert (Sp : exists p q, osum n (fun i => eval I (upd rho k (IZR (a + Z.of_nat i))) x) = Some p /\ osum n (fun i => eval I (upd rho k (IZR (a + Z.of_nat i))) (Add l)) = Some q /\ v = p + q).
    { revert v Es. generalize n. clear. induction n as [|n IH]; intros v; cbn [osum].
      - intros [= <-]. exists 0, 0. repeat split; ring.
      - intros H. apply olift2_some in H as (p & q & Ep & Eq & ->). destruct (IH _ Ep) as (p1 & p2 & E1 & E2 & ->). rewrite eval_Add, esum_cons in Eq. apply olift2_some in Eq as (q1 & q2 & F1 & F2 & ->).
        rewrite E1, E2, F1, eval_Add, F2. cbn [olift2]. do 2 eexists. repeat split. ring. }
    destruct Sp as (p & q & Ep & Eq & ->). destruct (IH q Eq) as (vs & F & ->). exists (p :: vs). split; [|reflexivity]. constructor; auto. apply (eval_sum_intro I _ _ _ _ _ _ a b); auto.
Qed.

Theorem simplify_sum_ok compute fuel : forall rho e r v, right compute rho e -> simp compute fuel e = Some r -> eval I rho e = Some v -> eval I rho r = Some v.
Proof.
  induction fuel as [|fuel IH]; intros rho e r v HR H E; [discriminate|].
  assert (Lim : forall k lo up b lo' up' b', right compute rho lo -> right compute rho up -> (forall i : Z, right compute (upd rho k (IZR i)) b) ->
    simp compute fuel lo = Some lo' -> simp compute fuel up = Some up' -> simp compute fuel b = Some b' ->
    (forall w, eval I rho (SumE k lo up b) = Some w -> eval I rho (SumE k lo' up' b') = Some w) /\ (forall w, eval I rho (ProdE k lo up b) = Some w -> eval I rho (ProdE k lo' up' b') = Some w)).
  { intros k lo up b lo' up' b' R1 R2 R3 S1 S2 S3. split; intros w Ew.
    - apply eval_sum_inv in Ew as (x & y & Hx & Hy & Es). apply (eval_sum_intro I _ _ _ _ _ _ x y); [now apply (IH rho lo)|now apply (IH rho up)|].
      apply osum_some in Es as (g & Hg & ->). apply osum_some. exists g. split; auto. intros i Hi. apply (IH _ b); auto.
    - apply eval_prod_inv in Ew as (x & y & Hx & Hy & Es). apply (eval_prod_intro I _ _ _ _ _ _ x y); [now apply (IH rho lo)|now apply (IH rho up)|].
      apply oprod_some in Es as (g & Hg & ->). apply oprod_some. exists g. split; auto. intros i Hi. apply (IH _ b); auto. }
  inversion HR as [rho' q E1 E2|rho' c E1 E2|rho' s E1 E2|rho' l Fl E1 E2|rho' l Fl E1 E2|rho' a b Ra Rb E1 E2|rho' f l Fl E1 E2|rho' k lo up l Hc Fl E1 E2|rho' k lo up b Hc Nb Nx Ht E1 E2|rho' k lo u w b Hc Ht E1 E2|rho' k lo up b D R1 R2 R3 E1 E2|rho' k lo up b R1 R2 R3 E1 E2];
    subst rho' e; cbn [simplify_sum] in H.
  - now injection H as <-.
  - now injection H as <-.
  - now injection H as <-.
  - rewrite eval_Add in E. clear HR. revert r v H E. induction Fl as [|a l Ra Fl IHl]; intros r v H E; cbn [fold_right] in H.
    + injection H as <-. cbn in E |- *. rewrite rv_0. exact E.
    + apply oadd_inv in H as (x & y & Hx & Hy & ->). rewrite esum_cons in E. apply olift2_some in E as (p & q & Ep & Eq & ->). rewrite Rplus_comm. apply (gadd_val _ _ HG); [now apply IHl|now apply (IH rho a)].
  - rewrite eval_Mul in E. clear HR. revert r v H E. induction Fl as [|a l Ra Fl IHl]; intros r v H E; cbn [fold_right] in H.
    + injection H as <-. cbn in E |- *. rewrite rv_1. exact E.
    + apply omul_inv in H as (x & y & Hx & Hy & ->). rewrite eprod_cons in E. apply olift2_some in E as (p & q & Ep & Eq & ->). rewrite Rmult_comm. apply (gmul_val _ _ HG); [now apply IHl|now apply (IH rho a)].
  - destruct (simp compute fuel a) as [a'|] eqn:Sa; [|discriminate]. destruct (simp compute fuel b) as [b'|] eqn:Sb; [|discriminate]. injection H as <-.
    cbn [eval] in E. destruct (eval I rho a) as [x|] eqn:Ea; [|discriminate]. destruct (eval I rho b) as [y|] eqn:Eb; [|discriminate]. cbn [obind] in E.
    apply (gpow_val _ _ HG _ _ _ x y); auto; [now apply (IH rho a)|now apply (IH rho b)].
  - destruct (oall (map (simp compute fuel) l)) as [l'|] eqn:So; [|discriminate]. injection H as <-. apply (gfun_ok _ _ HG). cbn [eval] in E |- *.
    destruct (omap (eval I rho) l) as [vs|] eqn:Ev; [|discriminate]. rewrite (oall_omap rho (simp compute fuel) l vs); auto.
    eapply Forall_impl; [|exact Fl]. intros a Ra a' w Sa Ea. now apply (IH rho a).
  - rewrite Hc in *. clear HR. apply sum_of_sum in E as (vs & F2 & ->). revert r H. induction F2 as [|a w l vs Ea F2 IHl]; intros r H; cbn [fold_right] in *.
    + injection H as <-. cbn [eval]. now rewrite rv_0.
    + apply Forall_cons_iff in Fl as [Ra Fl]. apply oadd_inv in H as (x & y & Hx & Hy & ->). rewrite Rplus_comm. apply (gadd_val _ _ HG); [now apply IHl|].
      apply (IH rho (gsum G k lo up a)); auto. now apply (gsum_ok _ _ HG).
  - rewrite Hc, Nx in H. cbn [negb andb] in H. destruct lo as [q| | | | | | | |].
    + assert (H' : Some (compute_sum G expand simplify sum_pe gosper h k q up b) = Some r) by (destruct b; auto; now destruct (Nb l)).
      injection H' as <-. now apply (compute_sum_ok I G HG expand simplify sum_pe gosper h Hexp Hsimp Hsum Hgos).
    + destruct b; try discriminate. now destruct (Nb l).
    + destruct b; try discriminate. now destruct (Nb l).
    + destruct b; try discriminate. now destruct (Nb l0).
    + destruct b; try discriminate. now destruct (Nb l0).
    + destruct b; try discriminate. now destruct (Nb l).
    + destruct b; try discriminate. now destruct (Nb l0).
    + destruct b; try discriminate. now destruct (Nb l).
    + destruct b; try discriminate. now destruct (Nb l).
  - rewrite Hc in H. rewrite andb_false_r in H. assert (H' : Some (split_sum G k lo (Add [u; w]) b) = Some r) by (destruct b; exact H). assert (Er : r = split_sum G k lo (Add [u; w]) b) by congruence. rewrite Er. now apply (split_sum_ok I G HG).
  - assert (H' : match simp compute fuel lo, simp compute fuel up, simp compute fuel b with Some lo, Some up, Some b => Some (gsum G k lo up b) | _, _, _ => None end = Some r).
    { destruct compute.
      - destruct D as [Nb Nx]. rewrite Nx in H. cbn [negb andb] in H. destruct b; auto. now destruct (Nb l).
      - rewrite andb_false_r in H. destruct up as [| | |[|u [|w [|? ?]]]| | | | |]; try (destruct b; exact H); now destruct (D u w). }
    destruct (simp compute fuel lo) as [lo'|] eqn:S1; [|discriminate]. destruct (simp compute fuel up) as [up'|] eqn:S2; [|discriminate]. destruct (simp compute fuel b) as [b'|] eqn:S3; [|discriminate]. injection H' as <-.
    apply (gsum_ok _ _ HG). now apply (Lim k lo up b).
  - destruct (simp compute fuel lo) as [lo'|] eqn:S1; [|discriminate]. destruct (simp compute fuel up) as [up'|] eqn:S2; [|discriminate]. destruct (simp compute fuel b) as [b'|] eqn:S3; [|discriminate]. injection H as <-.
    apply (gprod_ok _ _ HG). now apply (Lim k lo up b).
Qed.

(** Sums from 1 to n are merged. *)
Lemma sum_1_n_inv e k b : sum_1_n e = Some (k, b) -> exists lo, lo = Num 1 /\ e = SumE k lo (Sym "n") b.
Proof.
  unfold sum_1_n. destruct e; try discriminate. destruct e2; try discriminate. destruct (is_num 1 e1) eqn:L; [|discriminate]. apply is_num_eq in L. cbn [andb].
  destruct (String.eqb_spec s "n"); [|discriminate]. intros [= <- <-]. subst. eauto.
Qed.
Lemma sum_addend_inv e c k b : sum_addend e = Some (c, k, b) -> forall rho v, eval I rho e = Some v ->
  (exists q, c = Num q) /\ exists x y, eval I rho c = Some x /\ eval I rho (SumE k (Num 1) (Sym "n") b) = Some y /\ v = x * y.
Proof.
  intros H rho v E.
  assert (One : sum_addend e = match sum_1_n e with Some (k, s) => Some (Num 1, k, s) | None => None end -> (exists q, c = Num q) /\ exists x y, eval I rho c = Some x /\ eval I rho (SumE k (Num 1) (Sym "n") b) = Some y /\ v = x * y).
  { intros H'. rewrite H' in H. destruct (sum_1_n e) as [[k' s]|] eqn:S1; [|discriminate]. injection H as <- <- <-. apply sum_1_n_inv in S1 as (lo & -> & ->). split; [eauto|]. exists 1, v. split; [cbn [eval]; now rewrite rv_1|]. split; [exact E|ring]. }
  destruct e as [| | | |[|x [|y [|? ?]]]| | | |]; try (apply One; reflexivity); clear One; cbn [sum_addend sum_1_n] in H; try discriminate;
    destruct x; try discriminate; destruct y; try discriminate.
  - destruct (sum_1_n _) as [[k' s]|] eqn:S1; [|discriminate]. assert (K : c = Num q /\ k' = k /\ s = b) by (repeat split; congruence). destruct K as (-> & -> & ->). apply sum_1_n_inv in S1 as (lo & -> & S1).
    rewrite eval_Mul2 in E. apply olift2_some in E as (x & y & Ex & Ey & ->). rewrite S1 in Ey. split; eauto.
  - destruct (sum_1_n _) as [[k' s]|] eqn:S1; [|discriminate]. assert (K : c = Num q /\ k' = k /\ s = b) by (repeat split; congruence). destruct K as (-> & -> & ->). apply sum_1_n_inv in S1 as (lo & -> & S1).
    rewrite eval_Mul2 in E. apply olift2_some in E as (x & y & Ex & Ey & ->). rewrite S1 in Ex. split; [eauto|]. exists y, x. split; [auto|split; [auto|ring]].
Qed.
Lemma merge_ok rho N l v rest s cnt : rho "n"%string = IZR N -> h <> "n"%string ->
  Forall (fun a => forall c k b, sum_addend a = Some (c, k, b) -> has h b = false /\ no_capture k (Sym h) b) l ->
  esum I rho l = Some v -> merge G h l = (rest, s, cnt) ->
  exists x f, eval I rho rest = Some x /\ summands I rho h s 1 N f /\ v = x + zsum f 1 (Z.to_nat N).
Proof.
  intros Hn hn Fl. revert v rest s cnt. induction Fl as [|a l Ha Fl IH]; intros v rest s cnt E H; cbn [merge] in H.
  - injection H as <- <- <-. exists 0, (fun _ => 0). split; [cbn [eval]; now rewrite rv_0|]. split; [intros i _; cbn [eval]; now rewrite rv_0|]. cbn in E. rewrite zsum_zero. injection E as <-. ring.
  - destruct (merge G h l) as [[rest' s'] cnt'] eqn:M. rewrite esum_cons in E. apply olift2_some in E as (p & q & Ep & Eq & ->).
    destruct (IH q rest' s' cnt' Eq eq_refl) as (x & f & Ex & Hf & ->). destruct (sum_addend a) as [[[c k] b]|] eqn:Sa.
    + assert (K : rest = rest' /\ s = gadd G s' (gmul G c (substitute G (Sym k) (Sym h) b))) by (split; congruence). destruct K as [-> ->]. clear H.
      destruct (Ha c k b eq_refl) as [Hb NC]. destruct (sum_addend_inv _ _ _ _ Sa rho p Ep) as [[qc ->] (u & w & Eu & Ew & ->)].
      destruct (sum_value_inv I rho k (Num 1) (Sym "n") b 1 N w) as (g & Hg & ->); [cbn [eval]; now rewrite rv_1|cbn [eval]; now rewrite Hn|exact Ew|].
      exists x, (fun i => f i + u * g i). split; [exact Ex|split].
      * intros i Hi. apply (gadd_val _ _ HG); [now apply Hf|]. apply (gmul_val _ _ HG); [exact Eu|].
        apply (substitute_ok I G HG) with (w := IZR i); [exact NC|cbn [eval]; now rewrite upd_same|]. rewrite <- (Hg i Hi). apply eval_agree. intros t Ht. rewrite upd_upd_ne. unfold upd at 1. destruct (String.eqb_spec t k); auto.
        destruct (String.eqb_spec t h); [subst; congruence|auto].
      * replace (N - 1 + 1)%Z with N by lia. rewrite zsum_plus. rewrite (zsum_ext (fun i => u * g i) (fun i => g i * u)), zsum_scal by (intros; ring). ring.
    + injection H as <- <- <-. exists (x + p), f. split; [now apply (gadd_val _ _ HG)|]. split; auto. ring.
Qed.
Theorem collect_sums_ok rho N fuel e r v : rho "n"%string = IZR N -> h <> "n"%string ->
  Forall (fun a => forall c k b, sum_addend a = Some (c, k, b) -> has h b = false /\ no_capture k (Sym h) b) (ops e) ->
  right true rho (gsum G h (Num 1) (Sym "n") (expand (snd (fst (merge G h (ops e)))))) ->
  collect_sums G expand simplify sum_pe gosper h fuel e = Some r -> eval I rho e = Some v -> eval I rho r = Some v.
Proof.
  intros Hn hn Fl R1 H E. unfold collect_sums in H. destruct e; try (injection H as <-; exact E). cbn [ops] in *.
  destruct (existsb sum_candidate l); [|injection H as <-; exact E]. destruct (merge G h l) as [[rest s] cnt] eqn:M. cbn [fst snd] in R1.
  destruct (1 <? cnt)%nat; [|injection H as <-; exact E].
  destruct (simp true fuel _) as [r'|] eqn:S1; [|discriminate]. injection H as <-. rewrite eval_Add in E.
  destruct (merge_ok rho N l v rest s cnt Hn hn Fl E M) as (x & f & Ex & Hf & ->). apply (gadd_val _ _ HG); [exact Ex|].
  eapply simplify_sum_ok; [exact R1|exact S1|]. apply (gsum_ok _ _ HG).
  replace N with (N - 1 + 1)%Z at 1 by lia. apply sum_value; [cbn [eval]; now rewrite rv_1|cbn [eval]; now rewrite Hn|].
  intros i Hi. now apply Hexp, Hf.
Qed.
End Sums.
