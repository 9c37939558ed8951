From Coq Require Import ZArith QArith Qcanon Reals List String Bool Lia Lra.
From Verif Require Import Ast ExprModel ExprSpec ExprProofs1 ExprProofs2 NonLinModel NonLinProofs BoundVProofs ProdProofs ProdProofs2 SumSimpProofs2 FactRwModel FactRwSpec FactRwProofs.
Import ListNotations.
Local Open Scope list_scope.
Local Open Scope R_scope.

Section Rewrite.
Context (I : interp) (G : ginac) (HG : ginac_ok I G).

Lemma sum_limits rho k lo up b lo' up' b' v : (forall w, eval I rho lo = Some w -> eval I rho lo' = Some w) -> (forall w, eval I rho up = Some w -> eval I rho up' = Some w) ->
  (forall (i : Z) w, eval I (upd rho k (IZR i)) b = Some w -> eval I (upd rho k (IZR i)) b' = Some w) -> eval I rho (SumE k lo up b) = Some v -> eval I rho (SumE k lo' up' b') = Some v.
Proof.
  intros H1 H2 H3 E. apply eval_sum_inv in E as (x & y & Hx & Hy & Es). apply (eval_sum_intro I _ _ _ _ _ _ x y); auto.
  apply osum_some in Es as (g & Hg & ->). apply osum_some. exists g. split; auto.
Qed.
Lemma prod_limits rho k lo up b lo' up' b' v : (forall w, eval I rho lo = Some w -> eval I rho lo' = Some w) -> (forall w, eval I rho up = Some w -> eval I rho up' = Some w) ->
  (forall (i : Z) w, eval I (upd rho k (IZR i)) b = Some w -> eval I (upd rho k (IZR i)) b' = Some w) -> eval I rho (ProdE k lo up b) = Some v -> eval I rho (ProdE k lo' up' b') = Some v.
Proof.
  intros H1 H2 H3 E. apply eval_prod_inv in E as (x & y & Hx & Hy & Es). apply (eval_prod_intro I _ _ _ _ _ _ x y); auto.
  apply oprod_some in Es as (g & Hg & ->). apply oprod_some. exists g. split; auto.
Qed.
Lemma pow_limits rho a b a' b' v : (forall w, eval I rho a = Some w -> eval I rho a' = Some w) -> (forall w, eval I rho b = Some w -> eval I rho b' = Some w) ->
  eval I rho (Pow a b) = Some v -> eval I rho (gpow G a' b') = Some v.
Proof.
  intros H1 H2 E. cbn [eval] in E. destruct (eval I rho a) as [x|] eqn:Ea; [|discriminate]. destruct (eval I rho b) as [y|] eqn:Eb; [|discriminate]. cbn [obind] in E.
  apply (gpow_val _ _ HG _ _ _ x y); auto.
Qed.
Lemma omap_refine rho l l' vs : Forall2 (fun a a' => forall w, eval I rho a = Some w -> eval I rho a' = Some w) l l' -> omap (eval I rho) l = Some vs -> omap (eval I rho) l' = Some vs.
Proof.
  intros F. revert vs. induction F as [|a a' l l' Ha F IH]; intros vs; cbn [omap]; auto. fold (omap (eval I rho) l) (omap (eval I rho) l').
  destruct (eval I rho a) as [x|] eqn:Ea; [|discriminate]. destruct (omap (eval I rho) l) as [ws|]; [|discriminate]. intros [= <-]. rewrite (Ha x eq_refl), (IH ws eq_refl). reflexivity.
Qed.

(** * Factorials and exponentials *)
Section Fact.
Context (HF : factorial_std I) (expand : expr -> expr) (Hexp : forall e, refines I e (expand e)).
Notation rw := (rewrite_fe G expand).
(** The results of swapping exponents. *)
Definition swapped_by (e r : expr) : Prop := exists fuel c x b c' b' x', e = Pow (Pow c x) b /\ rw fuel c = Some c' /\ rw fuel b = Some b' /\ rw fuel x = Some x' /\ r = gpow G (gpow G c' b') x'.

Lemma olift_inv f a b r : olift f a b = Some r -> exists x y, a = Some x /\ b = Some y /\ r = f x y.
Proof. destruct a, b; try discriminate. intros [= <-]. eauto. Qed.
Lemma oall_inv l r : oall l = Some r -> Forall2 (fun o x => o = Some x) l r.
Proof. revert r. induction l as [|[a|] l IH]; intros r; cbn [oall]; try discriminate; [intros [= <-]; constructor|]. destruct (oall l) as [r'|]; [|discriminate]. intros [= <-]. constructor; auto. Qed.

Theorem rewrite_fe_ok fuel : forall rho e r v, factorials_fine I swapped_by rho e -> rw fuel e = Some r -> eval I rho e = Some v -> eval I rho r = Some v.
Proof.
  induction fuel as [|fuel IH]; intros rho e r v HR H E; [discriminate|].
  assert (Pw : forall a b s, factorials_fine I swapped_by rho a -> factorials_fine I swapped_by rho b -> eval I rho (Pow a b) = Some v ->
    match olift (gpow G) (rw fuel a) (rw fuel b) with Some r => Some (if power_of_sum r then expand r else r) | None => None end = Some s -> eval I rho s = Some v).
  { intros a b s Ra Rb Ev Hs. destruct (olift (gpow G) (rw fuel a) (rw fuel b)) as [p|] eqn:O; [|discriminate]. apply olift_inv in O as (a' & b' & Ha & Hb & ->).
    assert (Ep : eval I rho (gpow G a' b') = Some v) by (apply (pow_limits rho a b a' b' v); [intros w Ew; exact (IH rho a a' w Ra Ha Ew)|intros w Ew; exact (IH rho b b' w Rb Hb Ew)|exact Ev]).
    destruct (power_of_sum _); injection Hs as <-; auto. now apply Hexp. }
  inversion HR as [rho' e' Lf E1 E2|rho' l Fl E1 E2|rho' l Fl E1 E2|rho' a b Sw Ra Rb E1 E2|rho' l Ff E1 E2|rho' a Na E1 E2|rho' f l Nf Fl E1 E2|rho' k lo up b R1 R2 R3 E1 E2|rho' k lo up b R1 R2 R3 E1 E2]; subst rho'; [|subst e..]; cbn [rewrite_fe] in H.
  - subst e'. destruct e; try contradiction; injection H as <-; exact E.
  - rewrite eval_Add in E. clear HR Pw. revert r v H E. induction Fl as [|a l Ra Fl IHl]; intros r v H E; cbn [fold_right] in H.
    + injection H as <-. cbn in E |- *. rewrite rv_0. exact E.
    + apply olift_inv in H as (x & y & Hx & Hy & ->). rewrite esum_cons in E. apply olift2_some in E as (p & q & Ep & Eq & ->). rewrite Rplus_comm. apply (gadd_val _ _ HG); [now apply IHl|now apply (IH rho a)].
  - rewrite eval_Mul in E. clear HR Pw. revert r v H E. induction Fl as [|a l Ra Fl IHl]; intros r v H E; cbn [fold_right] in H.
    + injection H as <-. cbn in E |- *. rewrite rv_1. exact E.
    + apply olift_inv in H as (x & y & Hx & Hy & ->). rewrite eprod_cons in E. apply olift2_some in E as (p & q & Ep & Eq & ->). rewrite Rmult_comm. apply (gmul_val _ _ HG); [now apply IHl|now apply (IH rho a)].
  - destruct (swap_candidate a b) as [[c x]|] eqn:Sc; [|now apply (Pw a b)].
    assert (Shape : exists c0 q, a = Pow (Num c0) x /\ b = Num q /\ c = Num c0 /\ is_number x = false).
    { unfold swap_candidate in Sc. destruct a as [| | | | |a1 a2| | |]; try discriminate. destruct a1; try discriminate. destruct b; try discriminate. destruct (is_number a2) eqn:Nx; [discriminate|]. injection Sc as <- <-. eauto 6. }
    destruct Shape as (c0 & q & -> & -> & -> & Nx).
    destruct (Sw c0 x q eq_refl eq_refl) as [[p ->]|[Sf Again]]; [discriminate|].
    destruct (olift (gpow G) (olift (gpow G) (rw fuel (Num c0)) (rw fuel (Num q))) (rw fuel x)) as [s|] eqn:O; [|discriminate].
    destruct (double_power s); [now apply (Pw (Pow (Num c0) x) (Num q))|].
    apply olift_inv in O as (cq & x' & O & Hx & ->). apply olift_inv in O as (c' & q' & Hc & Hq & ->).
    apply (IH rho _ r v) in H; auto.
    + apply Again. exists fuel, (Num c0), x, (Num q), c', q', x'. auto.
    + cbn [eval] in E. destruct (eval I rho x) as [xv|] eqn:Ex; [|discriminate]. cbn [obind] in E. destruct (rpow (rv c0) xv) as [u|] eqn:Eu; [|discriminate]. cbn [obind] in E.
      destruct (swap_value (rv c0) xv (rv q) u v) as (w & W1 & W2); auto.
      apply (gpow_val _ _ HG _ _ _ w xv); auto.
      * apply (gpow_val _ _ HG _ _ _ (rv c0) (rv q)); auto; [apply (IH rho (Num c0))|apply (IH rho (Num q))]; auto; now constructor.
      * apply (IH rho x); auto. inversion Ra as [? ? L| | |? ? ? ? ? ?| | | | |]; subst; [contradiction|auto].
  - injection H as <-. now apply decompose_ok.
  - injection H as <-. destruct a; auto. now destruct (Na l).
  - assert (H' : match oall (map (rw fuel) l) with Some l => Some (gfun G f l) | None => None end = Some r) by (destruct f; auto; contradiction).
    destruct (oall (map (rw fuel) l)) as [l'|] eqn:O; [|discriminate]. injection H' as <-. apply (gfun_ok _ _ HG). cbn [eval] in E |- *.
    destruct (omap (eval I rho) l) as [vs|] eqn:Ev; [|discriminate]. rewrite (omap_refine rho l l' vs); auto.
    apply oall_inv in O. clear - O Fl IH. revert l' O. induction Fl as [|a l Ra Fl IHl]; intros l' O; cbn [map] in O; inversion O; subst; constructor; auto. intros w Ew. match goal with X : rw fuel a = Some _ |- _ => exact (IH rho a _ w Ra X Ew) end.
  - destruct (rw fuel lo) as [lo'|] eqn:S1; [|discriminate]. destruct (rw fuel up) as [up'|] eqn:S2; [|discriminate]. destruct (rw fuel b) as [b'|] eqn:S3; [|discriminate]. injection H as <-.
    apply (gsum_ok _ _ HG). apply (sum_limits rho k lo up b lo' up' b' v); [intros w Ew; exact (IH rho lo _ w R1 S1 Ew)|intros w Ew; exact (IH rho up _ w R2 S2 Ew)|intros i w Ew; exact (IH _ b _ w (R3 i) S3 Ew)|exact E].
  - destruct (rw fuel lo) as [lo'|] eqn:S1; [|discriminate]. destruct (rw fuel up) as [up'|] eqn:S2; [|discriminate]. destruct (rw fuel b) as [b'|] eqn:S3; [|discriminate]. injection H as <-.
    apply (gprod_ok _ _ HG). apply (prod_limits rho k lo up b lo' up' b' v); [intros w Ew; exact (IH rho lo _ w R1 S1 Ew)|intros w Ew; exact (IH rho up _ w R2 S2 Ew)|intros i w Ew; exact (IH _ b _ w (R3 i) S3 Ew)|exact E].
Qed.
End Fact.

(** * Binomials *)
Section Binom.
Context (HF : factorial_std I) (HB : binom_std I).
Lemma fact_nz n : INR (fact n) <> 0. Proof. apply INR_fact_neq_0. Qed.
Lemma gdiv_v rho a b x y : eval I rho a = Some x -> eval I rho b = Some y -> y <> 0 -> eval I rho (gdiv G a b) = Some (x / y).
Proof. apply (div_val I G HG). Qed.
Lemma plain_ok rho m k a b : (b <= a)%nat -> eval I rho m = Some (INR a) -> eval I rho k = Some (INR b) ->
  eval I rho (over_factorials G (gfun G FFact [m]) (gsub G m k) k) = Some (gbinom (INR a) b).
Proof.
  intros H Em Ek. unfold over_factorials. rewrite binom_fact by auto. apply gdiv_v.
  - now apply fact_value.
  - apply (gmul_val _ _ HG); apply fact_value; auto. rewrite minus_INR by auto. now apply (gsub_val _ _ HG).
  - apply Rmult_integral_contrapositive_currified; apply fact_nz.
Qed.
Theorem rewrite_binomial_ok rho m k v : binomial_fine I rho m k -> eval I rho (Fun FBinom [m; k]) = Some v -> eval I rho (rewrite_binomial G m k) = Some v.
Proof.
  intros Hf E. pose proof E as E0. cbn [eval omap] in E. destruct (eval I rho m) as [x|] eqn:Em; [|discriminate]. destruct (eval I rho k) as [y|] eqn:Ek; [|discriminate]. cbn [obind] in E.
  apply HB in E as (b & -> & ->). destruct Hf as [[p ->]|[(a & b' & Hab & Em' & Ek')|(q & -> & Hq & Hk)]].
  - cbn [rewrite_binomial]. rewrite q_is_int_zq.
    assert (Q : q_le 0 (zq (Z.neg p)) = false). { destruct (q_le 0 (zq (Z.neg p))) eqn:Q; auto. apply q_le_0 in Q. rewrite rv_zq in Q. apply le_IZR in Q. lia. }
    rewrite Q. cbn [eval] in Em. rewrite rv_zq in Em. injection Em as <-.
    replace (IZR (Z.neg p)) with (- INR (S (Pos.to_nat p - 1))) by (replace (S (Pos.to_nat p - 1)) with (Pos.to_nat p) by lia; rewrite INR_IZR_INZ, positive_nat_Z, <- opp_IZR; reflexivity).
    set (p' := (Pos.to_nat p - 1)%nat). rewrite binom_neg. apply gdiv_v.
    + apply (gmul_val _ _ HG).
      * apply (gpow_val _ _ HG _ _ _ (-1) (INR b)); auto; [cbn [eval]; rewrite rv_opp, rv_1; f_equal; lra|]. now rewrite rpow_nat.
      * apply fact_value; auto. replace (INR (b + p')) with (INR b - IZR (Z.neg p) - 1).
        -- apply (gsub_val _ _ HG); [apply (gsub_val _ _ HG); auto; cbn [eval]; now rewrite rv_zq|cbn [eval]; now rewrite rv_1].
        -- rewrite plus_INR. unfold p'. rewrite minus_INR by lia. rewrite (INR_IZR_INZ (Pos.to_nat p)), positive_nat_Z. change (Z.neg p) with (- Z.pos p)%Z. rewrite opp_IZR. cbn [INR]. ring.
    + apply (gmul_val _ _ HG); apply fact_value; auto. cbn [eval]. rewrite rv_sub, rv_opp, rv_zq, rv_1. f_equal. unfold p'. rewrite minus_INR by lia. rewrite (INR_IZR_INZ (Pos.to_nat p)), positive_nat_Z. change (Z.neg p) with (- Z.pos p)%Z. rewrite opp_IZR. cbn [INR]. ring.
    + apply Rmult_integral_contrapositive_currified; apply fact_nz.
  - assert (x = INR a) by congruence. assert (b' = b) by (apply INR_eq; congruence). subst x b'. pose proof (plain_ok rho m k a b Hab Em Ek) as Pl.
    unfold rewrite_binomial. destruct m as [q| | | | | | | |]; [|destruct k; auto; destruct (_ && _)%bool; auto..].
    destruct (q_is_int q).
    + destruct (q_le 0 q) eqn:Q; auto. exfalso. cbn [eval] in Em. assert (Q' : 0 <= rv q) by (injection Em as ->; apply pos_INR). apply q_le_0 in Q'. congruence.
    + destruct k; auto. destruct (_ && _)%bool; auto.
  - assert (Q : q_is_int q = false) by (destruct (q_is_int q) eqn:Q; auto; now apply q_is_int_is in Q). cbn [rewrite_binomial]. rewrite Q. destruct k; auto. now destruct (Hk q0).
Qed.
Theorem rewrite_binomials_ok e : forall rho v, binomials_fine I rho e -> eval I rho e = Some v -> eval I rho (rewrite_binomials G e) = Some v.
Proof.
  induction e using expr_ind'; intros rho v HR E.
  - exact E.
  - exact E.
  - exact E.
  - inversion HR as [? ? Lf|rho' l' Fl E1 E2| | | | | |]; subst; [contradiction|]. cbn [rewrite_binomials]. rewrite eval_Add in E. clear HR. revert v E. induction H as [|a l Ha Hl IH]; intros v E; cbn [map add_all fold_right].
    + cbn in E |- *. rewrite rv_0. exact E.
    + apply Forall_cons_iff in Fl as [Fa Fl]. rewrite esum_cons in E. apply olift2_some in E as (p & q & Ep & Eq & ->). rewrite Rplus_comm. apply (gadd_val _ _ HG); auto.
  - inversion HR as [? ? Lf| |rho' l' Fl E1 E2| | | | |]; subst; [contradiction|]. cbn [rewrite_binomials]. rewrite eval_Mul in E. clear HR. revert v E. induction H as [|a l Ha Hl IH]; intros v E; cbn [map mul_all fold_right].
    + cbn in E |- *. rewrite rv_1. exact E.
    + apply Forall_cons_iff in Fl as [Fa Fl]. rewrite eprod_cons in E. apply olift2_some in E as (p & q & Ep & Eq & ->). rewrite Rmult_comm. apply (gmul_val _ _ HG); auto.
  - inversion HR as [? ? Lf| | |rho' a b Ra Rb E1 E2| | | |]; subst; [contradiction|]. cbn [rewrite_binomials]. eapply pow_limits; [| |exact E]; intros; auto.
  - inversion HR as [? ? Lf| | | |rho' m k Bf E1 E2|rho' f' l' Nf Fl E1 E2| |]; subst; [contradiction|now apply rewrite_binomial_ok|].
    assert (Eq : rewrite_binomials G (Fun f l) = gfun G f (map (rewrite_binomials G) l)) by (destruct f; auto; contradiction).
    rewrite Eq. apply (gfun_ok _ _ HG). cbn [eval] in E |- *. destruct (omap (eval I rho) l) as [vs|] eqn:Ev; [|discriminate]. rewrite (omap_refine rho l (map (rewrite_binomials G) l) vs); auto.
    clear - H Fl. induction H as [|a l Ha Hl IH]; cbn [map]; constructor; apply Forall_cons_iff in Fl as [Fa Fl]; auto.
  - inversion HR as [? ? Lf| | | | | |rho' k' lo up b R1 R2 R3 E1 E2|]; subst; [contradiction|]. cbn [rewrite_binomials]. apply (gsum_ok _ _ HG). eapply sum_limits; [| | |exact E]; intros; auto.
  - inversion HR as [? ? Lf| | | | | | |rho' k' lo up b R1 R2 R3 E1 E2]; subst; [contradiction|]. cbn [rewrite_binomials]. apply (gprod_ok _ _ HG). eapply prod_limits; [| | |exact E]; intros; auto.
Qed.
End Binom.
End Rewrite.
