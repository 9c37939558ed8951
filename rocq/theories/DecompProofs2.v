(** The decomposition by factorials. *)
From Coq Require Import ZArith QArith Qcanon Reals List String Bool Lia Lra.
From Verif Require Import Ast ExprModel ExprSpec ExprProofs1 ExprProofs2 ExprProofs3 DecompModel DecompSpec DecompProofs.
Import ListNotations.
Local Open Scope R_scope.
Local Open Scope list_scope.

Section Fact.
Context (I : interp) (G : ginac) (HG : ginac_ok I G) (HF : factorial_interp I) (HN : forall a b, gmul G (Num a) (Num b) = Num (a * b)%Qc).
Notation eval := (eval I).
Variable x : string.

Definition fv (rho : string -> R) (a : Qc) : option R := eval rho (Fun FFact [Mul [Num a; Sym x]]).
Lemma fv_ifun rho a : fv rho a = ifun I FFact [rv a * rho x].
Proof. unfold fv. cbn [Ast.eval omap obind fold_right olift2]. rewrite Rmult_1_r. reflexivity. Qed.
Lemma fv_0 rho : fv rho 0 = Some 1.
Proof. rewrite fv_ifun, rv_0, Rmult_0_l. exact (HF 0%nat). Qed.
Lemma fv_1 rho : fv rho 1 = eval rho (Fun FFact [Sym x]).
Proof. rewrite fv_ifun, rv_1, Rmult_1_l. reflexivity. Qed.
Definition fval rho (l : list fterm) : option R := eval rho (fact_sum x l).
Lemma fval_cons rho a c l : fval rho ((a, c) :: l) = olift2 Rplus (olift2 Rmult (eval rho c) (fv rho a)) (fval rho l).
Proof. unfold fval, fact_sum, fv. rewrite !eval_Add. cbn [map]. rewrite esum_cons, eval_Mul2. reflexivity. Qed.
Lemma fval_app rho l1 l2 : fval rho (l1 ++ l2) = olift2 Rplus (fval rho l1) (fval rho l2).
Proof. unfold fval, fact_sum. rewrite !eval_Add, map_app. apply esum_app. Qed.
Lemma fval_nil rho : fval rho [] = Some 0. Proof. reflexivity. Qed.
Lemma add_coeff_val rho a c l y u w : fval rho l = Some y -> eval rho c = Some u -> fv rho a = Some w -> fval rho (add_coeff G a c l) = Some (y + u * w).
Proof.
  intros Hy Hu Hw. revert y Hy. induction l as [|[b d] l IH]; intros y Hy; cbn [add_coeff].
  - rewrite fval_nil in Hy. injection Hy as <-. rewrite fval_cons, (gadd0 I G HG rho c u Hu), Hw, fval_nil. cbn. f_equal. lra.
  - rewrite fval_cons in Hy. apply olift2_some in Hy as (y1 & y2 & H1 & H2 & ->). apply olift2_some in H1 as (d' & w' & Hd & Hw' & ->). destruct (Qc_eqb b a) eqn:E; rewrite fval_cons.
    + apply Qc_eqb_eq in E. subst b. rewrite Hw in *. injection Hw' as <-. rewrite (gadd_val I G HG rho d c d' u), H2 by auto. cbn. f_equal. lra.
    + rewrite Hd, Hw', (IH y2 H2). cbn. f_equal. lra.
Qed.
Lemma append_val rho a c l y u w : fval rho l = Some y -> eval rho c = Some u -> fv rho a = Some w -> fval rho (l ++ [(a, gadd G (Num 0) c)]) = Some (y + u * w).
Proof. intros Hy Hu Hw. rewrite fval_app, Hy, fval_cons, (gadd0 I G HG rho c u Hu), Hw, fval_nil. cbn. f_equal. lra. Qed.
Lemma add_coeff_keys a c l b : In b (map fst (add_coeff G a c l)) -> In b (map fst l) \/ b = a.
Proof. induction l as [|[b' d] l IH]; cbn [add_coeff map In fst]; [intuition|]. destruct (Qc_eqb b' a); cbn [map In fst]; intuition. Qed.
Lemma has_arg_in a l : has_arg a l = true <-> In a (map fst l).
Proof.
  unfold has_arg. rewrite existsb_exists, in_map_iff. split.
  - intros (t & H & E). apply Qc_eqb_eq in E. exists t; auto.
  - intros (t & E & H). exists t. split; auto. now apply Qc_eqb_eq.
Qed.
(** What the argument step does for the arguments covered. *)
Lemma argument_ok rho k a c l y u w : fact_arg x k a -> (forall q, k = Some q -> ~ In q (map fst l)) -> fval rho l = Some y -> eval rho c = Some u -> eval rho (Fun FFact [a]) = Some w ->
  exists l', factorial_decomposition_argument G x a c l = Some l' /\ fval rho l' = Some (y + u * w) /\ (forall b, In b (map fst l') -> In b (map fst l) \/ b = match k with Some q => q | None => 1%Qc end).
Proof.
  intros Ha Hk Hy Hu Hw. destruct k as [q|]; cbn in Ha.
  - destruct Ha as (N0 & N1 & Ha). specialize (Hk q eq_refl).
    assert (R : exists q', mul_all G (filter (fun f => negb (is_x x f)) match a with Mul l => l | _ => [] end) = Num q' /\ q' = q).
    { assert (E : filter (fun f => negb (is_x x f)) match a with Mul l => l | _ => [] end = [Num q]).
      { destruct Ha as [-> | ->]; cbn [filter is_x negb]; rewrite String.eqb_refl; reflexivity. }
      rewrite E. cbn [mul_all fold_right]. rewrite HN. eexists. split; [reflexivity|]. apply Qcmult_1_l. }
    destruct R as (q' & R & ->).
    assert (X : existsb (is_x x) match a with Mul l => l | _ => [] end = true) by (destruct Ha as [-> | ->]; cbn [existsb is_x]; rewrite String.eqb_refl; reflexivity).
    assert (W : fv rho q = Some w).
    { rewrite fv_ifun. destruct Ha as [-> | ->]; cbn [Ast.eval omap obind fold_right olift2] in Hw; rewrite Rmult_1_r in Hw; rewrite <- Hw; [reflexivity|]. now rewrite Rmult_comm. }
    exists (l ++ [(q, gadd G (Num 0) c)]). split; [|split].
    + destruct Ha as [-> | ->]; cbn [factorial_decomposition_argument]; rewrite X, R;
        (destruct (has_arg q l) eqn:E; [apply has_arg_in in E; tauto|reflexivity]).
    + now apply append_val.
    + intros b. rewrite map_app, in_app_iff. cbn. intuition.
  - subst a. exists (add_coeff G 1 c l). split; [cbn [factorial_decomposition_argument is_x]; now rewrite String.eqb_refl|]. split.
    + apply add_coeff_val; auto. now rewrite fv_1.
    + apply add_coeff_keys.
Qed.
Lemma nofact_is_fact e : no_factorial e -> is_fact e = None.
Proof. destruct e; auto. destruct f; intros H; try reflexivity; destruct H. Qed.
Lemma split_plain rho l v : Forall no_factorial l -> eprod I rho l = Some v -> exists c, split_factorial G l = Some (Num 0, c) /\ eval rho c = Some v.
Proof.
  intros F. revert v. induction F as [|f l Hf F IH]; intros v Hv; cbn [split_factorial].
  - rewrite eprod_nil in Hv. injection Hv as <-. exists (Num 1). split; auto. apply num1.
  - rewrite eprod_cons in Hv. apply olift2_some in Hv as (u & w & Hu & Hw & ->). destruct (IH w Hw) as (c & -> & Hc). rewrite (nofact_is_fact f Hf).
    exists (gmul G c f). split; auto. rewrite (gmul_val I G HG rho c f w u); auto. f_equal. lra.
Qed.
Lemma split_plain' l : Forall no_factorial l -> exists c, split_factorial G l = Some (Num 0, c).
Proof. induction 1 as [|f l Hf F [c IH]]; cbn [split_factorial]; [eexists; reflexivity|]. rewrite IH, (nofact_is_fact f Hf). eexists. reflexivity. Qed.
Lemma split_one rho k a l1 l2 v : fact_arg x k a -> Forall no_factorial l1 -> Forall no_factorial l2 -> eprod I rho (l1 ++ Fun FFact [a] :: l2) = Some v ->
  exists c u w, split_factorial G (l1 ++ Fun FFact [a] :: l2) = Some (a, c) /\ eval rho c = Some u /\ eval rho (Fun FFact [a]) = Some w /\ v = u * w.
Proof.
  intros Ha F1 F2. revert v. induction F1 as [|f l1 Hf F1 IH]; intros v; cbn [app split_factorial].
  - rewrite eprod_cons. intros H. apply olift2_some in H as (w & u & Hw & Hu & ->). destruct (split_plain rho l2 u F2 Hu) as (c & -> & Hc).
    cbn [is_fact]. assert (Z : is_num 0 (Num 0) = true) by (apply is_num_eq; reflexivity). rewrite Z. exists c, u, w. repeat split; auto. lra.
  - rewrite eprod_cons. intros H. apply olift2_some in H as (uf & v' & Hf' & Hv' & ->). destruct (IH v' Hv') as (c & u & w & -> & Hc & Hw & ->). rewrite (nofact_is_fact f Hf).
    exists (gmul G c f), (u * uf), w. split; auto. split; [now apply (gmul_val I G HG)|]. split; auto. lra.
Qed.
Lemma fact_arg_not0 k a : fact_arg x k a -> is_num 0 a = false.
Proof. destruct k; cbn; [intros (_ & _ & [-> | ->])|intros ->]; reflexivity. Qed.
Definition key_or k := match k with Some q => q | None => 1%Qc end.
Lemma summand_ok rho k e l y v : fact_summand x k e -> (forall q, k = Some q -> ~ In q (map fst l)) -> fval rho l = Some y -> eval rho e = Some v ->
  exists l', factorial_decomposition_summand G x e l = Some l' /\ fval rho l' = Some (y + v) /\ (forall b, In b (map fst l') -> In b (map fst l) \/ b = 0%Qc \/ b = key_or k).
Proof.
  intros HS Hk Hy Hv.
  assert (PLAIN : forall c, eval rho c = Some v -> fval rho (add_coeff G 0 c l) = Some (y + v) /\ forall b, In b (map fst (add_coeff G 0 c l)) -> In b (map fst l) \/ b = 0%Qc \/ b = key_or k).
  { intros c Hc. split; [rewrite (add_coeff_val rho 0 c l y v 1); auto using fv_0; f_equal; lra|]. intros b Hb. apply add_coeff_keys in Hb. tauto. }
  destruct HS as [e NM NF|fs NF|k a Ha|k a l1 l2 Ha F1 F2].
  - exists (add_coeff G 0 e l). destruct (PLAIN e Hv) as [A B]. split; auto. unfold factorial_decomposition_summand. rewrite (nofact_is_fact e NF). destruct e; auto. now destruct (NM l0).
  - rewrite eval_Mul in Hv. destruct (split_plain rho fs v NF Hv) as (c & E & Hc). exists (add_coeff G 0 c l). destruct (PLAIN c Hc) as [A B]. split; auto.
    cbn [factorial_decomposition_summand]. rewrite E. assert (Z : is_num 0 (Num 0) = true) by (apply is_num_eq; reflexivity). now rewrite Z.
  - destruct (argument_ok rho k a (Num 1) l y 1 v Ha Hk Hy (num1 I rho) Hv) as (l' & E & V & K). exists l'. split; [|split].
    + cbn [factorial_decomposition_summand is_fact]. destruct a; auto. destruct k; cbn in Ha; [destruct Ha as (_ & _ & [? | ?])|]; discriminate.
    + rewrite V. f_equal. ring.
    + intros b Hb. apply K in Hb. unfold key_or. tauto.
  - rewrite eval_Mul in Hv. destruct (split_one rho k a l1 l2 v Ha F1 F2 Hv) as (c & u & w & E & Hc & Hw & ->).
    destruct (argument_ok rho k a c l y u w Ha Hk Hy Hc Hw) as (l' & E' & V & K). exists l'. split; [|split; auto].
    + cbn [factorial_decomposition_summand]. rewrite E, (fact_arg_not0 k a Ha). exact E'.
    + intros b Hb. apply K in Hb. unfold key_or. tauto.
Qed.
Theorem factorial_decomposition_ok simplify e s ks rho v : refines I e (simplify e) -> simplify e = Add s -> Forall2 (fact_summand x) ks s -> NoDup (keys_of ks) ->
  eval rho e = Some v -> exists l, factorial_decomposition G simplify e x = Some l /\ eval rho (fact_sum x l) = Some v.
Proof.
  intros HS E F ND Hv. apply HS in Hv. unfold factorial_decomposition. rewrite E in *. rewrite eval_Add in Hv.
  enough (X : exists l, fold_right (fun a acc => match acc with Some acc => factorial_decomposition_summand G x a acc | None => None end) (Some []) s = Some l /\ fval rho l = Some v /\
     (forall b, In b (map fst l) -> b = 0%Qc \/ b = 1%Qc \/ In b (keys_of ks))) by (destruct X as (l & A & B & _); exists l; auto).
  clear E HS. revert v Hv. induction F as [|k a ks s H F IH]; intros v Hv; cbn [fold_right].
  - exists []. split; [reflexivity|]. split; [exact Hv|]. intros b [].
  - rewrite esum_cons in Hv. apply olift2_some in Hv as (u & w & Hu & Hw & ->).
    assert (ND' : NoDup (keys_of ks)) by (destruct k; cbn in ND; [now inversion ND|auto]).
    destruct (IH ND' w Hw) as (l & -> & V & K).
    assert (HK : forall q, k = Some q -> ~ In q (map fst l)).
    { intros q -> Hin. apply K in Hin. assert (QQ : q <> 0%Qc /\ q <> 1%Qc) by (inversion H as [| |? ? Ha|? ? ? ? Ha ? ?]; subst; cbn in Ha; tauto).
      destruct Hin as [->|[->|Hin]]; [tauto|tauto|]. cbn in ND. inversion ND; auto. }
    destruct (summand_ok rho k a l w u H HK V Hu) as (l' & E' & V' & K'). exists l'. split; auto. split; [rewrite V'; f_equal; lra|].
    intros b Hb. apply K' in Hb as [Hb|[Hb|Hb]]; auto.
    + apply K in Hb as [Hb|[Hb|Hb]]; auto. right. right. destruct k; cbn; auto.
    + destruct k; cbn in Hb; subst; auto. right. right. now left.
Qed.
End Fact.
