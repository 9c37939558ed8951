From Coq Require Import ZArith QArith Qcanon Reals List String Bool Lia Lra.
From Verif Require Import Ast ExprModel ExprSpec ExprProofs1 ExprProofs2 ExprProofs3 DecompModel DecompSpec.
Import ListNotations.
Local Open Scope R_scope.
Local Open Scope list_scope.

Section Decomp.
Context (I : interp) (G : ginac) (HG : ginac_ok I G).
Notation eval := (eval I).

Lemma gadd0 rho a v : eval rho a = Some v -> eval rho (gadd G (Num 0) a) = Some v.
Proof. intros H. rewrite (gadd_val I G HG rho (Num 0) a 0 v); auto; [f_equal; lra|cbn; now rewrite rv_0]. Qed.
Lemma num0 rho : eval rho (Num 0) = Some 0. Proof. cbn. now rewrite rv_0. Qed.
Lemma num1 rho : eval rho (Num 1) = Some 1. Proof. cbn. now rewrite rv_1. Qed.

(** Domains as predicates on environments. *)
Definition polyD (x : string) (D : (string -> R) -> Prop) (p : expr) : Prop := forall rho, exists c, forall t, D (upd rho x t) -> eval (upd rho x t) p = Some (rpoly c t).
Lemma polyD_add x (D : (string -> R) -> Prop) p q : polyD x D p -> polyD x D q -> polyD x D (gadd G p q).
Proof.
  intros Hp Hq rho. destruct (Hp rho) as [c Hc], (Hq rho) as [d Hd]. exists (cadd c d). intros t Ht. rewrite rpoly_cadd. apply (gadd_val I G HG); auto.
Qed.
Lemma polyD_0 x D : polyD x D (Num 0).
Proof. intros rho. exists []. intros t _. apply num0. Qed.
Lemma polyD_mono x (D D' : (string -> R) -> Prop) p : (forall r, D' r -> D r) -> polyD x D p -> polyD x D' p.
Proof. intros H P rho. destruct (P rho) as [c Hc]. exists c. auto. Qed.
Definition dom (e : expr) (rho : string -> R) : Prop := exists v, eval rho e = Some v.
Lemma polyD_is x e : is_polynomial x e = true -> polyD x (dom e) e.
Proof.
  intros H rho. destruct (is_polynomial_ok I x e H rho) as [N|[c Hc]]; [exists []|exists c; auto].
  intros t [v Hv]. rewrite N in Hv. discriminate.
Qed.
Lemma dom_add_cons a l rho : dom (Add (a :: l)) rho -> dom a rho /\ dom (Add l) rho.
Proof. intros [v H]. rewrite eval_Add, esum_cons in H. apply olift2_some in H as (u & w & Hu & Hw & _). split; [exists u|exists w]; auto. Qed.
Lemma isolate_val rho e x v : eval rho e = Some v -> exists u w, eval rho (fst (isolate_polynomial_part G e x)) = Some u /\ eval rho (snd (isolate_polynomial_part G e x)) = Some w /\ u + w = v.
Proof.
  intros H. unfold isolate_polynomial_part.
  assert (SINGLE : exists u w, eval rho (fst (if is_polynomial x e then (e, Num 0) else (Num 0, e))) = Some u /\ eval rho (snd (if is_polynomial x e then (e, Num 0) else (Num 0, e))) = Some w /\ u + w = v).
  { destruct (is_polynomial x e); cbn [fst snd]; [exists v, 0|exists 0, v]; rewrite num0, H; (split; [|split]); auto; lra. }
  destruct e; auto. clear SINGLE. rewrite eval_Add in H. revert v H. induction l as [|a l IH]; intros v H; cbn [fold_right].
  - rewrite esum_nil in H. injection H as <-. exists 0, 0. cbn [fst snd]. rewrite num0. (split; [|split]); auto. lra.
  - rewrite esum_cons in H. apply olift2_some in H as (y & z & Hy & Hz & ->). destruct (IH z Hz) as (u & w & Hu & Hw & E).
    destruct (is_polynomial x a); cbn [fst snd].
    + exists (u + y), w. split; [now apply (gadd_val I G HG)|]. split; auto. lra.
    + exists u, (w + y). split; auto. split; [now apply (gadd_val I G HG)|]. lra.
Qed.
Lemma isolate_poly e x : polyD x (dom e) (fst (isolate_polynomial_part G e x)).
Proof.
  unfold isolate_polynomial_part.
  assert (SINGLE : polyD x (dom e) (fst (if is_polynomial x e then (e, Num 0) else (Num 0, e)))).
  { destruct (is_polynomial x e) eqn:P; cbn [fst]; [now apply polyD_is|apply polyD_0]. }
  destruct e; auto. clear SINGLE. induction l as [|a l IH]; cbn [fold_right]; [apply polyD_0|].
  assert (IH' : polyD x (dom (Add (a :: l))) (fst (fold_right (fun a pr => if is_polynomial x a then (gadd G (fst pr) a, snd pr) else (fst pr, gadd G (snd pr) a)) (Num 0, Num 0) l))).
  { eapply polyD_mono; [|exact IH]. intros r H. now apply dom_add_cons in H. }
  destruct (is_polynomial x a) eqn:P; cbn [fst]; auto. apply polyD_add; auto. eapply polyD_mono; [|now apply polyD_is]. intros r H. now apply dom_add_cons in H.
Qed.
Lemma isolate_rest e x : is_polynomial x e = true -> snd (isolate_polynomial_part G e x) = Num 0.
Proof.
  intros P. unfold isolate_polynomial_part. destruct e; try (now rewrite P). 
  destruct (forallb (is_polynomial x) l) eqn:F.
  - clear P. induction l as [|a l IH]; auto. cbn [forallb] in F. apply andb_true_iff in F as [F1 F2]. cbn [fold_right]. rewrite F1. cbn [snd]. auto.
  - cbn [is_polynomial] in P. rewrite F, orb_false_r in P. cbn [is_scalar_representation] in P. exfalso. assert (X : forallb (is_polynomial x) l = true); [|congruence].
    apply forallb_forall. intros a Ha. rewrite forallb_forall in P. destruct a; cbn [is_polynomial]; rewrite ?(P _ Ha); auto.
Qed.
Theorem isolate_ok e x p q : isolate_polynomial_part G e x = (p, q) ->
  (forall rho v, eval rho e = Some v -> eval rho (Add [p; q]) = Some v) /\ polynomial_where_defined I x e p /\ (is_polynomial x e = true -> q = Num 0).
Proof.
  intros E. assert (Ep : p = fst (isolate_polynomial_part G e x)) by now rewrite E. assert (Eq : q = snd (isolate_polynomial_part G e x)) by now rewrite E. split; [|split].
  - intros rho v H. destruct (isolate_val rho e x v H) as (u & w & Hu & Hw & <-). rewrite eval_Add2, Ep, Eq, Hu, Hw. reflexivity.
  - intros rho. destruct (isolate_poly e x rho) as [c Hc]. exists c. intros t v H. rewrite Ep. apply Hc. now exists v.
  - intros P. rewrite Eq. now apply isolate_rest.
Qed.

(** * Exponentials *)
Definition dval (rho : string -> R) (x : string) (l : list term) : option R := eval rho (exp_sum x l).
Lemma dval_cons rho x a p q l : dval rho x ((a, p, q) :: l) = olift2 Rplus (eval rho (Mul [Pow a (Sym x); Add [p; q]])) (dval rho x l).
Proof. unfold dval, exp_sum. rewrite !eval_Add. cbn [map]. now rewrite esum_cons. Qed.
Lemma term_val rho x a p q v : eval rho (Mul [Pow a (Sym x); Add [p; q]]) = Some v <-> exists b u w, eval rho (Pow a (Sym x)) = Some b /\ eval rho p = Some u /\ eval rho q = Some w /\ v = b * (u + w).
Proof.
  rewrite eval_Mul2, olift2_some, eval_Add2. split.
  - intros (b & y & Hb & Hy & ->). apply olift2_some in Hy as (u & w & Hu & Hw & ->). exists b, u, w. auto.
  - intros (b & u & w & Hb & Hu & Hw & ->). exists b, (u + w). rewrite Hu, Hw. cbn. auto.
Qed.
Lemma exp_factor_val rho x base p q l b u w y : eval rho (Pow base (Sym x)) = Some b -> eval rho p = Some u -> eval rho q = Some w -> dval rho x l = Some y ->
  dval rho x (exp_factor G base (p, q) l) = Some (y + b * (u + w)).
Proof.
  intros Hb Hu Hw. revert y. induction l as [|[[a p'] q'] l IH]; intros y Hy; cbn [exp_factor fst snd].
  - unfold dval, exp_sum in *. rewrite eval_Add in *. cbn [map] in *. rewrite esum_nil in Hy. injection Hy as <-. rewrite esum_1. apply term_val. exists b, u, w. rewrite (gadd0 rho p u Hu), (gadd0 rho q w Hw). (split; [|split; [|split]]); auto. lra.
  - rewrite dval_cons in Hy. apply olift2_some in Hy as (y1 & y2 & H1 & H2 & ->). apply term_val in H1 as (b' & u' & w' & Hb' & Hu' & Hw' & ->).
    destruct (expr_eqb base a) eqn:E; rewrite dval_cons.
    + apply expr_eqb_eq in E. subst a. rewrite Hb in Hb'. injection Hb' as <-. rewrite H2.
      assert (T : eval rho (Mul [Pow base (Sym x); Add [gadd G p' p; gadd G q' q]]) = Some (b * ((u' + u) + (w' + w)))).
      { apply term_val. exists b, (u' + u), (w' + w). split; auto. split; [now apply (gadd_val I G HG)|]. split; [now apply (gadd_val I G HG)|]. auto. }
      rewrite T. cbn. f_equal. lra.
    + rewrite (IH y2 H2). assert (T : eval rho (Mul [Pow a (Sym x); Add [p'; q']]) = Some (b' * (u' + w'))) by (apply term_val; exists b', u', w'; auto). rewrite T. cbn. f_equal. lra.
Qed.
(** The shape of the state. *)
Definition shape (x : string) (D : (string -> R) -> Prop) (l : list term) : Prop :=
  NoDup (map (fun t => fst (fst t)) l) /\ Forall (fun t => has x (fst (fst t)) = false /\ polyD x D (snd (fst t))) l.
Lemma exp_factor_keys base pq l a : In a (map (fun t : term => fst (fst t)) (exp_factor G base pq l)) <-> In a (map (fun t : term => fst (fst t)) l) \/ a = base.
Proof.
  induction l as [|[[b p] q] l IH]; cbn [exp_factor map In fst]; [intuition congruence|]. destruct (expr_eqb base b) eqn:E; cbn [map In fst].
  - apply expr_eqb_eq in E. subst b. intuition congruence.
  - rewrite IH. tauto.
Qed.
Lemma exp_factor_shape x D base p q l : shape x D l -> has x base = false -> polyD x D p -> shape x D (exp_factor G base (p, q) l).
Proof.
  intros [N F] Hb Hp. induction l as [|[[a p'] q'] l IH]; cbn [exp_factor fst snd].
  - split; cbn; [repeat constructor; auto|]. repeat constructor; auto. cbn. apply polyD_add; auto. apply polyD_0.
  - inversion F as [|? ? [F1 F2] F3]; subst. inversion N as [|? ? N1 N2]; subst. cbn [fst snd map] in *. destruct (expr_eqb base a) eqn:E.
    + split; cbn [map fst]; [now constructor|]. constructor; auto. cbn. split; auto. now apply polyD_add.
    + destruct (IH N2 F3) as [I1 I2]. split; cbn [map fst]; [|constructor; auto]. constructor; auto. rewrite exp_factor_keys. intros [H|H]; auto. subst. rewrite expr_eqb_refl in E. discriminate.
Qed.
Lemma shape_mono x (D D' : (string -> R) -> Prop) l : (forall r, D' r -> D r) -> shape x D l -> shape x D' l.
Proof. intros H [N F]. split; auto. eapply Forall_impl; [|exact F]. intros t [A B]. split; auto. eapply polyD_mono; eauto. Qed.
Lemma good_power_ok x e b : good_power x e = Some b -> e = Pow b (Sym x) /\ has x b = false.
Proof.
  destruct e; try discriminate. cbn. destruct (expr_eqb e2 (Sym x)) eqn:E; try discriminate. destruct (is_scalar_representation x e1) eqn:S1; try discriminate. intros [= <-].
  apply expr_eqb_eq in E. subst. split; auto. now apply is_scalar_representation_spec.
Qed.
Lemma last_power_ok rho x l b r v : last_power x l = Some (b, r) -> eprod I rho l = Some v -> has x b = false /\ exists y z, eval rho (Pow b (Sym x)) = Some y /\ eprod I rho r = Some z /\ v = y * z.
Proof.
  revert r v. induction l as [|f l IH]; intros r v; cbn [last_power]; [discriminate|]. rewrite eprod_cons. intros H Hv. apply olift2_some in Hv as (vf & vl & Hf & Hl & ->).
  destruct (last_power x l) as [[b' r']|].
  - injection H as <- <-. destruct (IH r' vl eq_refl Hl) as (A & y & z & Hy & Hz & ->). split; auto. exists y, (vf * z). rewrite eprod_cons, Hf, Hz. split; auto. split; auto. lra.
  - destruct (good_power x f) as [b'|] eqn:P; [|discriminate]. injection H as <- <-. apply good_power_ok in P as [-> P]. split; auto. exists vf, vl. auto.
Qed.
Lemma last_power_fresh x l b r : last_power x l = Some (b, r) -> has x b = false.
Proof.
  revert r. induction l as [|f l IH]; intros r; cbn [last_power]; [discriminate|].
  destruct (last_power x l) as [[b' r']|]; [intros [= <- <-]; eauto|]. destruct (good_power x f) as [b'|] eqn:P; [|discriminate]. intros [= <- <-]. now apply good_power_ok in P.
Qed.
Lemma rpow_1 y : rpow 1 y = Some 1.
Proof.
  unfold rpow. destruct (as_int y) as [z|].
  - destruct (Req_EM_T 1 0); [lra|]. f_equal. destruct z; cbn; auto; rewrite pow1; lra.
  - destruct (Rlt_dec 0 1); [|lra]. f_equal. unfold Rpower. rewrite ln_1, Rmult_0_r. apply exp_0.
Qed.
Lemma pow_one rho x : eval rho (Pow (Num 1) (Sym x)) = Some 1.
Proof. cbn [Ast.eval obind]. rewrite rv_1. apply rpow_1. Qed.
Lemma factor_val rho x base e l b v y : eval rho (Pow base (Sym x)) = Some b -> eval rho e = Some v -> dval rho x l = Some y ->
  dval rho x (exp_poly_decomposition_factor G base e x l) = Some (y + b * v).
Proof.
  intros Hb Hv Hy. unfold exp_poly_decomposition_factor. destruct (isolate_val rho e x v Hv) as (u & w & Hu & Hw & <-).
  destruct (isolate_polynomial_part G e x) as [p q]. now apply exp_factor_val.
Qed.
Lemma factor_shape x (D : (string -> R) -> Prop) base e l : (forall r, D r -> dom e r) -> shape x D l -> has x base = false -> shape x D (exp_poly_decomposition_factor G base e x l).
Proof.
  intros HD Hs Hb. unfold exp_poly_decomposition_factor. pose proof (isolate_poly e x) as P. destruct (isolate_polynomial_part G e x) as [p q]. cbn in P. apply exp_factor_shape; auto. eapply polyD_mono; eauto.
Qed.
Lemma summand_val rho x e l v y : eval rho e = Some v -> dval rho x l = Some y -> dval rho x (exp_poly_decomposition_summand G x e l) = Some (y + v).
Proof.
  intros Hv Hy.
  assert (ONE : dval rho x (exp_poly_decomposition_factor G (Num 1) e x l) = Some (y + v)).
  { rewrite (factor_val rho x (Num 1) e l 1 v y); auto using pow_one. f_equal. lra. }
  unfold exp_poly_decomposition_summand. destruct e; auto.
  - rewrite eval_Mul in Hv. destruct (last_power x l0) as [[b r]|] eqn:P; auto. destruct (last_power_ok rho x l0 b r v P Hv) as (_ & b' & z & Hb & Hz & ->).
    apply factor_val; auto. apply (mul_all_ok I G HG). exact Hz.
  - destruct (good_power x (Pow e1 e2)) as [b|] eqn:P; auto. apply good_power_ok in P as [E P]. injection E as -> ->.
    rewrite (factor_val rho x b (Num 1) l v 1 y); auto using num1. f_equal. lra.
Qed.
Lemma summand_shape x (D : (string -> R) -> Prop) e l : (forall r, D r -> dom e r) -> shape x D l -> shape x D (exp_poly_decomposition_summand G x e l).
Proof.
  intros HD Hs. assert (ONE : shape x D (exp_poly_decomposition_factor G (Num 1) e x l)) by (apply factor_shape; auto).
  unfold exp_poly_decomposition_summand. destruct e; auto.
  - destruct (last_power x l0) as [[b r]|] eqn:P; auto. pose proof (last_power_fresh x l0 b r P) as Fb. apply factor_shape; auto.
    intros rho Hr. destruct (HD rho Hr) as [v Hv]. rewrite eval_Mul in Hv. destruct (last_power_ok rho x l0 b r v P Hv) as (_ & b' & z & Hb & Hz & ->). exists z. apply (mul_all_ok I G HG). exact Hz.
  - destruct (good_power x (Pow e1 e2)) as [b|] eqn:P; auto. apply good_power_ok in P as [E P]. injection E as -> ->. apply factor_shape; auto. intros r _. exists 1. apply num1.
Qed.
Theorem exp_poly_ok simplify e x : (forall e, refines I e (simplify e)) ->
  let l := exp_poly_decomposition G simplify e x in
  (forall rho v, eval rho e = Some v -> eval rho (exp_sum x l) = Some v) /\
  NoDup (map (fun t => fst (fst t)) l) /\
  Forall (fun t => has x (fst (fst t)) = false /\ polynomial_where_defined I x e (snd (fst t))) l.
Proof.
  intros HS l.
  assert (V : forall rho v, eval rho (simplify e) = Some v -> dval rho x l = Some v).
  { intros rho v H. unfold l, exp_poly_decomposition.
    assert (SINGLE : dval rho x (exp_poly_decomposition_summand G x (simplify e) []) = Some v) by (rewrite (summand_val rho x (simplify e) [] v 0); auto; f_equal; lra).
    destruct (simplify e); auto. clear SINGLE l. rename l0 into l. rewrite eval_Add in H. revert v H. induction l as [|a l IH]; intros v H; cbn [fold_right].
    - exact H.
    - rewrite esum_cons in H. apply olift2_some in H as (u & w & Hu & Hw & ->). rewrite (summand_val rho x a _ u w); auto. f_equal. lra. }
  assert (SH : shape x (dom (simplify e)) l).
  { unfold l, exp_poly_decomposition. assert (EMP : forall D, shape x D []) by (intros D; split; constructor).
    assert (SINGLE : shape x (dom (simplify e)) (exp_poly_decomposition_summand G x (simplify e) [])) by (apply summand_shape; auto).
    destruct (simplify e); auto. clear SINGLE l V. rename l0 into l. induction l as [|a l IH]; cbn [fold_right]; auto.
    apply summand_shape; [intros r H; now apply dom_add_cons in H|]. eapply shape_mono; [|exact IH]. intros r H. now apply dom_add_cons in H. }
  split; [intros rho v H; apply V, HS, H|]. destruct SH as [N F]. split; auto. eapply Forall_impl; [|exact F].
  intros [[a p] q] [A B]. split; auto. intros rho. destruct (B rho) as [c Hc]. exists c. intros t v H. apply Hc. exists v. apply HS, H.
Qed.
End Decomp.
