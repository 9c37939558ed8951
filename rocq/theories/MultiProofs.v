From Coq Require Import ZArith QArith Qcanon Reals List String Bool Lia Lra.
From Verif Require Import Ast ExprModel ExprSpec ExprProofs1 SeqInterp DecompModel NonLinModel VerifySpec ElimProofs MultiModel MultiSpec.
Import ListNotations.
Local Open Scope list_scope.
Local Open Scope R_scope.

Section J.
Variables (J : interp) (G : ginac).
Hypothesis HG : ginac_ok J G.
Lemma subst_same o o' e rho : no_binders e -> (forall u, eval J rho o = Some u -> eval J rho o' = Some u) ->
  forall v, eval J rho e = Some v -> eval J rho (substitute G o o' e) = Some v.
Proof.
  intros NB Ho. induction e using expr_ind'; intros v Hv; cbn [substitute];
    match goal with |- context [if expr_eqb ?a ?b then _ else _] => destruct (expr_eqb a b) eqn:E; [apply expr_eqb_eq in E; rewrite E in Hv; auto|clear E] end; auto.
  - apply (add_all_ok J G HG). rewrite eval_Add in *. cbn in NB. apply no_binders_all in NB.
    eapply (esum_map J rho rho); [|exact Hv]. rewrite Forall_forall in *. intros a Ha u Hu. apply H; auto.
  - apply (mul_all_ok J G HG). rewrite eval_Mul in *. cbn in NB. apply no_binders_all in NB.
    eapply (eprod_map J rho rho); [|exact Hv]. rewrite Forall_forall in *. intros a Ha u Hu. apply H; auto.
  - apply (gpow_ok _ _ HG). destruct NB as [N1 N2]. cbn [eval] in *.
    destruct (eval J rho e1) as [x|]; [|discriminate]. cbn [obind] in *.
    destruct (eval J rho e2) as [y|]; [|discriminate]. cbn [obind] in *.
    rewrite (IHe1 N1 x eq_refl), (IHe2 N2 y eq_refl). exact Hv.
  - apply (gfun_ok _ _ HG). cbn in NB. apply no_binders_all in NB. cbn [eval] in *.
    destruct (omap (eval J rho) l) as [vs|] eqn:E; [|discriminate].
    rewrite (omap_map J rho rho _ l vs); auto. rewrite Forall_forall in *. intros a Ha u Hu. apply H; auto.
  - destruct NB.
  - destruct NB.
Qed.
Lemma nb_capture s r e : no_binders e -> no_capture s r e.
Proof.
  induction e using expr_ind'; cbn; auto; try tauto;
    rewrite no_binders_all, no_capture_all; rewrite !Forall_forall in *; intros A a Ha; auto.
Qed.
Hypothesis NG : adds_no_binders G.
Lemma add_all_nb l : Forall no_binders l -> no_binders (add_all G l).
Proof. induction 1; cbn; auto. now apply NG. Qed.
Lemma mul_all_nb l : Forall no_binders l -> no_binders (mul_all G l).
Proof. induction 1; cbn; auto. now apply NG. Qed.
Lemma subst_nb o o' e : no_binders o' -> no_binders e -> no_binders (substitute G o o' e).
Proof.
  intros Ho. induction e using expr_ind'; intros NB; cbn [substitute];
    match goal with |- context [if expr_eqb ?a ?b then _ else _] => destruct (expr_eqb a b); [auto|] end; auto.
  - apply add_all_nb. cbn in NB. apply no_binders_all in NB. rewrite Forall_map. rewrite Forall_forall in *. auto.
  - apply mul_all_nb. cbn in NB. apply no_binders_all in NB. rewrite Forall_map. rewrite Forall_forall in *. auto.
  - destruct NB. apply NG; auto.
  - apply NG. cbn in NB. apply no_binders_all in NB. rewrite Forall_map. rewrite Forall_forall in *. auto.
  - destruct NB.
  - destruct NB.
Qed.

Lemma esum_in rho l v o : eval J rho (Add l) = Some v -> In o l -> exists u, eval J rho o = Some u.
Proof.
  rewrite eval_Add. revert v. induction l as [|a l IH]; intros v Hv Ho; [destruct Ho|]. rewrite esum_cons in Hv.
  apply olift2_some in Hv as (x & y & Hx & Hy & _). destruct Ho as [<-|Ho]; eauto.
Qed.
Lemma eprod_in rho l v o : eval J rho (Mul l) = Some v -> In o l -> exists u, eval J rho o = Some u.
Proof.
  rewrite eval_Mul. revert v. induction l as [|a l IH]; intros v Hv Ho; [destruct Ho|]. rewrite eprod_cons in Hv.
  apply olift2_some in Hv as (x & y & Hx & Hy & _). destruct Ho as [<-|Ho]; eauto.
Qed.

Definition good rho (v : R) e := no_binders e /\ eval J rho e = Some v.
Lemma walk_ok leaf rho : (forall e v e', leaf e = Some e' -> good rho v e -> good rho v e') ->
  forall fuel e v e', walk G fuel leaf e = Some e' -> good rho v e -> good rho v e'.
Proof.
  intros HL. induction fuel as [|fuel IH]; intros e v e' E Hg; [discriminate|].
  cbn [walk] in E.
  set (loop := fix ops_loop (k i : nat) (ex : expr) : option expr := _) in E.
  assert (L : forall k i ex ex' , loop k i ex = Some ex' -> good rho v ex -> good rho v ex').
  { induction k as [|k IHk]; intros i ex ex' Ex Gx; [discriminate|].
    cbv fix delta [loop] in Ex; cbv beta match in Ex; fold loop in Ex; destruct ex; cbv match in Ex;
      try (match type of Ex with (if ?b then _ else _) = _ => destruct b; [discriminate|injection Ex as <-; exact Gx] end);
      try (injection Ex as <-; exact Gx).
    - destruct (nth_error l i) as [o|] eqn:Eo; [|injection Ex as <-; exact Gx].
      destruct (walk G fuel leaf o) as [o'|] eqn:Ew; [|discriminate].
      apply nth_error_In in Eo. destruct Gx as [NB Hv]. destruct (esum_in rho l v o Hv Eo) as [u Hu].
      assert (NBo : no_binders o) by (cbn in NB; apply no_binders_all in NB; rewrite Forall_forall in NB; auto).
      assert (Go' : good rho u o') by (apply (IH o u o' Ew); split; auto).
      destruct Go' as [N' H']. apply IHk in Ex; auto. split; [now apply subst_nb|].
      apply subst_same; auto. intros u' Hu'. congruence.
    - destruct (nth_error l i) as [o|] eqn:Eo; [|injection Ex as <-; exact Gx].
      destruct (walk G fuel leaf o) as [o'|] eqn:Ew; [|discriminate].
      apply nth_error_In in Eo. destruct Gx as [NB Hv]. destruct (eprod_in rho l v o Hv Eo) as [u Hu].
      assert (NBo : no_binders o) by (cbn in NB; apply no_binders_all in NB; rewrite Forall_forall in NB; auto).
      assert (Go' : good rho u o') by (apply (IH o u o' Ew); split; auto).
      destruct Go' as [N' H']. apply IHk in Ex; auto. split; [now apply subst_nb|].
      apply subst_same; auto. intros u' Hu'. congruence. }
  clearbody loop. destruct e as [| | |l|l| | | |]; try exact (HL _ _ _ E Hg);
    (destruct l as [|a1 [|a2 l]]; [exact (HL _ _ _ E Hg)|exact (HL _ _ _ E Hg)|exact (L _ _ _ _ E Hg)]).
Qed.
End J.

Lemma x_free_plain I x e : has_x_function e = false -> forall rho, eval (with_x I x) rho e = eval I rho e.
Proof.
  induction e using expr_ind'; intros Hx rho; cbn [eval has_x_function] in *; auto.
  - induction H as [|a l Ha Hl IH]; auto. cbn [existsb fold_right] in *. apply orb_false_iff in Hx as [H1 H2]. rewrite Ha, IH; auto.
  - induction H as [|a l Ha Hl IH]; auto. cbn [existsb fold_right] in *. apply orb_false_iff in Hx as [H1 H2]. rewrite Ha, IH; auto.
  - apply orb_false_iff in Hx as [H1 H2]. rewrite IHe1, IHe2; auto.
  - assert (A : existsb has_x_function l = false /\ f <> FX) by (destruct f; try discriminate; split; auto; discriminate).
    destruct A as [A Nf]. rewrite (omap_ext _ (eval I rho)).
    + destruct (omap _ l); cbn [obind]; auto. unfold with_x. cbn [ifun]. destruct f; auto. contradiction.
    + apply Forall_forall. intros a Ha. rewrite Forall_forall in H. apply H; auto. destruct (has_x_function a) eqn:E; auto.
      assert (existsb has_x_function l = true) by (apply existsb_exists; eauto). congruence.
  - rewrite !orb_false_iff in Hx. destruct Hx as [[H1 H2] H3]. rewrite IHe1, IHe2 by auto.
    destruct (eval I rho e1); cbn; auto. destruct (eval I rho e2); cbn; auto. destruct (as_int r); cbn; auto. destruct (as_int r0); cbn; auto.
    apply osum_ext. intros i _. apply IHe3. auto.
  - rewrite !orb_false_iff in Hx. destruct Hx as [[H1 H2] H3]. rewrite IHe1, IHe2 by auto.
    destruct (eval I rho e1); cbn; auto. destruct (eval I rho e2); cbn; auto. destruct (as_int r); cbn; auto. destruct (as_int r0); cbn; auto.
    apply oprod_ext. intros i _. apply IHe3. auto.
Qed.
