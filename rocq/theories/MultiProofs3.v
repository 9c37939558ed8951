From Coq Require Import ZArith QArith Qcanon Reals List String Bool Lia Lra.
From Verif Require Import Ast ExprModel ExprSpec ExprProofs1 SeqInterp ElimProofs MultiModel MultiSpec MultiProofs MultiProofs2.
Import ListNotations.
Local Open Scope list_scope.
Local Open Scope R_scope.

Lemma Forall2_len {A B} (P : A -> B -> Prop) l m : Forall2 P l m -> List.length l = List.length m.
Proof. induction 1; cbn; auto. Qed.
Section P3.
Variables (I : interp) (X : Z -> list Z -> R) (G : ginac).
Let J := with_X I X.
Hypothesis HG : ginac_ok J G.
Hypothesis NG : adds_no_binders G.

Fixpoint bind (rho : string -> R) (ps : list expr) (us : list Z) : string -> R :=
  match ps, us with
  | Sym s :: ps, u :: us => upd (bind rho ps us) s (IZR u)
  | _ :: ps, _ :: us => bind rho ps us
  | _, _ => rho
  end.
Lemma bind_out rho ps us s : ~ In s (parameters ps) -> bind rho ps us s = rho s.
Proof.
  revert us. induction ps as [|p ps IH]; intros [|u us] H; cbn [bind]; auto; [destruct p; auto|].
  destruct p; cbn in H; try (apply IH; exact H). unfold upd. destruct (String.eqb s s0) eqn:E; [apply String.eqb_eq in E; subst; tauto|]. apply IH. tauto.
Qed.
Lemma matches_num ps ts q : forall j, matches ps ts = Some true -> nth_error ps j = Some (Num q) -> nth_error ts j = Some (Num q).
Proof.
  revert ts. induction ps as [|p ps IH]; intros ts j Hm Hp; [destruct j; discriminate|].
  destruct j as [|j].
  - cbn in Hp. assert (p = Num q) by congruence. subst p. cbn in Hm. destruct ts as [|t ts]; [discriminate|].
    destruct t; try discriminate. destruct (Qc_eqb q0 q) eqn:E; [|discriminate]. apply Qc_eqb_eq in E. subst. reflexivity.
  - destruct ts as [|t ts]; cbn in Hm.
    + destruct p; try discriminate Hm; assert (A := IH [] j Hm Hp); destruct j; discriminate A.
    + cbn [nth_error]. destruct p; try exact (IH ts j Hm Hp).
      destruct t; try discriminate. destruct (Qc_eqb q1 q0); [|discriminate]. exact (IH ts j Hm Hp).
Qed.
Lemma plug_ok rho : forall ps ts us value e v, List.length ps = List.length ts -> plain_parameters ps ->
  (forall j q, nth_error ps j = Some (Num q) -> nth_error ts j = Some (Num q)) ->
  not_captured ps ts -> Forall no_binders ts -> Forall2 (fun t u => eval J rho t = Some (IZR u)) ts us -> no_binders value ->
  plug G ps ts value = Some e -> eval J (bind rho ps us) value = Some v -> eval J rho e = Some v.
Proof.
  induction ps as [|p ps IH]; intros ts us value e v L PP HN NC NB Hu NV Hp He.
  - destruct ts; [|discriminate]. cbn in Hp. assert (e = value) by congruence. subst e. exact He.
  - destruct ts as [|t ts]; [discriminate|]. inversion Hu as [|? u ? us' Ht Hus]; subst. cbn [not_captured] in NC. destruct NC as [NC1 NC2].
    inversion NB; subst. inversion PP as [|? ? Pp PPs]; subst. cbn [plug] in Hp. cbn in L.
    assert (HN' : forall j q, nth_error ps j = Some (Num q) -> nth_error ts j = Some (Num q)) by (intros j q; exact (HN (S j) q)).
    refine (IH ts us' _ e v (eq_add_S _ _ L) PPs HN' NC2 H2 Hus _ Hp _); [now apply subst_nb|].
    destruct p; try contradiction.
    + assert (A := HN 0%nat q eq_refl). cbn in A. assert (t = Num q) by congruence. subst t. cbn [bind] in He.
      apply (subst_same J G HG); auto.
    + cbn [bind] in He. eapply (substitute_ok J G HG); [now apply nb_capture| |exact He].
      rewrite <- Ht. apply eval_agree. intros s' Hs. apply bind_out. intros A. rewrite (NC1 s' A) in Hs. discriminate.
Qed.
Lemma bind_values rho : forall ps us, NoDup (parameters ps) -> plain_parameters ps -> List.length ps = List.length us ->
  (forall j q, nth_error ps j = Some (Num q) -> exists u, nth_error us j = Some u /\ rv q = IZR u) ->
  Forall2 (fun p z => eval I (bind rho ps us) p = Some (IZR z)) ps us.
Proof.
  induction ps as [|p ps IH]; intros [|u us] ND PP L HN; try discriminate; [constructor|].
  inversion PP as [|? ? Pp PPs]; subst. cbn in L. constructor.
  - destruct p; try contradiction; cbn [eval].
    + destruct (HN 0%nat q eq_refl) as (u' & Hu & E). cbn in Hu. congruence.
    + cbn [bind]. unfold upd. now rewrite String.eqb_refl.
  - assert (ND' : NoDup (parameters ps)) by (destruct p; auto; cbn in ND; now inversion ND).
    assert (A := IH us ND' PPs (eq_add_S _ _ L) (fun j q => HN (S j) q)).
    destruct p; try contradiction; auto. cbn [bind]. cbn in ND. inversion ND as [|? ? Ns _]; subst.
    assert (B : forall l m, Forall2 (fun p z => eval I (bind rho ps us) p = Some (IZR z)) l m -> (forall s', In s' (parameters l) -> s' <> s) -> plain_parameters l ->
      Forall2 (fun p z => eval I (upd (bind rho ps us) s (IZR u)) p = Some (IZR z)) l m).
    { induction 1 as [|a z l m Ha Hl IHl]; intros Hs Hp; constructor.
      - inversion Hp as [|? ? Pa _]; subst. rewrite eval_upd_fresh; auto. destruct a as [| |t| | | | | |]; try contradiction; auto. cbn.
        apply String.eqb_neq. intros E. apply (Hs t); [now left|auto].
      - inversion Hp; subst. apply IHl; auto. intros s' Hs'. apply Hs. cbn. apply in_or_app. now right. }
    apply B; auto. intros s' Hs' ->. contradiction.
Qed.

Theorem condition_inserted rho k ps value ts e v : plain_parameters ps -> NoDup (parameters ps) -> List.length ps = List.length ts ->
  no_binders value -> Forall no_binders ts -> not_captured ps ts ->
  condition_holds I X rho k ps value -> conditions_loop G [(Num (zq k), ps, value)] (x2 (Num (zq k)) ts) = Some e ->
  eval J rho (x2 (Num (zq k)) ts) = Some v -> eval J rho e = Some v.
Proof.
  intros PP ND L NV NT NC HC HL Hv. unfold x2 in HL. cbn [conditions_loop is_x2] in HL.
  rewrite expr_eqb_refl in HL. rewrite (String.eqb_refl "x2") in HL.
  destruct (matches ps ts) as [[|]|] eqn:Em; [| |discriminate].
  2:{ cbn [conditions_loop] in HL. assert (e = x2 (Num (zq k)) ts) by (unfold x2; congruence). now subst. }
  destruct (plug G ps ts value) as [new|] eqn:Ep; [|discriminate]. cbn [conditions_loop] in HL. assert (e = new) by congruence. subst e.
  unfold x2 in Hv. cbn [eval] in Hv. rewrite omap_cons in Hv. cbn [eval] in Hv. destruct (omap (eval J rho) ts) as [vals|] eqn:Eo; [|discriminate].
  cbn [obind] in Hv. unfold J in Hv at 1. cbn [ifun with_X] in Hv. change (String.eqb "x2" "x2") with true in Hv. cbv match in Hv.
  cbn [all_ints] in Hv. rewrite rv_zq, as_int_IZR in Hv. destruct (all_ints vals) as [us|] eqn:Ea; [|discriminate].
  assert (Hus : Forall2 (fun t u => eval J rho t = Some (IZR u)) ts us).
  { clear - Eo Ea. revert vals us Eo Ea. induction ts as [|t ts IH]; intros vals us Eo Ea.
    - cbn in Eo. injection Eo as <-. cbn in Ea. injection Ea as <-. constructor.
    - rewrite omap_cons in Eo. destruct (eval J rho t) as [y|] eqn:Ey; [|discriminate]. destruct (omap (eval J rho) ts) as [ys|] eqn:Eys; [|discriminate].
      injection Eo as <-. cbn in Ea. destruct (as_int y) as [z|] eqn:Ez; [|discriminate]. destruct (all_ints ys) as [zs|] eqn:Ezs; [|discriminate].
      injection Ea as <-. apply as_int_spec in Ez. subst y. constructor; auto. eapply IH; eauto. }
  assert (HN := fun j q => matches_num ps ts q j Em).
  assert (Lu : List.length ps = List.length us) by (rewrite L; eapply Forall2_len; eauto).
  assert (V : v = X k us) by congruence. subst v.
  eapply plug_ok; eauto. apply HC; [intros s Hs; now apply bind_out|]. apply bind_values; auto.
  intros j q Hq. apply HN in Hq. assert (exists u, nth_error us j = Some u) as [u Hu].
  { destruct (nth_error us j) eqn:E; eauto. apply nth_error_None in E. assert (j < List.length ts)%nat by (apply nth_error_Some; congruence). lia. }
  exists u. split; auto.
  assert (A : forall (l : list expr) (m : list Z), Forall2 (fun t u => eval J rho t = Some (IZR u)) l m -> forall j t u, nth_error l j = Some t -> nth_error m j = Some u -> eval J rho t = Some (IZR u)).
  { induction 1; intros [|j'] t' u' H1 H2; cbn in *; try discriminate; [congruence|eauto]. }
  assert (B := A _ _ Hus j _ _ Hq Hu). cbn in B. congruence.
Qed.
End P3.
