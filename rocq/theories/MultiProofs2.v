From Coq Require Import ZArith QArith Qcanon Reals List String Bool Lia Lra.
From Verif Require Import Ast ExprModel ExprSpec ExprProofs1 SeqInterp DecompModel NonLinModel VerifySpec ElimProofs MultiModel MultiSpec MultiProofs.
Import ListNotations.
Local Open Scope list_scope.
Local Open Scope R_scope.

Fixpoint seti (zs : list Z) (i : nat) (m : Z) : list Z :=
  match zs, i with [], _ => [] | _ :: zs, O => m :: zs | z :: zs, S i => z :: seti zs i m end.
Lemma seti_length zs i m : List.length (seti zs i m) = List.length zs.
Proof. revert i. induction zs; intros [|i]; cbn; auto. Qed.
Lemma seti_nth zs i m j : nth_error (seti zs i m) j = if Nat.eqb j i then option_map (fun _ => m) (nth_error zs j) else nth_error zs j.
Proof.
  revert i j. induction zs as [|z zs IH]; intros [|i] [|j]; cbn; auto.
  - now destruct (Nat.eqb j i).
Qed.
Lemma seti_same zs i : seti zs i (nth i zs 0%Z) = zs.
Proof. revert i. induction zs; intros [|i]; cbn; auto. now rewrite IHzs. Qed.
Lemma seti_seti zs i a b : seti (seti zs i a) i b = seti zs i b.
Proof. revert i. induction zs; intros [|i]; cbn; auto. now rewrite IHzs. Qed.

Lemma all_ints_map zs : all_ints (map IZR zs) = Some zs.
Proof. induction zs; cbn; auto. now rewrite as_int_IZR, IHzs. Qed.
Lemma omap_nth (f : expr -> option R) args zs : List.length args = List.length zs ->
  (forall j a z, nth_error args j = Some a -> nth_error zs j = Some z -> f a = Some (IZR z)) -> omap f args = Some (map IZR zs).
Proof.
  revert zs. induction args as [|a args IH]; intros [|z zs] L H; cbn in L; try discriminate; auto.
  rewrite omap_cons, (H 0%nat a z eq_refl eq_refl), (IH zs); auto. intros j b w Hb Hw. exact (H (S j) b w Hb Hw).
Qed.

Lemma point_out rho vs zs s : ~ In s vs -> point rho vs zs s = rho s.
Proof.
  revert zs. induction vs as [|v vs IH]; intros [|z zs] H; cbn; auto. unfold upd. destruct (String.eqb s v) eqn:E.
  - apply String.eqb_eq in E. subst. destruct H. now left.
  - apply IH. intros A. apply H. now right.
Qed.
Lemma point_at rho vs zs j v z : NoDup vs -> nth_error vs j = Some v -> nth_error zs j = Some z -> point rho vs zs v = IZR z.
Proof.
  revert zs j. induction vs as [|u vs IH]; intros [|w zs] [|j] ND Hv Hz; cbn in *; try discriminate.
  - injection Hv as <-. injection Hz as <-. unfold upd. now rewrite String.eqb_refl.
  - inversion ND; subst. unfold upd. destruct (String.eqb v u) eqn:E.
    + apply String.eqb_eq in E. subst. apply nth_error_In in Hv. contradiction.
    + eapply IH; eauto.
Qed.

Lemma filter_none i l : ~ In i l -> filter (fun j => Nat.eqb j i) l = [].
Proof.
  induction l as [|a l IH]; intros H; cbn; auto. destruct (Nat.eqb a i) eqn:E; [apply Nat.eqb_eq in E; subst; destruct H; now left|].
  apply IH. intros A. apply H. now right.
Qed.
Lemma filter_one i l : NoDup l -> In i l -> filter (fun j => Nat.eqb j i) l = [i].
Proof.
  induction 1 as [|a l Ha _ IH]; intros Hi; [destruct Hi|]. cbn. destruct (Nat.eqb a i) eqn:E.
  - apply Nat.eqb_eq in E. subst. now rewrite filter_none.
  - apply IH. destruct Hi as [->|]; auto. now rewrite Nat.eqb_refl in E.
Qed.

Lemma in_numbered (l : list expr) : forall a j b, In (j, b) (combine (seq a (List.length l)) l) <-> (a <= j)%nat /\ nth_error l (j - a) = Some b.
Proof.
  induction l as [|c l IH]; intros a j b; cbn [List.length seq combine].
  - split; [intros []|]. intros [_ H]. destruct (j - a)%nat; discriminate.
  - cbn [In]. rewrite IH. split.
    + intros [E|[H1 H2]].
      * injection E as <- <-. split; [lia|]. now rewrite Nat.sub_diag.
      * split; [lia|]. replace (j - a)%nat with (S (j - S a)) by lia. exact H2.
    + intros [H1 H2]. destruct (Nat.eq_dec a j) as [->|N].
      * left. rewrite Nat.sub_diag in H2. cbn in H2. congruence.
      * right. split; [lia|]. replace (j - a)%nat with (S (j - S a)) in H2 by lia. exact H2.
Qed.
Section Main.
Variables (I : interp) (X : Z -> list Z -> R) (G : ginac) (equal : expr -> expr -> bool) (solve : expr -> option expr).
Let J (x : nat -> R) := with_x (with_X I X) x.
Hypothesis HG : forall x, ginac_ok (J x) G.
Hypothesis NG : adds_no_binders G.
Variables (k : Z) (vs : list string) (i K : nat).
Hypothesis ND : NoDup vs.
Hypothesis Nr : ~ In "n_replacement"%string vs.
Hypothesis Hi : (i < List.length vs)%nat.
Let ws := map rename vs.
Let w := nth i ws EmptyString.

Lemma rename_n v : rename v <> "n"%string.
Proof. unfold rename. destruct (String.eqb v "n") eqn:E; [discriminate|]. now apply String.eqb_neq. Qed.
Lemma rename_inj u v : In u vs -> In v vs -> rename u = rename v -> u = v.
Proof.
  unfold rename. intros Hu Hv. destruct (String.eqb u "n") eqn:E1, (String.eqb v "n") eqn:E2; intros E;
    try apply String.eqb_eq in E1; try apply String.eqb_eq in E2; subst; auto; contradiction.
Qed.
Lemma ws_length : List.length ws = List.length vs. Proof. apply map_length. Qed.
Lemma ws_nth j v : nth_error vs j = Some v -> nth_error ws j = Some (rename v).
Proof. intros H. unfold ws. rewrite nth_error_map, H. reflexivity. Qed.
Lemma nth_of {A} (l : list A) j d : (j < List.length l)%nat -> nth_error l j = Some (nth j l d).
Proof. apply nth_error_nth'. Qed.
Lemma w_nth : nth_error ws i = Some w.
Proof. apply nth_of. now rewrite ws_length. Qed.
Lemma w_rename : exists v, nth_error vs i = Some v /\ w = rename v.
Proof.
  exists (nth i vs EmptyString). rewrite (nth_of vs i EmptyString Hi). split; auto.
  assert (A := w_nth). rewrite (ws_nth i _ (nth_of vs i EmptyString Hi)) in A. congruence.
Qed.
Lemma ws_w j v : nth_error vs j = Some v -> rename v = w -> j = i.
Proof.
  intros Hj E. destruct w_rename as (u & Hu & Ew). rewrite Ew in E.
  apply rename_inj in E; [|eapply nth_error_In; eauto|eapply nth_error_In; eauto]. subst u.
  eapply (proj1 (NoDup_nth_error vs) ND); [|congruence]. apply nth_error_Some. congruence.
Qed.

(** The dummy analysis. *)
Lemma dummy_regular terms : (forall t, In t terms -> regular_term k ws i K t) -> terms <> [] -> real_vars (Num (zq k)) ws terms = [i].
Proof.
  intros HT HN. unfold real_vars.
  rewrite (filter_ext_in _ (fun j => Nat.eqb j i)).
  - apply filter_one; [apply NoDup_rev, seq_NoDup|]. apply -> in_rev. apply in_seq. rewrite ws_length. lia.
  - intros j Hj. apply in_rev, in_seq in Hj. rewrite ws_length in Hj. unfold dummy.
    destruct (Nat.eqb j i) eqn:E.
    + apply Nat.eqb_eq in E. subst j. destruct terms as [|t terms]; [contradiction|]. cbn [forallb].
      destruct (HT t (or_introl eq_refl)) as (args & c & -> & La & _ & Ha). cbn [x2_index]. rewrite expr_eqb_refl.
      replace (neglects ws i _) with false; [reflexivity|]. symmetry. unfold neglects. cbn [x2_args].
      apply not_true_is_false. intros A. rewrite forallb_forall in A.
      specialize (A (i, Add [Sym (nth i ws EmptyString); Num (zq c)])).
      cbn [fst snd] in A. rewrite Nat.eqb_refl in A. cbn [is_a_number expr_eqb orb] in A. discriminate A.
      apply in_numbered. split; [lia|]. rewrite Nat.sub_0_r, Ha by (rewrite ws_length; auto). now rewrite Nat.eqb_refl.
    + apply negb_false_iff. apply forallb_forall. intros t Ht.
      destruct (HT t Ht) as (args & c & -> & La & _ & Ha). cbn [x2_index]. rewrite expr_eqb_refl. unfold neglects. cbn [x2_args].
      apply forallb_forall. intros [l b] Hb. apply in_numbered in Hb as [_ Hb]. rewrite Nat.sub_0_r in Hb. cbn [fst snd].
      assert (Ll : (l < List.length ws)%nat) by (rewrite <- La; apply nth_error_Some; congruence).
      rewrite (Ha l Ll) in Hb. injection Hb as <-.
      destruct (Nat.eqb l j) eqn:E2.
      * apply Nat.eqb_eq in E2. subst l. rewrite E. rewrite expr_eqb_refl. apply orb_true_r.
      * assert (D : forall l', (l' < List.length ws)%nat -> Nat.eqb l' j = false -> has (nth j ws EmptyString) (Sym (nth l' ws EmptyString)) = false).
        { intros l' Hl' En. cbn. apply String.eqb_neq. intros E'.
          rewrite ws_length in Hl'. assert (A1 := ws_nth l' _ (nth_of vs l' EmptyString Hl')). assert (A2 := ws_nth j _ (nth_of vs j EmptyString (proj2 Hj))).
          rewrite (nth_error_nth _ _ _ A1), (nth_error_nth _ _ _ A2) in E'.
          apply rename_inj in E'; [|apply nth_In; lia|apply nth_In; lia].
          assert (l' = j); [|subst; now rewrite Nat.eqb_refl in En].
          eapply (proj1 (NoDup_nth_error vs) ND); auto. rewrite (nth_of vs l' EmptyString), (nth_of vs j EmptyString) by lia. congruence. }
        apply negb_true_iff. destruct (Nat.eqb l i) eqn:E3; [|now apply D].
        apply Nat.eqb_eq in E3. subst l. cbn [has existsb]. fold (has (nth j ws EmptyString) (Sym (nth i ws EmptyString))).
        rewrite (D i Ll); auto.
Qed.

Variables (rho : string -> R) (zs : list Z).
Hypothesis Lz : List.length zs = List.length vs.
Let rho1 := let r := point rho vs zs in upd r "n_replacement" (r "n"%string).
Let x (m : nat) : R := X k (seti zs i (Z.of_nat m)).
Let Jx := J x.

Lemma upd_same r s v : upd r s v s = v. Proof. unfold upd. now rewrite String.eqb_refl. Qed.
Lemma upd_other r s v t : t <> s -> upd r s v t = r t.
Proof. intros H. unfold upd. apply String.eqb_neq in H. now rewrite H. Qed.
Lemma rho1_at j v z : nth_error vs j = Some v -> nth_error zs j = Some z -> rho1 (rename v) = IZR z.
Proof.
  intros Hv Hz. unfold rho1, rename. destruct (String.eqb v "n") eqn:E.
  - apply String.eqb_eq in E. subst v. rewrite upd_same. eapply point_at; eauto.
  - rewrite upd_other; [eapply point_at; eauto|]. intros ->. apply nth_error_In in Hv. contradiction.
Qed.
Lemma eval_x2 sigma args ys : List.length args = List.length ys ->
  (forall j a z, nth_error args j = Some a -> nth_error ys j = Some z -> eval Jx sigma a = Some (IZR z)) ->
  eval Jx sigma (Fun (FOther "x2") (Num (zq k) :: args)) = Some (X k ys).
Proof.
  intros L H. cbn [eval]. rewrite omap_cons. cbn [eval]. rewrite (omap_nth (eval Jx sigma) args ys L H), rv_zq. cbn [obind].
  unfold Jx, J, with_x. cbn [ifun with_X]. cbn. rewrite as_int_IZR, all_ints_map. reflexivity.
Qed.
Lemma eval_x sigma a z : eval Jx sigma a = Some (IZR z) -> (0 <= z)%Z -> eval Jx sigma (Fun FX [a]) = Some (X k (seti zs i z)).
Proof.
  intros Ha Hz. cbn [eval]. rewrite omap_cons, Ha. cbn. rewrite as_int_IZR. apply Z.leb_le in Hz as Hz'. rewrite Hz'. unfold x. now rewrite Z2Nat.id.
Qed.
Lemma eval_x_inv sigma a v : eval Jx sigma (Fun FX [a]) = Some v -> exists z, eval Jx sigma a = Some (IZR z) /\ v = X k (seti zs i z).
Proof.
  cbn [eval]. rewrite omap_cons. destruct (eval Jx sigma a) as [u|]; cbn; [|discriminate]. destruct (as_int u) as [z|] eqn:E; [|discriminate].
  destruct (0 <=? z)%Z eqn:E0; [|discriminate]. intros H. apply as_int_spec in E. subst u. exists z. split; auto. apply Z.leb_le in E0.
  unfold x in H. rewrite Z2Nat.id in H; auto. congruence.
Qed.

(** The point at which the auxiliary recurrence is looked at: v_i and n are both [m]. *)
Section Sigma.
Variables (sigma : string -> R) (m : nat).
Hypothesis Sn : sigma "n"%string = INR m.
Hypothesis Sw : sigma w = INR m.
Hypothesis So : forall s, s <> "n"%string -> s <> w -> sigma s = rho1 s.

Lemma sigma_at j v z : nth_error vs j = Some v -> nth_error (seti zs i (Z.of_nat m)) j = Some z -> sigma (rename v) = IZR z.
Proof.
  intros Hv Hz. rewrite seti_nth in Hz. destruct (Nat.eqb j i) eqn:E.
  - apply Nat.eqb_eq in E. subst j. destruct w_rename as (u & Hu & Ew). assert (u = v) by congruence. subst u. rewrite <- Ew, Sw, INR_IZR_INZ.
    destruct (nth_error zs i); cbn in Hz; congruence.
  - rewrite So; [eapply rho1_at; eauto|apply rename_n|]. intros E'. apply (ws_w j v Hv) in E'. subst. now rewrite Nat.eqb_refl in E.
Qed.
Lemma sigma_rhs rhs : no_binders rhs -> has "n_replacement" rhs = false -> has_x_function rhs = false ->
  gives I X rho k vs rhs (seti zs i (Z.of_nat m)) -> eval Jx sigma (n_away G rhs) = Some (x m).
Proof.
  intros NB Hn Hx Hg. unfold n_away. eapply (substitute_ok Jx G (HG x)); [now apply nb_capture|reflexivity|].
  unfold Jx, J. rewrite x_free_plain by auto. unfold gives in Hg. unfold x. rewrite <- Hg. apply eval_agree.
  intros s Hs. assert (Ns : s <> "n_replacement"%string) by congruence.
  destruct (in_dec string_dec s vs) as [Hin|Hout].
  - apply In_nth_error in Hin as [j Hj]. assert (Lj : (j < List.length vs)%nat) by (apply nth_error_Some; congruence).
    assert (Hz := nth_of (seti zs i (Z.of_nat m)) j 0%Z). rewrite seti_length, Lz in Hz. specialize (Hz Lj).
    rewrite (point_at rho vs _ j s _ ND Hj Hz). rewrite <- (sigma_at j s _ Hj Hz).
    unfold rename. destruct (String.eqb s "n") eqn:E.
    + apply String.eqb_eq in E. subst s. now rewrite upd_same.
    + rewrite upd_other; auto. now apply String.eqb_neq.
  - rewrite (point_out rho vs _ s Hout).
    assert (Ww : forall t, t <> "n_replacement"%string -> ~ In t vs -> t <> w).
    { intros t Ht1 Ht2 ->. destruct w_rename as (u & Hu & Ew). apply nth_error_In in Hu. revert Ew. unfold rename. destruct (String.eqb u "n"); congruence. }
    destruct (string_dec s "n") as [->|N].
    + rewrite upd_same. assert (Nw : "n_replacement"%string <> w).
      { destruct w_rename as (u & Hu & Ew). apply nth_error_In in Hu. rewrite Ew. unfold rename. destruct (String.eqb u "n") eqn:E; [|congruence].
        apply String.eqb_eq in E. subst. contradiction. }
      rewrite So; [|discriminate|exact Nw]. unfold rho1. rewrite upd_same. now rewrite point_out.
    + rewrite upd_other; auto. rewrite So; auto. unfold rho1. rewrite upd_other; auto. now rewrite point_out.
Qed.

Lemma step_good st t v : regular_term k ws i K t -> (K <= m)%nat -> good Jx sigma v (snd st) ->
  fst (one_step G i st t) = Sym w /\ good Jx sigma v (snd (one_step G i st t)).
Proof.
  intros (args & c & -> & La & Hc & Ha) Hm [NB Hv]. rewrite ws_length in La, Ha.
  assert (Hai := Ha i Hi). rewrite Nat.eqb_refl in Hai.
  assert (Aa : arg_at i (Fun (FOther "x2") (Num (zq k) :: args)) = Add [Sym w; Num (zq c)]) by (apply nth_error_nth; exact Hai).
  unfold one_step. rewrite Aa. cbn [symbol_in ops find is_a_symbol fst snd]. split; [reflexivity|].
  assert (Nn : no_binders (gfun G FX [substitute G (Sym w) (Sym "n") (Add [Sym w; Num (zq c)])])).
  { apply (proj2 NG). constructor; [|constructor]. apply subst_nb; auto. exact Logic.I. cbn; auto. }
  split; [now apply subst_nb|]. apply (subst_same Jx G (HG x)); auto. intros u Hu.
  assert (Hz : eval Jx sigma (Add [Sym w; Num (zq c)]) = Some (IZR (Z.of_nat m + c))).
  { rewrite eval_Add2. cbn [eval]. rewrite Sw, rv_zq. cbn. f_equal. rewrite plus_IZR, INR_IZR_INZ. reflexivity. }
  assert (Hu' : eval Jx sigma (Fun (FOther "x2") (Num (zq k) :: args)) = Some (X k (seti zs i (Z.of_nat m + c)))).
  { apply eval_x2; [rewrite seti_length; congruence|]. intros j a z Hj Hz'. 
    assert (Lj : (j < List.length vs)%nat) by (rewrite <- La; apply nth_error_Some; congruence).
    rewrite (Ha j Lj) in Hj. rewrite seti_nth in Hz'. destruct (Nat.eqb j i) eqn:E.
    - assert (a = Add [Sym w; Num (zq c)]) by (injection Hj as <-; reflexivity). subst a. rewrite Hz. f_equal. f_equal. destruct (nth_error zs j); cbn in Hz'; congruence.
    - assert (a = Sym (nth j ws EmptyString)) by congruence. subst a. cbn [eval]. f_equal.
      assert (Hv' := nth_of vs j EmptyString Lj). rewrite (nth_error_nth _ _ _ (ws_nth j _ Hv')).
      eapply sigma_at; eauto. rewrite seti_nth, E. exact Hz'. }
  rewrite Hu' in Hu. rewrite <- Hu. apply (gfun_ok _ _ (HG x)). apply eval_x; [|lia].
  eapply (substitute_ok Jx G (HG x)); [apply nb_capture; cbn; auto|reflexivity|]. rewrite <- Hz. apply eval_ext.
  intros s. unfold upd. destruct (String.eqb s w) eqn:E; auto. apply String.eqb_eq in E. subst s. now rewrite Sn, Sw.
Qed.
Lemma fold_good terms : forall st v, (forall t, In t terms -> regular_term k ws i K t) -> (K <= m)%nat -> good Jx sigma v (snd st) ->
  (terms <> [] -> fst (fold_left (one_step G i) terms st) = Sym w) /\ good Jx sigma v (snd (fold_left (one_step G i) terms st)).
Proof.
  induction terms as [|t terms IH]; intros st v HT Hm Hg; cbn [fold_left]; [split; [congruence|auto]|].
  destruct (step_good st t v (HT t (or_introl eq_refl)) Hm Hg) as [Hf Hs].
  destruct (IH (one_step G i st t) v) as [A B]; auto; [intros; apply HT; now right|]. split; auto. intros _.
  destruct terms as [|t' terms]; [exact Hf|apply A; discriminate].
Qed.
End Sigma.

Definition rho2 (N : nat) := upd rho1 "n" (INR N).
Lemma lhs_value sigma z : (forall s, s <> "n"%string -> s <> w -> sigma s = rho1 s) -> sigma w = IZR z ->
  eval Jx sigma (x2 (Num (zq k)) (map Sym ws)) = Some (X k (seti zs i z)).
Proof.
  intros So Sw. unfold x2. apply eval_x2; [rewrite map_length, ws_length, seti_length; auto|].
  intros j a y Hj Hy. rewrite nth_error_map in Hj. unfold ws in Hj. rewrite nth_error_map in Hj.
  destruct (nth_error vs j) as [v|] eqn:Ev; [|discriminate]. cbn in Hj. injection Hj as <-. cbn [eval]. f_equal.
  rewrite seti_nth in Hy. destruct (Nat.eqb j i) eqn:E.
  - apply Nat.eqb_eq in E. subst j. destruct w_rename as (u & Hu & Ew). assert (u = v) by congruence. subst u. rewrite <- Ew, Sw.
    destruct (nth_error zs i); cbn in Hy; congruence.
  - rewrite So; [eapply rho1_at; eauto|apply rename_n|]. intros E'. apply (ws_w j v Ev) in E'. subst. now rewrite Nat.eqb_refl in E.
Qed.
Lemma nb_syms l : no_binders (x2 (Num (zq k)) (map Sym l)).
Proof. cbn. split; auto. apply no_binders_all. apply Forall_map. apply Forall_forall. intros; exact Logic.I. Qed.
Lemma w_not_n : w <> "n"%string.
Proof. destruct w_rename as (u & _ & ->). apply rename_n. Qed.
Lemma restore_good N : forall e v e', restore_leaf G ONE_TRUE_VARIABLE (x2 (Num (zq k)) (map Sym ws)) (Sym w) (Sym w) e = Some e' ->
  good Jx (rho2 N) v e -> good Jx (rho2 N) v e'.
Proof.
  intros e v e' E Hg. unfold restore_leaf in E. destruct e as [| | | | | |f l| |]; try (injection E as <-; exact Hg).
  destruct f; try (injection E as <-; exact Hg). destruct l as [|a [|]]; try (injection E as <-; exact Hg).
  match type of E with Some ?t = Some _ => assert (E' : e' = t) by congruence end. subst e'. clear E.
  destruct Hg as [NB Hv]. cbn in NB. destruct NB as [NB _]. cbn [restored].
  split; [apply subst_nb; auto; apply nb_syms|]. apply eval_x_inv in Hv as (z & Hz & ->).
  eapply (substitute_ok Jx G (HG x)); [apply nb_capture, nb_syms|exact Hz|].
  apply lhs_value; [|apply upd_same]. intros s N1 N2. rewrite upd_other by auto. unfold rho2. now rewrite upd_other.
Qed.

Theorem one_variable fuel rhs terms aux e : no_binders rhs -> has "n_replacement" rhs = false -> has_x_function rhs = false ->
  find_terms rhs = Some terms -> (forall t, In t terms -> regular_term k ws i K (n_away G t)) -> terms <> [] ->
  aux = snd (fold_left (one_step G i) (map (n_away G) terms) (Num 0%Qc, n_away G rhs)) -> has w aux = false ->
  solver_correct (with_X I X) K solve -> (forall s, solve aux = Some s -> no_binders s) ->
  multivar_solve G equal solve fuel [] (Num (zq k)) vs rhs = Answer e -> has_x_function e = false ->
  satisfies I X rho k vs i K rhs -> (Z.of_nat K <= nth i zs 0%Z)%Z -> gives I X rho k vs e zs.
Proof.
  intros NB Hnr Hx HF HT HN Haux Hw HS HB HM He Hsat Hz.
  assert (HT' : forall t, In t (map (n_away G) terms) -> regular_term k ws i K t).
  { intros t Ht. apply in_map_iff in Ht as (t' & <- & Ht'). auto. }
  assert (HN' : map (n_away G) terms <> []) by (destruct terms; [contradiction|discriminate]).
  assert (Faux : forall m, (K <= m)%nat -> let sigma := upd (upd rho1 "n" (INR m)) w (INR m) in
    fst (fold_left (one_step G i) (map (n_away G) terms) (Num 0%Qc, n_away G rhs)) = Sym w /\ good Jx sigma (x m) aux).
  { intros m Hm sigma. assert (Sn : sigma "n"%string = INR m) by (unfold sigma; rewrite upd_other; [apply upd_same|intros E; symmetry in E; now apply w_not_n]).
    assert (Sw : sigma w = INR m) by apply upd_same.
    assert (So : forall s, s <> "n"%string -> s <> w -> sigma s = rho1 s) by (intros s N1 N2; unfold sigma; now rewrite !upd_other).
    assert (Gr : good Jx sigma (x m) (snd (Num 0%Qc, n_away G rhs))).
    { cbn [snd]. split; [apply subst_nb; auto; exact Logic.I|]. apply (sigma_rhs sigma m Sw So rhs); auto.
      apply Hsat; [rewrite seti_length; auto|]. assert (A := seti_nth zs i (Z.of_nat m) i). rewrite Nat.eqb_refl in A.
      rewrite (nth_of zs i 0%Z) in A by lia. cbn in A. rewrite (nth_error_nth _ _ _ A). lia. }
    destruct (fold_good sigma m Sn Sw So (map (n_away G) terms) _ _ HT' Hm Gr) as [A B]. rewrite <- Haux in B. split; auto. }
  assert (Hsol : solves_from (with_X I X) rho1 K aux x).
  { intros m Hm. unfold holds_at. destruct (Faux m Hm) as [_ [_ B]]. rewrite <- B. fold Jx. unfold Jx, J. symmetry. now apply eval_upd_fresh. }
  destruct (Faux K (le_n K)) as [Fst _].
  unfold multivar_solve in HM. rewrite HF in HM. cbv zeta in HM.
  assert (Ews : map (fun v : string => if String.eqb v "n" then "n_replacement"%string else v) vs = ws) by reflexivity.
  rewrite Ews in HM. rewrite (dummy_regular _ HT' HN') in HM.
  destruct (fold_left (one_step G i) (map (n_away G) terms) (Num 0%Qc, n_away G rhs)) as [v aux'] eqn:Ef.
  cbn [fst snd] in *. subst v. subst aux'. cbn [map] in HM. unfold back in HM.
  destruct (solve aux) as [sol|] eqn:Es; [|discriminate].
  set (N := Z.to_nat (nth i zs 0%Z)). assert (HN0 : Z.of_nat N = nth i zs 0%Z) by (unfold N; rewrite Z2Nat.id; lia).
  assert (HKN : (K <= N)%nat) by lia.
  assert (G1 : good Jx (rho2 N) (x N) sol) by (split; [now apply HB|exact (HS aux sol Es rho1 x Hsol N HKN)]).
  unfold obind2, finish in HM. destruct (restore_arity _ _ _ _ _ _ sol) as [s1|] eqn:E1; [|discriminate].
  unfold restore_arity in E1. apply (walk_ok Jx G (HG x) NG _ (rho2 N)) with (v := x N) in E1; [|apply restore_good|exact G1].
  match type of HM with context [insert_conditions G fuel ?cs s1] => destruct (insert_conditions G fuel cs s1) as [s2|] eqn:E2; [|discriminate HM] end.
  unfold insert_conditions in E2. apply (walk_ok Jx G (HG x) NG _ (rho2 N)) with (v := x N) in E2; [| |exact E1].
  2:{ intros a v a' Ea Ga. unfold insert_leaf in Ea. destruct (is_x2 a); cbn in Ea; assert (a' = a) by congruence; now subst. }
  assert (e = substitute G (Sym "n_replacement") (Sym "n") (substitute G (Sym "n") (Sym w) s2)) by congruence. subst e.
  destruct E2 as [N2 V2]. unfold gives. rewrite <- (x_free_plain (with_X I X) x) by exact He.
  assert (Ez : X k zs = x N) by (unfold x; rewrite HN0, seti_same; reflexivity). rewrite Ez.
  eapply (substitute_ok Jx G (HG x)); [apply nb_capture; apply subst_nb; auto; exact Logic.I|reflexivity|].
  change (upd (point rho vs zs) "n_replacement" (point rho vs zs "n")) with rho1.
  assert (Rw : rho1 w = INR N).
  { destruct w_rename as (u & Hu & ->). rewrite (rho1_at i u _ Hu (nth_of zs i 0%Z ltac:(lia))). rewrite INR_IZR_INZ. f_equal. auto. }
  eapply (substitute_ok Jx G (HG x)); [now apply nb_capture|reflexivity|]. rewrite Rw. exact V2.
Qed.
End Main.
