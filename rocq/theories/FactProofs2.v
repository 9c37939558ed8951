From Coq Require Import ZArith QArith Qcanon Qreals Reals List String Bool Lia Lra Permutation.
From Verif Require Import IntUtilModel IntUtilSpec IntUtilProofs Ast ExprModel ExprProofs1 ExprProofs2 FactModel FactSpec FactProofs.
Import ListNotations.
Local Open Scope R_scope.
Local Open Scope list_scope.

Notation split := split_bases_exponents.
Lemma ce_one ps : (forall f, In (Num 1, f) ps -> f = Num 1) -> common_exponent (Num 1) (Num 1) ps = Some (Num 1) \/ common_exponent (Num 1) (Num 1) ps = None.
Proof.
  induction ps as [|[b f] ps IH]; intros H; [now right|]. cbn [common_exponent].
  destruct IH as [E|E]; [intros g Hg; apply H; now right| |]; rewrite E; [now left|].
  destruct (expr_eqb b (Num 1)) eqn:B; [|now right]. apply expr_eqb_eq in B. subst b. rewrite (H f) by now left. left. reflexivity.
Qed.

Lemma splits_set e l : splits_to split e l -> exists ps, split e = Some ps /\ (forall p, In p (proper ps) <-> In p l) /\ (forall f, In (Num 1, f) ps -> f = Num 1).
Proof.
  intros (ps & E & P & U). exists ps. split; [auto|]. split; [|auto]. intros p. split; intros H; [eapply Permutation_in; eauto|eapply Permutation_in; [apply Permutation_sym|]; eauto].
Qed.

Section Sum.
Variable I : interp.
Variable G : ginac.
Hypothesis HG : ginac_ok I G.
Variable rho : string -> R.
Notation ev := (eval I rho).
Notation fv := (fval I rho).
Variable ts : list expr.
Variable sp : expr -> factors.
Hypothesis Hsp : forall t, In t ts -> split t = Some (sp t) /\ NoDup (map fst (proper (sp t))) /\ (forall f, In (Num 1, f) (sp t) -> f = Num 1).
Hypothesis HR : resplits split G ts.
Notation CMt := (CM sp ts).

Lemma iet b c ts' : incl ts' ts -> b <> Num 1 -> in_every_term b c ts' = Some (RR sp b c ts').
Proof.
  intros Hi B. induction ts' as [|t ts' IH]; [reflexivity|]. cbn [in_every_term RR]. rewrite IH by (intros x Hx; apply Hi; now right).
  destruct (RR sp b c ts') as [d|]; [|reflexivity]. destruct (Hsp t) as (E & ND & _); [apply Hi; now left|]. rewrite E. f_equal. now apply ce_lk.
Qed.
Lemma iet_one ts' : incl ts' ts -> in_every_term (Num 1) (Num 1) ts' = Some (Some (Num 1)) \/ in_every_term (Num 1) (Num 1) ts' = Some None.
Proof.
  intros Hi. induction ts' as [|t ts' IH]; [now left|]. cbn [in_every_term].
  destruct IH as [->| ->]; [intros x Hx; apply Hi; now right| |now right].
  destruct (Hsp t) as (E & _ & U); [apply Hi; now left|]. rewrite E. destruct (ce_one _ U) as [->| ->]; auto.
Qed.
Definition Inv (l : factors) (c : R) (common : expr) : Prop :=
  splits_to split common l /\ NoDup (map fst l) /\ (forall b m, In (b, m) l -> CMt b m) /\ fv l = Some c /\ ev common = Some c.

Lemma ev_pow_parts a b v : ev (Pow a b) = Some v -> exists x y, ev a = Some x /\ ev b = Some y /\ rpow x y = Some v.
Proof. cbn [eval]. destruct (ev a) as [x|]; [|discriminate]. cbn [obind]. destruct (ev b) as [y|]; [|discriminate]. cbn [obind]. eauto. Qed.
Lemma ev_num_pow b q x n : ev b = Some x -> rv q = INR n -> ev (Pow b (Num q)) = Some (x ^ n).
Proof. intros Hb Hq. cbn [eval]. rewrite Hb. cbn [obind]. rewrite Hq. apply rpow_nat. Qed.
Lemma gpow_ev a b v : ev (Pow a b) = Some v -> ev (gpow G a b) = Some v.
Proof. apply (gpow_ok _ _ HG). Qed.

Lemma step b f t l c common rem u r : b <> Num 1 -> In t ts -> In (b, f) (sp t) -> ev (Pow b f) = Some u ->
  Inv l c common -> ev rem = Some r ->
  exists common' rem' l' c' r', in_all_factors G ts b f (common, rem) = Some (common', rem') /\ Inv l' c' common' /\ ev rem' = Some (r * r') /\
  ((exists m w, CMt b m /\ ev (Pow b m) = Some w /\ r' * w = u /\ forall p, In p l' <-> p = (b, m) \/ In p l) \/
   ((forall m, ~ CMt b m) /\ l' = l /\ r' = u)).
Proof.
  intros B Ht Hin Hu HI Hr. pose proof HI as (HS & ND & HC & Hfv & Hc). destruct (Hsp t Ht) as (E & NDt & _).
  pose proof (lk_unique b f (sp t) NDt B Hin) as L. unfold in_all_factors. rewrite iet by (auto using incl_refl).
  destruct (RR sp b f ts) as [m|] eqn:R.
  - assert (M : CMt b m) by (exists t, f; auto).
    (* values *)
    destruct (ev_pow_parts _ _ _ Hu) as (x & y & Hx & Hy & _).
    assert (W : exists w r', ev (Pow b m) = Some w /\ r' * w = u /\
       (m = f /\ r' = 1 \/ exists qf qm n k, f = Num qf /\ m = Num qm /\ rv qf = INR n /\ rv qm = INR k /\ (k <= n)%nat /\ r' = x ^ (n - k) /\ is_pos_int_num f = true /\ is_pos_int_num m = true)).
    { destruct (RR_le sp b f ts m R) as [->|(qf & qm & n & k & -> & -> & Hn & Hk & Le & P & Pm)].
      - exists u, 1. split; [auto|]. split; [lra|]. left. auto.
      - exists (x ^ k), (x ^ (n - k)). split; [now apply ev_num_pow|]. split.
        + rewrite <- pow_add. replace (n - k + k)%nat with n by lia. rewrite (ev_num_pow _ _ x n) in Hu; auto. now injection Hu.
        + right. exists qf, qm, n, k. auto 9. }
    destruct W as (w & r' & Hw & Erw & W).
    unfold assign_common_factor_and_rem. pose proof (splits_set _ _ HS) as (ps & Hps & Hset & Hun). rewrite Hps.
    destruct (find_base b ps) as [[b0 fi]|] eqn:F.
    + (* already there *)
      assert (Lp : lk b ps = Some fi) by (unfold lk; now rewrite F). apply lk_in in Lp.
      assert (Lpp : In (b, fi) l) by (apply Hset, proper_in; auto).
      assert (fi = m) by (eapply CM_fun; [apply HC; eauto|auto]). subst fi.
      exists common. eexists. exists l, c, r'. split; [reflexivity|]. split; [auto|]. split.
      * destruct W as [[-> ->]|(qf & qm & n & k & -> & -> & Hn & Hk & Le & -> & P & Pm)].
        -- destruct (pos_ints f f) as [[nf ni]|] eqn:PI.
           ++ apply pos_ints_some in PI as (_ & _ & E1 & E2). assert (nf = ni) by congruence. subst ni. apply (gmul_val _ _ HG); auto. apply gpow_ev.
              assert (Q : q_lt nf nf = false) by (apply q_lt_false; lra). rewrite Q. replace 1 with (x ^ 0) by reflexivity. apply ev_num_pow; auto. rewrite rv_sub. cbn. lra.
           ++ rewrite expr_eqb_refl. rewrite Hr. f_equal. lra.
        -- assert (PI : pos_ints (Num qf) (Num qm) = Some (qf, qm)) by (apply pos_ints_some; auto). rewrite PI. apply (gmul_val _ _ HG); auto. apply gpow_ev, ev_num_pow; auto.
           rewrite minus_INR by auto. destruct (q_lt qm qf) eqn:Q; rewrite rv_sub; [lra|]. apply q_lt_false in Q. apply le_INR in Le. lra.
      * left. exists m, w. split; [auto|]. split; [auto|]. split; [auto|]. intros p. split; [auto|]. intros [->|]; auto.
    + (* new *)
      assert (N : ~ In b (map fst l)).
      { assert (Lp : lk b ps = None) by (unfold lk; now rewrite F). apply lk_none in Lp. intros H. apply Lp. apply in_map_iff in H as ([b' g] & H1 & H2). cbn in H1. subst b'.
        apply Hset, proper_in in H2 as [H2 _]. now apply (in_map fst) in H2. }
      eexists. eexists. exists ((b, m) :: l), (w * c), r'. split; [reflexivity|]. split; [|split].
      * split; [|split; [|split; [|split]]].
        -- apply (proj1 HR common l t (sp t) b f m); auto.
        -- cbn. constructor; auto.
        -- intros b' m' [[= <- <-]|H]; auto.
        -- rewrite fval_cons. cbn [fst snd]. now rewrite Hw, Hfv.
        -- rewrite Rmult_comm. apply (gmul_val _ _ HG); auto. now apply gpow_ev.
      * destruct W as [[-> ->]|(qf & qm & n & k & -> & -> & Hn & Hk & Le & -> & P & Pm)].
        -- rewrite expr_eqb_refl, Hr. f_equal. lra.
        -- destruct (expr_eqb (Num qm) (Num qf)) eqn:X.
           ++ apply expr_eqb_eq in X. injection X as ->. assert (n = k) by (apply INR_eq; lra). subst k. rewrite Nat.sub_diag. cbn. rewrite Hr. f_equal. lra.
           ++ apply (gmul_val _ _ HG); auto. apply (gpow_val _ _ HG _ _ _ x (INR (n - k))); auto; [|apply rpow_nat].
              rewrite (gsub_val I G HG rho _ _ (rv qf) (rv qm)) by apply eval_num. rewrite minus_INR by auto. f_equal. lra.
      * left. exists m, w. split; [auto|]. split; [auto|]. split; [auto|]. intros p. cbn. intuition congruence.
  - exists common. eexists. exists l, c, u. split; [reflexivity|]. split; [auto|]. split; [apply (gmul_val _ _ HG); auto; now apply gpow_ev|]. right.
    split; [|auto]. intros m M. destruct (CM_all sp ts b m t M Ht) as (f' & L' & R'). rewrite L in L'. injection L' as <-. congruence.
Qed.
Lemma ev_one_pow : ev (Pow (Num 1) (Num 1)) = Some 1.
Proof. apply (ev_pow1 I rho (Num 1) 1). now rewrite eval_num, rv_1. Qed.
Lemma step_one l c common rem r : Inv l c common -> ev rem = Some r ->
  exists common' rem', in_all_factors G ts (Num 1) (Num 1) (common, rem) = Some (common', rem') /\ Inv l c common' /\ ev rem' = Some r.
Proof.
  intros HI Hr. pose proof HI as (HS & ND & HC & Hfv & Hc). unfold in_all_factors.
  destruct (iet_one ts (incl_refl _)) as [->| ->].
  - unfold assign_common_factor_and_rem. pose proof (splits_set _ _ HS) as (ps & Hps & Hset & Hun). rewrite Hps. destruct (find_base (Num 1) ps) as [[b0 fi]|] eqn:F.
    + assert (Lp : lk (Num 1) ps = Some fi) by (unfold lk; now rewrite F). apply lk_in, Hun in Lp. subst fi.
      eexists. eexists. split; [reflexivity|]. split; [auto|]. assert (PI : pos_ints (Num 1) (Num 1) = Some (1%Qc, 1%Qc)) by reflexivity. rewrite PI.
      rewrite <- (Rmult_1_r r). apply (gmul_val _ _ HG); auto. apply gpow_ev. assert (Q : q_lt 1 1 = false) by (apply q_lt_false; lra). rewrite Q.
      replace 1 with (1 ^ 0) by reflexivity. apply ev_num_pow; [now rewrite eval_num, rv_1|]. rewrite rv_sub. cbn. lra.
    + eexists. eexists. split; [reflexivity|]. split.
      * split; [now apply (proj2 HR)|]. split; [auto|]. split; [auto|]. split; [auto|]. rewrite <- (Rmult_1_r c). apply (gmul_val _ _ HG); auto. apply gpow_ev, ev_one_pow.
      * rewrite expr_eqb_refl. auto.
  - eexists. eexists. split; [reflexivity|]. split; [auto|]. cbn [snd]. rewrite <- (Rmult_1_r r). apply (gmul_val _ _ HG); auto. apply gpow_ev, ev_one_pow.
Qed.
Notation step_fun := (fun (p : expr * expr) (s : option state) => match s with Some s => in_all_factors G ts (fst p) (snd p) s | None => None end).
Lemma collect_fold t ps l c common rem r u : In t ts -> incl ps (sp t) -> NoDup (map fst (proper ps)) -> fv ps = Some u -> Inv l c common -> ev rem = Some r ->
  exists common' rem' l' c' r' cs w, fold_right step_fun (Some (common, rem)) ps = Some (common', rem') /\
  Inv l' c' common' /\ ev rem' = Some (r * r') /\ fv cs = Some w /\ r' * w = u /\ NoDup (map fst cs) /\
  (forall p, In p cs <-> In (fst p) (map fst (proper ps)) /\ CMt (fst p) (snd p)) /\ (forall p, In p l' <-> In p cs \/ In p l).
Proof.
  intros Ht. revert u. induction ps as [|[b f] ps IH]; intros u Hi ND Hu HI Hr.
  - injection Hu as <-. exists common, rem, l, c, 1, [], 1. split; [reflexivity|]. split; [auto|]. split; [rewrite Hr; f_equal; lra|].
    split; [reflexivity|]. split; [lra|]. split; [constructor|]. split; intros p; cbn; tauto.
  - rewrite fval_cons in Hu. apply olift2_some in Hu as (x & y & Hx & Hy & ->). cbn [fst snd] in Hx.
    assert (ND' : NoDup (map fst (proper ps))).
    { rewrite proper_app, map_app in ND. revert ND. generalize (map fst (proper [(b, f)])). induction l0 as [|z l0 IHl]; [auto|]. cbn. intros ND. apply NoDup_cons_iff in ND as [_ ND]. auto. }
    destruct (IH y) as (common1 & rem1 & l1 & c1 & r1 & cs & w & E & HI1 & Hr1 & Hcs & Hrw & NDc & Scs & Sl); auto; [intros p Hp; apply Hi; now right|].
    cbn [fold_right]. rewrite E. cbn [fst snd].
    destruct (expr_eqb b (Num 1)) eqn:B.
    + apply expr_eqb_eq in B. subst b. assert (f = Num 1) by (apply (proj2 (proj2 (Hsp t Ht))), Hi; now left). subst f.
      rewrite ev_one_pow in Hx. injection Hx as <-.
      destruct (step_one l1 c1 common1 rem1 (r * r1) HI1 Hr1) as (common2 & rem2 & E2 & HI2 & Hr2).
      exists common2, rem2, l1, c1, r1, cs, w. split; [auto|]. split; [auto|]. split; [auto|]. split; [auto|]. split; [lra|]. split; [auto|]. split; [|auto].
      intros p. rewrite Scs. unfold proper at 2. cbn [filter fst]. replace (is_num 1 (Num 1)) with true by reflexivity. cbn [negb]. reflexivity.
    + assert (B' : b <> Num 1) by (intros ->; rewrite expr_eqb_refl in B; discriminate).
      assert (Pr : proper ((b, f) :: ps) = (b, f) :: proper ps).
      { unfold proper. cbn [filter fst]. assert (X : is_num 1 b = false) by (apply not_true_iff_false; rewrite is_num_eq; auto). now rewrite X. }
      rewrite Pr in *. cbn [map fst] in ND. apply NoDup_cons_iff in ND as [Nb _].
      destruct (step b f t l1 c1 common1 rem1 x (r * r1) B' Ht) as (common2 & rem2 & l2 & c2 & r2 & E2 & HI2 & Hr2 & D); auto; [apply Hi; now left|].
      destruct D as [(m & w2 & M & Hw2 & Er2 & S2)|(NM & -> & ->)].
      * exists common2, rem2, l2, c2, (r1 * r2), ((b, m) :: cs), (w2 * w). split; [auto|]. split; [auto|]. split; [rewrite Hr2; f_equal; lra|].
        split; [rewrite fval_cons; cbn [fst snd]; now rewrite Hw2, Hcs|]. split; [rewrite <- Er2, <- Hrw; ring|]. split; [|split].
        -- cbn. constructor; auto. intros H. apply in_map_iff in H as (p & H1 & H2). apply Scs in H2 as [H2 _]. congruence.
        -- intros [b' m']. cbn [map In fst snd]. rewrite Scs. cbn [fst snd]. split.
           ++ intros [H|[H1 H2]]; [injection H as <- <-; auto|auto].
           ++ intros [[<-|H1] H2]; [left; f_equal; eapply CM_fun; eauto|auto].
        -- intros p. rewrite S2, Sl. cbn. intuition congruence.
      * exists common2, rem2, l1, c2, (r1 * x), cs, w. split; [auto|]. split; [auto|]. split; [rewrite Hr2; f_equal; lra|].
        split; [auto|]. split; [rewrite <- Hrw; ring|]. split; [auto|]. split; [|auto].
        intros [b' m']. rewrite Scs. cbn [map In fst snd]. split; [tauto|]. intros [[<-|H1] H2]; [exfalso; eapply NM; eauto|auto].
Qed.
Lemma fst_inj_nodup {A B} (l : list (A * B)) : NoDup (map fst l) -> NoDup l.
Proof. apply NoDup_map_inv. Qed.
Definition full (l : factors) : Prop := forall b m, b <> Num 1 -> (In (b, m) l <-> CMt b m).
Lemma CM_in_term b m t : CMt b m -> b <> Num 1 -> In t ts -> In b (map fst (proper (sp t))).
Proof.
  intros M B Ht. destruct (CM_all sp ts b m t M Ht) as (f & L & _). apply lk_in in L. change b with (fst (b, f)). apply in_map, proper_in. auto.
Qed.
Lemma collect_ok t l c common v : In t ts -> ev t = Some v -> Inv l c common ->
  exists common' rem' l' c' r, collect_common_factor G ts t common (Num 1) = Some (common', rem') /\ Inv l' c' common' /\ ev rem' = Some r /\ r * c' = v /\
  (forall b m, b <> Num 1 -> (In (b, m) l' <-> CMt b m)) /\ (forall p, In p l' -> fst p <> Num 1) /\ (full l -> (forall p, In p l -> fst p <> Num 1) -> c' = c).
Proof.
  intros Ht Hv HI. destruct (Hsp t Ht) as (E & ND & _). pose proof (split_ok I rho t (sp t) v E Hv) as Hu.
  assert (H1 : ev (Num 1) = Some 1) by now rewrite eval_num, rv_1.
  destruct (collect_fold t (sp t) l c common (Num 1) 1 v Ht (incl_refl _) ND Hu HI H1)
    as (common' & rem' & l' & c' & r' & cs & w & Ef & HI' & Hr & Hcs & Hrw & NDc & Scs & Sl).
  assert (NU : forall p, In p l' -> fst p <> Num 1).
  { intros p Hp. destruct HI' as (HS' & _). destruct (splits_set _ _ HS') as (ps & _ & Hset & _). apply Hset, proper_in in Hp. tauto. }
  assert (F : full l').
  { intros b m B. split.
    - intros H. now apply HI'.
    - intros M. apply Sl. left. apply Scs. cbn. split; [now apply CM_in_term with m|auto]. }
  assert (P : Permutation cs l').
  { apply NoDup_Permutation; [now apply fst_inj_nodup|apply fst_inj_nodup, HI'|]. intros [b m]. split; [intros H; apply Sl; auto|].
    intros H. apply Scs. cbn [fst snd]. assert (M : CMt b m) by now apply HI'. split; [|auto]. apply CM_in_term with m; auto. apply (NU _ H). }
  exists common', rem', l', c', r'. unfold collect_common_factor. rewrite E. split; [auto|]. split; [auto|]. split; [rewrite Hr; f_equal; lra|]. split.
  - assert (c' = w). { destruct HI' as (_ & _ & _ & Hf & _). rewrite <- (fval_perm I rho _ _ P), Hcs in Hf. now injection Hf. } subst w. auto.
  - split; [auto|]. split; [auto|]. intros Fl NUl. destruct HI' as (_ & ND' & _ & Hf & _), HI as (_ & NDl & _ & Hf0 & _).
    assert (P2 : Permutation l l').
    { apply NoDup_Permutation; [now apply fst_inj_nodup|now apply fst_inj_nodup|]. intros [b m]. split; intros H.
      - apply F, Fl; auto; apply (NUl _ H). - apply Fl, F; auto; apply (NU _ H). }
    rewrite <- (fval_perm I rho _ _ P2), Hf0 in Hf. now injection Hf.
Qed.
Lemma sum_fold ts' s : incl ts' ts -> esum I rho ts' = Some s ->
  exists common rest l c r, factorize_sum G ts ts' = Some (common, rest) /\ Inv l c common /\ ev rest = Some r /\ c * r = s /\
  (forall p, In p l -> fst p <> Num 1) /\ (ts' = [] /\ r = 0 \/ full l).
Proof.
  revert s. induction ts' as [|t ts' IH]; intros s Hi Hs.
  - rewrite esum_nil in Hs. injection Hs as <-. exists (Num 1), (Num 0), [], 1, 0. split; [reflexivity|]. split; [|split; [|split; [|split]]].
    + split; [|split; [constructor|split; [intros b m []|split; [reflexivity|now rewrite eval_num, rv_1]]]].
      eexists. split; [reflexivity|]. cbn -[zq]. rewrite zq_1. split; [constructor|]. intros f [H|[H|[]]]; congruence.
    + now rewrite eval_num, rv_0.
    + lra.
    + intros p [].
    + now left.
  - rewrite esum_cons in Hs. apply olift2_some in Hs as (x & y & Hx & Hy & ->).
    destruct (IH y) as (common & rest & l & c & r & E & HI & Hr & Ecr & NU & D); auto; [intros z Hz; apply Hi; now right|].
    cbn [factorize_sum]. rewrite E. destruct (collect_ok t l c common x) as (common' & rem' & l' & c' & r' & E' & HI' & Hr' & Ex & F & NU' & K); auto; [apply Hi; now left|].
    rewrite E'. exists common', (gadd G rest rem'), l', c', (r + r'). split; [auto|]. split; [auto|]. split; [now apply (gadd_val _ _ HG)|].
    split; [|split; [auto|now right]]. destruct D as [[-> ->]|D].
    + rewrite esum_nil in Hy. injection Hy as <-. lra.
    + specialize (K D NU). subst c'. lra.
Qed.
End Sum.

Section Main.
Variable I : interp.
Variable G : ginac.
Hypothesis HG : ginac_ok I G.
Lemma sum_ok ts rho v : Forall (distinct_bases split) ts -> resplits split G ts -> eval I rho (Add ts) = Some v ->
  exists common rest c r, factorize_sum G ts ts = Some (common, rest) /\ eval I rho common = Some c /\ eval I rho rest = Some r /\ c * r = v.
Proof.
  intros F HR Hv. rewrite eval_Add in Hv. rewrite Forall_forall in F.
  pose (sp := fun t => match split t with Some ps => ps | None => [] end).
  assert (Hsp : forall t, In t ts -> split t = Some (sp t) /\ NoDup (map fst (proper (sp t))) /\ (forall f, In (Num 1, f) (sp t) -> f = Num 1)).
  { intros t Ht. destruct (F t Ht) as (ps & E & H). unfold sp. rewrite E. auto. }
  destruct (sum_fold I G HG rho ts sp Hsp HR ts v (incl_refl _) Hv) as (common & rest & l & c & r & E & HI & Hr & Ecr & _).
  exists common, rest, c, r. split; [auto|]. split; [apply HI|auto].
Qed.
Lemma fpow_mul x y q u : (exists n, rv q = INR n) -> rpow (x * y) (rv q) = Some u -> exists a b, rpow x (rv q) = Some a /\ rpow y (rv q) = Some b /\ a * b = u.
Proof. intros [n E]. rewrite E, !rpow_nat. intros [= <-]. eexists. eexists. split; [reflexivity|]. split; [reflexivity|]. now rewrite Rpow_mult_distr. Qed.
Theorem no_ratio_ok prep : (forall e, refines I e (prep e)) -> forall fuel e common rest rho v, factorizable split G prep e ->
  factorize_no_ratio_ex G prep fuel e = Some (common, rest) -> eval I rho e = Some v ->
  exists c r, eval I rho common = Some c /\ eval I rho rest = Some r /\ c * r = v.
Proof.
  intros HP. induction fuel as [|fuel IH]; intros e common rest rho v F E Hv; [discriminate|]. cbn [factorize_no_ratio_ex] in E.
  assert (One : eval I rho (Num 1) = Some 1) by now rewrite eval_num, rv_1.
  assert (Hp : eval I rho (prep e) = Some v) by now apply HP.
  assert (At : forall e' v, eval I rho e' = Some v -> exists c r, eval I rho (Num 1) = Some c /\ eval I rho (gadd G (Num 0) e') = Some r /\ c * r = v).
  { intros e' v' H'. exists 1, (0 + v'). split; [auto|]. split; [apply (gadd_val _ _ HG); auto; now rewrite eval_num, rv_0|lra]. }
  destruct F as [ts Ep Fd Fr|a b Ep Fa|l Ep Fl|N1 N2 N3].
  - rewrite Ep in *. destruct (sum_ok ts rho v Fd Fr Hp) as (c0 & r0 & c & r & E' & Hc & Hr & Ev). rewrite E in E'. injection E' as <- <-. eauto.
  - rewrite Ep in *. destruct (is_pos_int_num b) eqn:P; [|injection E as <- <-; now apply At].
    destruct a; try (injection E as <- <-; now apply At). remember (Add l) as a eqn:Ea. clear Ea.
    destruct (factorize_no_ratio_ex G prep fuel a) as [[c r]|] eqn:R; [|discriminate].
    cbn [eval] in Hp. destruct (eval I rho a) as [x|] eqn:Hx; [|discriminate]. destruct (IH a c r rho x Fa R Hx) as (c1 & r1 & Hc & Hr & <-).
    destruct (posint_spec _ P) as (q & n & -> & Hq & _). cbn [obind eval] in Hp.
    destruct (fpow_mul c1 r1 q v (ex_intro _ n Hq) Hp) as (u & w & Hu & Hw & <-).
    destruct (expr_eqb (Num q) one) eqn:X; injection E as <- <-.
    + apply expr_eqb_eq in X. injection X as ->. assert (n = 1%nat) by (apply INR_eq; rewrite <- Hq, rv_1; reflexivity). subst n. rewrite Hq, rpow_nat in Hu, Hw.
      injection Hu as <-. injection Hw as <-. exists c1, r1. split; [auto|]. split; [auto|]. ring.
    + exists u, w. split; [apply (gpow_val _ _ HG _ _ _ c1 (rv q)); auto|]. split; [apply (gpow_val _ _ HG _ _ _ r1 (rv q)); auto|auto].
  - rewrite Ep in *. rewrite eval_Mul in Hp. clear Ep Hv. revert common rest v E Hp. induction l as [|f l IHl]; intros common rest v E Hp.
    + injection E as <- <-. rewrite eprod_nil in Hp. injection Hp as <-. exists 1, 1. split; [auto|]. split; [auto|lra].
    + cbn [fold_right] in E. rewrite eprod_cons in Hp. apply olift2_some in Hp as (x & y & Hx & Hy & ->). apply Forall_cons_iff in Fl as [Ff Fl].
      destruct (fold_right _ _ l) as [[c0 r0]|]; [|discriminate]. destruct (IHl Fl c0 r0 y eq_refl Hy) as (c & r & Hc & Hr & <-).
      destruct (factorize_no_ratio_ex G prep fuel f) as [[c1 r1]|] eqn:R; [|discriminate]. destruct (IH f c1 r1 rho x Ff R Hx) as (c' & r' & Hc' & Hr' & <-).
      injection E as <- <-. exists (c * c'), (r * r'). split; [now apply (gmul_val _ _ HG)|]. split; [now apply (gmul_val _ _ HG)|ring].
  - destruct (prep e) as [| | |l|l|a b| | |] eqn:Ep; try (now destruct (N1 l)); try (now destruct (N2 l));
      try (injection E as <- <-; exists 1, v; split; [auto|]; split; [auto|lra]).
    destruct (is_pos_int_num b) eqn:P; [|injection E as <- <-; now apply At].
    destruct a; try (injection E as <- <-; now apply At). now destruct (N3 l b).
Qed.
Lemma rinv_val rho a x : eval I rho a = Some x -> x <> 0 -> eval I rho (gpow G a (Num (-(1))%Qc)) = Some (/ x).
Proof.
  intros H N. apply (gpow_val _ _ HG _ _ _ x (-1)); auto; [rewrite eval_num, rv_opp, rv_1; f_equal; lra|].
  unfold rpow. change (-1) with (IZR (-1)). rewrite as_int_IZR. destruct (Req_EM_T x 0); [contradiction|]. f_equal. unfold powerRZ. now rewrite Pos2Nat.inj_1, pow_1.
Qed.
Theorem factorize_ok prep num_den fuel e common rest n d rho v : (forall e, refines I e (prep e)) -> num_den e = (n, d) ->
  factorizable split G prep n -> factorizable split G prep d ->
  factorize G prep num_den fuel e = Some (common, rest) ->
  (exists x y, eval I rho n = Some x /\ eval I rho d = Some y /\ y <> 0 /\ v = x / y) ->
  exists c r, eval I rho common = Some c /\ eval I rho rest = Some r /\ c * r = v.
Proof.
  intros HP En Fn Fd E (x & y & Hx & Hy & Ny & ->). unfold factorize in E. rewrite En in E.
  destruct (factorize_no_ratio_ex G prep fuel n) as [[cn rn]|] eqn:E1; [|discriminate]. destruct (factorize_no_ratio_ex G prep fuel d) as [[cd rd]|] eqn:E2; [|discriminate].
  destruct (no_ratio_ok prep HP fuel n cn rn rho x Fn E1 Hx) as (c1 & r1 & Hc1 & Hr1 & <-).
  destruct (no_ratio_ok prep HP fuel d cd rd rho y Fd E2 Hy) as (c2 & r2 & Hc2 & Hr2 & <-).
  assert (N1 : c2 <> 0) by (intros ->; apply Ny; lra). assert (N2 : r2 <> 0) by (intros ->; apply Ny; lra).
  destruct (is_number cd && is_number rd); injection E as <- <-.
  - exists (c1 * / (c2 * r2)), r1. split; [|split; [auto|field; auto]]. unfold gdiv. apply (gmul_val _ _ HG); auto. apply rinv_val; auto. now apply (gmul_val _ _ HG).
  - exists (c1 * / c2), (r1 * / r2). split; [|split; [|field; auto]]; unfold gdiv; apply (gmul_val _ _ HG); auto; now apply rinv_val.
Qed.
End Main.
