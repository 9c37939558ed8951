From Coq Require Import ZArith QArith Qcanon Reals List String Bool Lia Lra.
From Verif Require Import Ast ExprModel ExprSpec ExprProofs1 ExprProofs2 DecompModel DecompSpec DecompProofs VerifyProofs2 ProdSpec ProdProofs ProdProofs2 ProdProofs3 SumSimpModel SumSimpSpec SumSimpProofs.
Import ListNotations.
Local Open Scope list_scope.
Local Open Scope R_scope.

Lemma q_int_zq z : q_int (zq z) = z.
Proof. pose proof (q_int_v _ (q_is_int_zq z)) as Q. rewrite rv_zq in Q. symmetry. now apply eq_IZR. Qed.
Lemma upper_of_is up m num : upper_of up = Some (m, num) <-> upper_is up m num.
Proof.
  unfold upper_of, upper_is. split.
  - intros H. destruct up as [| |s|[|x [|y [|? ?]]]| | | | |]; try discriminate; try (injection H as <- <-; auto; fail);
      destruct x; try discriminate; destruct y; try discriminate;
      match type of H with (if q_is_int ?q then _ else _) = _ => destruct (q_is_int q) eqn:Q; [|discriminate] end; injection H as <- <-;
      [right; right|right; left]; f_equal; f_equal; try f_equal; try f_equal; apply rv_inj; rewrite rv_zq; apply q_int_v; auto.
  - intros [[-> ->]|[->| ->]]; auto; rewrite q_is_int_zq, q_int_zq; reflexivity.
Qed.
Lemma upper_value I rho up m num M : upper_is up m num -> rho m = IZR M -> eval I rho up = Some (IZR (M + num)).
Proof.
  intros [[-> ->]|[->| ->]] Hm.
  - cbn [eval]. rewrite Z.add_0_r. now rewrite Hm.
  - rewrite eval_Add2. cbn [eval olift2]. rewrite rv_zq, plus_IZR. now rewrite Hm.
  - rewrite eval_Add2. cbn [eval olift2]. rewrite rv_zq, plus_IZR. rewrite Hm. f_equal. ring.
Qed.

Section Sums.
Context (I : interp) (G : ginac) (HG : ginac_ok I G) (expand simplify : expr -> expr).
Context (sum_pe : expr -> string -> string -> expr -> expr) (gosper : string -> expr -> Z -> expr -> option expr) (h : string).
Context (Hexp : forall e, refines I e (expand e)) (Hsimp : forall e, refines I e (simplify e)) (Hsum : sums_powers I sum_pe) (Hgos : telescopes I gosper).

Section OneSum.
Context (rho : string -> R) (k m : string) (lo num M : Z).
Context (hk : h <> k) (hm : h <> m) (km : k <> m) (Hm : rho m = IZR M) (Hlo : (0 <= lo)%Z) (HU0 : (0 <= M + num)%Z) (HU : (lo - 1 <= M + num)%Z).
Notation U := (M + num)%Z.
Notation at_k i e := (eval I (upd rho k (IZR i)) e).

(** One entry of the decomposition. *)
Lemma term_ok b p x y z g : let c := substitute G (Sym k) (Sym h) p in
  has h p = false -> has h b = false -> (num = 0%Z \/ has m p = false /\ has m b = false) -> has k b = false ->
  no_capture k (Sym h) p -> not_bound h c -> no_capture m (gadd G (Sym m) (Num (zq num))) (sum_pe c h m b) ->
  eval I rho b = Some y -> (forall i, (0 <= i <= U)%Z -> at_k i p = Some (x i) /\ rpow y (IZR i) = Some (z i) /\ g i = z i * x i) ->
  eval I rho (sum_of_term G sum_pe h k lo m num b p) = Some (zsum g lo (Z.to_nat (U - lo + 1))).
Proof.
  intros c Hp Hb Hn Kb NC NB NCm Eb Hv. unfold sum_of_term. fold c.
  assert (Vc : forall rho' i, (forall s, has s p = true -> s <> k -> rho' s = rho s) -> (0 <= i <= U)%Z -> eval I (upd rho' h (IZR i)) c = Some (x i)).
  { intros rho' i A Hi. destruct (Hv i Hi) as (Ex & _). apply (substitute_ok I G HG) with (w := IZR i); [exact NC|cbn [eval]; now rewrite upd_same|].
    rewrite <- Ex. apply eval_agree. intros s Hs. rewrite upd_upd_ne. unfold upd at 1. destruct (String.eqb_spec s k); auto.
    destruct (String.eqb_spec s h); [subst; congruence|]. auto. }
  pose (rho' := upd rho m (IZR U)).
  assert (A : forall e, (num = 0%Z \/ has m e = false) -> forall s, has s e = true -> rho' s = rho s).
  { intros e D s Hs. unfold rho', upd. destruct (String.eqb_spec s m) as [->|]; auto. destruct D as [D|D]; [|congruence]. rewrite D, Z.add_0_r. now rewrite Hm. }
  assert (S0 : eval I rho (substitute G (Sym m) (gadd G (Sym m) (Num (zq num))) (sum_pe c h m b)) = Some (zsum g 0 (Z.to_nat (U + 1)))).
  { apply (substitute_ok I G HG) with (w := IZR U); [exact NCm| |].
    - rewrite plus_IZR, <- Hm. apply (gadd_val _ _ HG); [reflexivity|]. cbn [eval]. now rewrite rv_zq.
    - fold rho'. apply Hsum; auto; [unfold rho'; now rewrite upd_same|]. intros i Hi. destruct (Hv i Hi) as (Ex & Ez & Eg).
      rewrite eval_Mul2. rewrite (Vc rho' i); [|intros s Hs _; apply (A p); tauto|exact Hi]. cbn [eval].
      replace (eval I (upd rho' h (IZR i)) b) with (Some y).
      + cbn [obind]. rewrite upd_same, Ez. cbn [olift2]. f_equal. rewrite Eg. ring.
      + rewrite <- Eb. symmetry. rewrite eval_upd_fresh by exact Hb. apply eval_agree. apply (A b). tauto. }
  assert (F : forall n, (Z.of_nat n <= U + 1)%Z ->
    eval I rho (minus_front G h c b (substitute G (Sym m) (gadd G (Sym m) (Num (zq num))) (sum_pe c h m b)) n) = Some (zsum g 0 (Z.to_nat (U + 1)) - zsum g 0 n)).
  { induction n as [|n IH]; intros Hn'; cbn [minus_front zsum]; [rewrite Rminus_0_r; exact S0|].
    destruct (Hv (Z.of_nat n) ltac:(lia)) as (Ex & Ez & Eg).
    rewrite (gsub_val _ _ HG _ _ _ _ (x (Z.of_nat n) * z (Z.of_nat n)) (IH ltac:(lia))).
    - f_equal. rewrite Z.add_0_l, Eg. ring.
    - apply (gmul_val _ _ HG).
      + apply (substitute_ok I G HG) with (w := IZR (Z.of_nat n)).
        * apply no_capture_only; [intros s Hs; discriminate|exact NB].
        * cbn [eval]. now rewrite rv_zq.
        * apply Vc; [auto|lia].
      + apply (gpow_val _ _ HG _ _ _ y (IZR (Z.of_nat n))); auto. cbn [eval]. now rewrite rv_zq. }
  rewrite F by lia. f_equal. replace (Z.to_nat (U + 1)) with (Z.to_nat lo + Z.to_nat (U - lo + 1))%nat by lia. rewrite zsum_app. rewrite Z2Nat.id by lia. rewrite Z.add_0_l. ring.
Qed.

Lemma all_zero_sum l f : Forall (fun t => let '(b, p, q) := t in q = Num 0 /\ p = Num 0) l -> (forall i, (0 <= i <= U)%Z -> at_k i (exp_sum k l) = Some (f i)) ->
  forall i, (0 <= i <= U)%Z -> f i = 0.
Proof.
  intros Fl Hf i Hi. specialize (Hf i Hi). revert Hf. generalize (f i). clear - Fl. induction Fl as [|[[b p] q] l [-> ->] Fl IH]; intros v H.
  - cbn in H. congruence.
  - unfold exp_sum in H. cbn [map] in H. rewrite eval_Add, esum_cons in H. apply olift2_some in H as (u & w & Eu & Ew & ->).
    rewrite (IH w Ew). rewrite eval_Mul2, eval_Add2 in Eu. cbn [eval olift2] in Eu. rewrite rv_0 in Eu.
    apply olift2_some in Eu as (z & o & _ & Eo & ->). assert (o = 0 + 0) by congruence. subst o. ring.
Qed.
Lemma terms_ok l f : Forall (fun t => let '(b, p, q) := t in let c := substitute G (Sym k) (Sym h) p in
    q = Num 0 /\ has h p = false /\ has h b = false /\ (num = 0%Z \/ has m p = false /\ has m b = false) /\
    no_capture k (Sym h) p /\ not_bound h c /\ no_capture m (gadd G (Sym m) (Num (zq num))) (sum_pe c h m b)) l ->
  Forall (fun t => has k (fst (fst t)) = false) l ->
  (forall i, (0 <= i <= U)%Z -> at_k i (exp_sum k l) = Some (f i)) ->
  eval I rho (fold_right (fun t acc => let '(b, p, _) := t in gadd G acc (sum_of_term G sum_pe h k lo m num b p)) (Num 0) l) = Some (zsum f lo (Z.to_nat (U - lo + 1))).
Proof.
  intros Ft Fk. revert f. induction l as [|[[b p] q] l IH]; intros f Hf; cbn [fold_right].
  - cbn [eval]. rewrite rv_0. f_equal. symmetry. rewrite (zsum_ext _ (fun _ => 0)), zsum_zero; auto. intros i Hi. specialize (Hf i ltac:(lia)). cbn in Hf. congruence.
  - apply Forall_cons_iff in Ft as [(-> & Hp & Hb & Hn & NC & NB & NCm) Ft]. apply Forall_cons_iff in Fk as [Kb Fk]. cbn [fst] in Kb.
    assert (P : forall i, (0 <= i <= U)%Z -> exists x y z w, at_k i (exp_sum k l) = Some w /\ at_k i p = Some x /\ eval I rho b = Some y /\ rpow y (IZR i) = Some z /\ f i = z * x + w).
    { intros i Hi. specialize (Hf i Hi). unfold exp_sum in Hf. cbn [map] in Hf. rewrite eval_Add, esum_cons in Hf. apply olift2_some in Hf as (u & w & Eu & Ew & Ef).
      rewrite eval_Mul2, eval_Add2 in Eu. apply olift2_some in Eu as (z & x & Ez & Ex & ->). apply olift2_some in Ex as (x' & o & Ex & Eo & ->).
      cbn [eval] in Eo. rewrite rv_0 in Eo. assert (o = 0) by congruence. subst o. cbn [eval] in Ez. rewrite eval_upd_fresh in Ez by exact Kb.
      destruct (eval I rho b) as [y|] eqn:Ey; [|discriminate]. cbn [obind] in Ez. rewrite upd_same in Ez.
      exists x', y, z, w. repeat split; auto. rewrite Ef. ring. }
    pose (val := fun e i => match at_k i e with Some v => v | None => 0 end).
    assert (Vw : forall i, (0 <= i <= U)%Z -> at_k i (exp_sum k l) = Some (val (exp_sum k l) i)).
    { intros i Hi. destruct (P i Hi) as (x & y & z & w' & Ew & _). unfold val. now rewrite Ew. }
    destruct (P 0%Z ltac:(lia)) as (_ & y & _ & _ & _ & _ & Ey & _ & _).
    pose (z := fun i => match rpow y (IZR i) with Some v => v | None => 0 end).
    rewrite (gadd_val _ _ HG _ _ _ _ _ (IH Ft Fk _ Vw) (term_ok b p (val p) y z (fun i => z i * val p i) Hp Hb Hn Kb NC NB NCm Ey ltac:(
      intros i Hi; destruct (P i Hi) as (x & y' & z' & w & _ & Ex & Ey' & Ez & _); assert (y' = y) by congruence; subst y'; unfold z, val; rewrite Ex, Ez; auto))).
    f_equal. rewrite <- zsum_plus. apply zsum_ext. intros i Hi. destruct (P i ltac:(lia)) as (x & y' & z' & w & Ew & Ex & Ey' & Ez & Ef). assert (y' = y) by congruence. subst y'.
    unfold z, val. rewrite Ew, Ex, Ez, Ef. ring.
Qed.
Lemma not_all_zero_false l : not_all_zero l = false -> Forall (fun e => e = Num 0) l.
Proof.
  induction l as [|e l IH]; cbn [not_all_zero existsb]; [constructor|]. intros H. apply orb_false_iff in H as [H1 H2]. constructor; [|apply IH, H2].
  apply negb_false_iff in H1. now apply is_num_eq.
Qed.
Lemma not_all_zero_all l : Forall (fun e => e = Num 0) l -> not_all_zero l = false.
Proof. induction 1 as [|e l -> _ IH]; auto. Qed.

Lemma compute_poly_ok e f up : upper_is up m num -> summands I rho k e 0 U f -> exp_poly_treated G expand simplify sum_pe h k m num e ->
  eval I rho (compute_sum G expand simplify sum_pe gosper h k (zq lo) up e) = Some (zsum f lo (Z.to_nat (U - lo + 1))).
Proof.
  intros Hup Hf Ht. unfold compute_sum. apply upper_of_is in Hup. rewrite Hup, q_int_zq. unfold exp_poly_treated in Ht.
  pose proof (exp_poly_ok I G HG simplify (expand e) k Hsimp) as (Hv & _ & Fb). set (l := exp_poly_decomposition G simplify (expand e) k) in *.
  assert (Vb : forall i, (0 <= i <= U)%Z -> at_k i (exp_sum k l) = Some (f i)) by (intros i Hi; apply Hv, Hexp, Hf, Hi).
  assert (Fq : Forall (fun x => x = Num 0) (map snd l)).
  { apply Forall_map. eapply Forall_impl; [|exact Ht]. intros [[b p] q] H. apply H. }
  rewrite (not_all_zero_all _ Fq). destruct (not_all_zero (map (fun t => snd (fst t)) l)) eqn:Z0.
  - apply terms_ok; auto. eapply Forall_impl; [|exact Fb]. intros t H. apply H.
  - apply not_all_zero_false in Z0. cbn [eval]. rewrite rv_0. f_equal. symmetry. rewrite (zsum_ext _ (fun _ => 0)), zsum_zero; auto. intros i Hi.
    apply (all_zero_sum l f); auto; [|lia]. apply Forall_forall. intros [[b p] q] Hin. split.
    + apply (proj1 (Forall_forall _ _) Fq q). apply in_map_iff. exists (b, p, q). auto.
    + apply (proj1 (Forall_forall _ _) Z0 p). apply in_map_iff. exists (b, p, q). auto.
Qed.
Lemma compute_gosper_ok e f up : upper_is up m num -> summands I rho k e lo (U + 1) f -> non_poly_treated G expand simplify k m e ->
  eval I rho (compute_sum G expand simplify sum_pe gosper h k (zq lo) up e) = Some (zsum f lo (Z.to_nat (U - lo + 1))).
Proof.
  intros Hup Hf ((b & q & El) & Hme & NC). unfold compute_sum. rewrite (proj2 (upper_of_is up m num) Hup), q_int_zq, El. cbn [map fst snd not_all_zero existsb fold_right].
  replace (is_num 0 (Num 0)) with true by reflexivity. cbn [negb orb].
  assert (Eup : eval I rho up = Some (IZR U)) by (apply (upper_value I rho up m num M); auto).
  destruct (is_num 0 q) eqn:Q; cbn [negb orb].
  - apply is_num_eq in Q. subst q. cbn [eval]. rewrite rv_0. f_equal. symmetry. rewrite (zsum_ext _ (fun _ => 0)), zsum_zero; auto. intros i Hi.
    pose proof (exp_poly_ok I G HG simplify (expand e) k Hsimp) as (Hv & _ & _). rewrite El in Hv.
    assert (E := Hv _ _ (Hexp _ _ _ (Hf i ltac:(lia)))). unfold exp_sum in E. cbn [map] in E. rewrite eval_Add, esum_cons, esum_nil in E. apply olift2_some in E as (u & w & Eu & Ew & ->).
    rewrite eval_Mul2, eval_Add2 in Eu. cbn [eval olift2] in Eu. rewrite rv_0 in Eu. apply olift2_some in Eu as (z & o & _ & Eo & ->).
    assert (o = 0 + 0) by congruence. assert (w = 0) by congruence. subst. ring.
  - destruct (gosper m (substitute G (Sym k) (Sym m) e) lo up) as [s|] eqn:Gs.
    + rewrite (gadd_val _ _ HG _ (Num 0) s 0 (zsum f lo (Z.to_nat (U - lo + 1)))).
      * f_equal. ring.
      * cbn [eval]. now rewrite rv_0.
      * apply (Hgos _ _ _ _ _ Gs rho U f HU Eup). intros i Hi. apply (substitute_ok I G HG) with (w := IZR i); [exact NC|cbn [eval]; now rewrite upd_same|].
        rewrite <- (Hf i Hi). apply eval_agree. intros s' Hs. unfold upd. destruct (String.eqb_spec s' k); auto. destruct (String.eqb_spec s' m); [subst; congruence|auto].
    + apply sum_value; auto; [cbn [eval]; now rewrite rv_zq|]. intros i Hi. apply Hf. lia.
Qed.
End OneSum.

Theorem compute_sum_ok rho k lo up e v : compute_treated I G expand simplify sum_pe h rho k (Num lo) up e -> eval I rho (SumE k (Num lo) up e) = Some v ->
  eval I rho (compute_sum G expand simplify sum_pe gosper h k lo up e) = Some v.
Proof.
  intros (l & El & D) E. assert (lo = zq l) by congruence. subst lo. clear El. destruct D as [D|(m & num & M & Hup & Hm & hk & hm & km & L0 & U0 & LU & D)].
  - unfold compute_sum. destruct (upper_of up) as [[m num]|] eqn:Eu; auto. apply upper_of_is in Eu. now apply D in Eu.
  - assert (Eup : eval I rho up = Some (IZR (M + num))) by (apply (upper_value I rho up m num M); auto).
    assert (Elo : eval I rho (Num (zq l)) = Some (IZR l)) by (cbn [eval]; now rewrite rv_zq).
    destruct D as [[[f Hf] D]|[[f Hf] D]].
    + rewrite (compute_poly_ok rho k m l num M) with (f := f); auto. rewrite <- E. symmetry. apply sum_value; auto. intros i Hi. apply Hf. lia.
    + rewrite (compute_gosper_ok rho k m l num M) with (f := f); auto. rewrite <- E. symmetry. apply sum_value; auto. intros i Hi. apply Hf. lia.
Qed.
End Sums.
