From Coq Require Import ZArith QArith Qcanon Reals List String Bool Lia Lra.
From Verif Require Import Ast ExprModel ExprSpec ExprProofs1 ExprProofs2 ElimModel ElimSpec ElimProofs NonLinModel DecompModel DecompSpec DecompProofs VerifyProofs2 BoundVProofs WClassProofs2 ProdModel ProdSpec ProdProofs ProdProofs2.
Import ListNotations.
Local Open Scope list_scope.
Local Open Scope R_scope.

Section Special.
Context (I : interp) (G : ginac) (HG : ginac_ok I G) (HF : factorial_interp I) (HB : no_new_binders G).
Context (rho0 : string -> R) (k : string) (lo N : Z) (HN : (0 <= N)%Z).
Notation rho := (env rho0 N).
Notation ev e := (eval I rho e).
Notation at_k i e := (eval I (upd rho k (IZR i)) e).
Notation fv := (fv I rho0 k N).
Notation good := (good I rho0 k lo N).
Notation cnt := (Z.to_nat (N - lo + 1)).

Lemma power_v b : 0 < IZR b -> ev (minus_n_power G b) = Some (/ IZR b ^ Z.to_nat N).
Proof.
  intros Hb. unfold minus_n_power. eapply (gpow_val _ _ HG); [apply int_v|apply (gmul_val _ _ HG); [apply int_v|apply n_v]|].
  unfold rpow. rewrite <- mult_IZR, as_int_IZR. destruct (Req_EM_T (IZR b) 0); [lra|]. f_equal. replace (-1 * N)%Z with (- N)%Z by lia. rewrite powerRZ_neg'. f_equal.
  rewrite pow_powerRZ. f_equal. lia.
Qed.
Lemma over_fact_v a b z P : 0 < IZR b -> (0 <= z)%Z -> ev a = Some (IZR z) -> P * IZR b ^ Z.to_nat N * INR (fact (Z.to_nat N)) = INR (fact (Z.to_nat z)) ->
  ev (gdiv G (gmul G (gfun G FFact [a]) (minus_n_power G b)) (gfun G FFact [Sym "n"])) = Some P.
Proof.
  intros Hb Hz A E. rewrite (div_val I G HG _ _ _ (INR (fact (Z.to_nat z)) * / IZR b ^ Z.to_nat N) (INR (fact (Z.to_nat N)))).
  - f_equal. rewrite <- E. field. split; [apply pow_nonzero; lra|apply INR_fact_nz].
  - apply (gmul_val _ _ HG); [now apply (fact_v I G HG HF)|now apply power_v].
  - apply (fact_v I G HG HF); [apply n_v|exact HN].
  - apply INR_fact_nz.
Qed.
Lemma nb_int z : no_binders (int z). Proof. exact Logic.I. Qed.
Lemma special_ok e p : special_form G k e = Some p -> exists g : Z -> R,
  (forall i, at_k i e = Some (g i)) /\ (forall i, (1 <= i)%Z -> g i <> 0) /\ no_binders e /\ ev p = Some (zprod g 1 (Z.to_nat N)).
Proof.
  unfold special_form. intros H.
  assert (K : forall i z, at_k i (gmul G (int z) (Sym k)) = Some (IZR z * IZR i)) by (intros; apply (gmul_val _ _ HG); [apply int_v|apply k_v]).
  assert (Kn : forall z, ev (gmul G (int z) (Sym "n")) = Some (IZR z * IZR N)) by (intros; apply (gmul_val _ _ HG); [apply int_v|apply n_v]).
  assert (B : forall z, no_binders (gmul G (int z) (Sym k))) by (intros; apply HB; exact Logic.I).
  destruct (expr_eqb e _) eqn:E1; [|destruct (expr_eqb e (gadd G _ (int (-1)))) eqn:E2; [|destruct (expr_eqb e _) eqn:E3 in H; [|discriminate]]];
    match goal with E : expr_eqb e ?a = true |- _ => apply expr_eqb_eq in E; subst e end;
    apply (f_equal (fun o => match o with Some a => a | None => p end)) in H; subst p.
  - exists (fun i => 2 * IZR i + 1). split; [|split; [|split]].
    + intros i. apply (gadd_val _ _ HG); [apply K|apply int_v].
    + intros i Hi. apply IZR_le in Hi. lra.
    + apply HB; [apply B|exact Logic.I].
    + apply (over_fact_v _ _ (2 * N + 1)); try lra; try lia.
      * rewrite plus_IZR, mult_IZR. apply (gadd_val _ _ HG); [apply Kn|apply int_v].
      * rewrite prod_odd. do 2 f_equal. lia.
  - exists (fun i => 2 * IZR i - 1). split; [|split; [|split]].
    + intros i. unfold Rminus. rewrite <- opp_IZR. apply (gadd_val _ _ HG); [apply K|apply int_v].
    + intros i Hi. apply IZR_le in Hi. lra.
    + apply HB; [apply B|exact Logic.I].
    + apply (over_fact_v _ _ (2 * N)); try lra; try lia.
      * rewrite mult_IZR. apply Kn.
      * rewrite prod_odd2. do 2 f_equal. lia.
  - exists (fun i => 2 - 9 * IZR i + 9 * (IZR i * IZR i)). split; [|split; [|split]].
    + intros i. replace (2 - 9 * IZR i) with (2 + -9 * IZR i) by ring. apply (gadd_val _ _ HG); [apply (gadd_val _ _ HG); [apply int_v|apply K]|].
      apply (gmul_val _ _ HG); [apply int_v|]. apply (gmul_val _ _ HG); apply k_v.
    + intros i Hi. apply IZR_le in Hi. nra.
    + apply HB; [apply HB; [exact Logic.I|apply B]|]. apply HB; [exact Logic.I|]. apply HB; exact Logic.I.
    + apply (over_fact_v _ _ (3 * N)); try lra; try lia.
      * rewrite mult_IZR. apply Kn.
      * rewrite prod_third. do 2 f_equal. lia.
Qed.
Lemma extra_ok e g c : no_binders e -> (forall i, at_k i e = Some (g i)) -> ev (extra_factor G k e c) = Some (zprod g 1 c).
Proof.
  intros NB Hg. induction c as [|c IH]; cbn [extra_factor zprod]; [apply num1_v|]. apply (gmul_val _ _ HG); auto.
  eapply (substitute_ok I G HG); [now apply no_capture_nobind|apply int_v|]. rewrite Hg. do 2 f_equal. lia.
Qed.
Lemma pow_m1_v : ev (gpow G (int (-1)) (Sym "n")) = Some ((-1) ^ Z.to_nat N).
Proof. eapply (gpow_val _ _ HG); [apply int_v|apply n_v|]. rewrite <- (Z2Nat.id N HN), <- INR_IZR_INZ. rewrite rpow_nat. now rewrite Nat2Z.id. Qed.
Lemma m1_sq n : (-1) ^ n * (-1) ^ n = 1. Proof. rewrite <- Rpow_mult_distr. replace (-1 * -1) with 1 by ring. apply pow1. Qed.
Lemma m1_even z : (1 <= z)%Z -> (-1) ^ Z.to_nat (z - 1) = if Z.even z then -1 else 1.
Proof.
  intros Hz. pattern z. apply Zlt_lower_bound_ind with (z := 1%Z); [|exact Hz]. clear z Hz. intros z IH Hz.
  destruct (Z.eq_dec z 1) as [->|]; [reflexivity|]. specialize (IH (z - 1)%Z ltac:(lia)). replace (Z.to_nat (z - 1)) with (S (Z.to_nat (z - 1 - 1))) by lia. cbn [pow]. rewrite IH.
  rewrite (Z.even_sub z 1). cbn. destruct (Z.even z); cbn; ring.
Qed.
Lemma try_special_ok lc e p : (1 <= lo)%Z -> (lo <= N + 1)%Z -> try_special_cases G lc k lo e = Some p -> good e -> ev p = Some (zprod (fv e) lo cnt).
Proof.
  intros Hlo HlN H Hg. unfold try_special_cases in H. set (neg := lc e) in *. clearbody neg. set (e' := if neg then gmul G e (int (-1)) else e) in *.
  destruct (special_form G k e') as [q|] eqn:Es; [|discriminate].
  destruct (special_ok e' q Es) as (g & Vg & Ng & NB & Vq).
  (* the values of e *)
  assert (Vf : forall i, (lo <= i)%Z -> fv e i = (if neg then -1 else 1) * g i).
  { intros i Hi. destruct (good_val I rho0 k lo N e i Hg Hi) as [E _]. unfold e' in Vg. destruct neg.
    - specialize (Vg i). rewrite (gmul_val _ _ HG _ _ _ _ _ E (int_v I _ (-1))) in Vg. assert (fv e i * -1 = g i) by congruence. lra.
    - specialize (Vg i). rewrite Vg in E. assert (g i = fv e i) by congruence. lra. }
  clearbody e'. rewrite (zprod_ext _ (fun i => (if neg then -1 else 1) * g i)) by (intros; apply Vf; lia). rewrite zprod_mul, zprod_const.
  (* without the extra terms *)
  set (q1 := if (1 <? lo)%Z then _ else q) in H.
  assert (V1 : ev q1 = Some ((if neg && Z.even lo then -1 else 1) * zprod g lo cnt)).
  { assert (Sp : zprod g 1 (Z.to_nat N) = zprod g 1 (Z.to_nat (lo - 1)) * zprod g lo cnt).
    { replace (Z.to_nat N) with (Z.to_nat (lo - 1) + cnt)%nat by lia. rewrite zprod_app. do 2 f_equal. lia. }
    unfold q1. destruct (Z.ltb_spec 1 lo) as [L|L].
    - assert (Vr : ev (remove_extra_terms G k lo e' q) = Some (zprod g lo cnt)).
      { unfold remove_extra_terms. rewrite (div_val I G HG _ _ _ _ _ Vq (extra_ok e' g _ NB Vg)); [|apply zprod_nz; auto]. f_equal. rewrite Sp. field. apply zprod_nz; auto. }
      destruct (neg && Z.even lo)%bool; [|now rewrite Rmult_1_l]. rewrite Rmult_comm. apply (gmul_val _ _ HG); [exact Vr|apply int_v].
    - assert (lo = 1%Z) as -> by lia. replace (Z.even 1) with false by reflexivity. rewrite andb_false_r, Rmult_1_l, Vq. do 2 f_equal. lia. }
  clearbody q1. injection H as <-. destruct neg; cbn [andb] in V1.
  - rewrite (gmul_val _ _ HG _ _ _ _ _ V1 pow_m1_v). f_equal. rewrite <- (m1_even lo Hlo).
    replace (Z.to_nat N) with (Z.to_nat (lo - 1) + cnt)%nat by lia. rewrite pow_add. transitivity ((-1) ^ Z.to_nat (lo - 1) * (-1) ^ Z.to_nat (lo - 1) * ((-1) ^ cnt * zprod g lo cnt)); [ring|]. rewrite m1_sq. ring.
  - rewrite V1. f_equal. rewrite pow1. ring.
Qed.
End Special.

Section Main.
Context (I : interp) (G : ginac) (HG : ginac_ok I G) (HF : factorial_interp I) (HB : no_new_binders G).
Context (is_poly lc_negative : expr -> bool) (content primpart : expr -> expr).
Context (num_den : expr -> expr * expr) (expand simplify : expr -> expr) (factorize : expr -> expr * expr).
Context (sum_pe : expr -> string -> expr -> expr) (h : string).
Context (rho0 : string -> R) (k : string) (lo N : Z) (hk : h <> k) (hn : h <> "n"%string).
Context (Hlo : (1 <= lo)%Z) (HN : (lo <= N + 1)%Z).
Notation rho := (env rho0 N).
Notation ev e := (eval I rho e).
Notation at_k i e := (eval I (upd rho k (IZR i)) e).
Notation fv := (fv I rho0 k N).
Notation good := (good I rho0 k lo N).
Notation cnt := (Z.to_nat (N - lo + 1)).
Notation treated := (treated I rho G simplify expand k h lo).
Context (Hcont : forall e, splits_product I rho G simplify expand k h lo e (primpart e) (content e)).
Context (Hnd : forall e, splits_quotient I rho G simplify expand k h lo e (fst (num_den e)) (snd (num_den e))).
Context (Hexp : forall e, refines I e (expand e)) (Hsimp : forall e, refines I e (simplify e)).
Context (Hsum : sums_exponentials I sum_pe).
Notation comp := (comp_prod G is_poly lc_negative content primpart num_den expand simplify sum_pe h k lo).

(** The exponent of a constant base. *)
Lemma upd0 x : rpow x 0 = Some 1.
Proof. unfold rpow. change 0 with (IZR 0) at 1. rewrite as_int_IZR. destruct (Req_EM_T x 0); reflexivity. Qed.
Lemma exponent_ok b s : exponent_treated I rho G simplify expand k h lo b -> (forall i, (1 <= i)%Z -> exists v, at_k i b = Some v) ->
  new_exponent G expand simplify sum_pe h k b = Some s -> ev s = Some (zsum (fv b) 1 (Z.to_nat N)).
Proof.
  intros (E1 & [v0 V0] & Ft) Hb H. unfold new_exponent in H. destruct (existsb _ _); [|discriminate]. injection H as <-.
  pose proof (exp_poly_ok I G HG simplify (expand b) k Hsimp) as (Hv & _ & Fb). set (l := exp_poly_decomposition G simplify (expand b) k) in *.
  assert (Vb : forall i, (0 <= i)%Z -> at_k i (exp_sum k l) = Some (fv b i)).
  { intros i Hi. apply Hv, Hexp. unfold ProdProofs2.fv. destruct (Z.eq_dec i 0) as [->|]; [rewrite V0; reflexivity|]. destruct (Hb i ltac:(lia)) as [v Ev]. now rewrite Ev. }
  clear Hv V0. revert Vb. generalize (fv b). clear Hb. clearbody l. induction l as [|[[a p] q] l IH]; intros f Vb.
  - cbn [fold_right]. rewrite int_v. f_equal. clear - Vb. assert (F : forall i, (0 <= i)%Z -> f i = 0) by (intros i Hi; specialize (Vb i Hi); cbn in Vb; congruence).
    assert (Z0 : forall n, zsum f 1 n = 0); [|now rewrite Z0]. induction n as [|n IHn]; cbn [zsum]; auto. rewrite IHn, F by lia. ring.
  - apply Forall_cons_iff in Ft as [(-> & NC & NBh & Hp & Ha) Ft]. apply Forall_cons_iff in Fb as [[Ka _] Fb]. cbn [fst snd] in Ka.
    assert (P : forall i, (0 <= i)%Z -> exists x y z w, at_k i (exp_sum k l) = Some w /\ at_k i p = Some x /\ ev a = Some y /\ rpow y (IZR i) = Some z /\ f i = z * x + w).
    { intros i Hi. specialize (Vb i Hi). unfold exp_sum in Vb. cbn [map] in Vb. rewrite eval_Add, esum_cons in Vb. apply olift2_some in Vb as (u & w & Eu & Ew & Ef).
      rewrite eval_Mul2, eval_Add2 in Eu. apply olift2_some in Eu as (z & x & Ez & Ex & ->). apply olift2_some in Ex as (x' & o & Ex & Eo & ->).
      cbn [eval] in Eo. rewrite rv_0 in Eo. assert (o = 0) by congruence. subst o. cbn [eval] in Ez.
      destruct (eval I (upd rho k (IZR i)) a) as [y|] eqn:Ey; [|discriminate]. cbn [obind] in Ez.
      replace (upd rho k (IZR i) k) with (IZR i) in Ez by (unfold upd; now rewrite String.eqb_refl).
      exists x', y, z, w. repeat split; auto; [|rewrite Ef; ring]. rewrite <- Ey. apply eval_agree. intros s Hs. unfold upd at 1. destruct (String.eqb_spec s k); [subst; congruence|reflexivity]. }
    (* the remaining summands *)
    pose (w := fun i => fv (exp_sum k l) i). assert (Vw : forall i, (0 <= i)%Z -> at_k i (exp_sum k l) = Some (w i)).
    { intros i Hi. destruct (P i Hi) as (x & y & z & w' & Ew & _). unfold w. now rewrite (fv_val _ _ _ _ _ _ _ Ew). }
    specialize (IH Ft Fb w Vw). cbn [fold_right].
    pose (g := fun i => f i - w i). set (c := substitute G (Sym k) (Sym h) p) in *.
    assert (Vc : forall i x, at_k i p = Some x -> eval I (upd rho h (IZR i)) c = Some x).
    { intros i x Ex. eapply (substitute_ok I G HG); [exact NC|cbn [eval]; unfold upd at 1; now rewrite String.eqb_refl|]. rewrite <- Ex. apply eval_agree.
      intros s Hs. rewrite upd_upd_ne. unfold upd at 1. destruct (String.eqb_spec s k); auto. destruct (String.eqb_spec s h); [subst; congruence|reflexivity]. }
    assert (Vs : ev (sum_pe c h a) = Some (zsum g 0 (Z.to_nat (N + 1)))).
    { apply Hsum; [lia|]. intros i Hi. destruct (P i ltac:(lia)) as (x & y & z & w' & Ew & Ex & Ea & Ez & Ef). rewrite eval_Mul2, (Vc i x Ex). cbn [eval].
      replace (eval I (upd rho h (IZR i)) a) with (ev a) by (apply eval_agree; intros s Hs; unfold upd at 1; destruct (String.eqb_spec s h); [subst; congruence|reflexivity]).
      rewrite Ea. cbn [obind]. replace (upd rho h (IZR i) h) with (IZR i) by (unfold upd; now rewrite String.eqb_refl). rewrite Ez. cbn [olift2]. f_equal. unfold g. rewrite Vw in Ew by lia. assert (w i = w') by congruence. lra. }
    destruct (P 0%Z ltac:(lia)) as (x & y & z & w' & Ew & Ex & Ea & Ez & Ef). rewrite upd0 in Ez. assert (z = 1) by congruence. subst z.
    assert (V0 : ev (substitute G (Sym h) (int 0) c) = Some (g 0%Z)).
    { eapply (substitute_ok I G HG); [|apply int_v|].
      - apply no_capture_only; [intros s Hs; discriminate|exact NBh].
      - rewrite (Vc 0%Z x Ex). f_equal. unfold g. rewrite Vw in Ew by lia. assert (w 0%Z = w') by congruence. lra. }
    rewrite (gsub_val _ _ HG _ _ _ _ _ (gadd_val _ _ HG _ _ _ _ _ IH Vs) V0). f_equal.
    replace (Z.to_nat (N + 1)) with (1 + Z.to_nat N)%nat by lia. rewrite zsum_app. cbn [zsum]. change (0 + Z.of_nat 0)%Z with 0%Z. change (0 + Z.of_nat 1)%Z with 1%Z.
    replace (zsum w 1 (Z.to_nat N) + (0 + g 0%Z + zsum g 1 (Z.to_nat N)) - g 0%Z) with (zsum w 1 (Z.to_nat N) + zsum g 1 (Z.to_nat N)) by ring.
    rewrite <- zsum_plus. apply zsum_ext. intros. unfold g. ring.
Qed.

Theorem comp_prod_ok fuel : forall den e p, comp fuel den e = Value p -> treated e -> good e -> ev p = Some (zprod (fv e) lo cnt).
Proof.
  induction fuel as [|fuel IH]; intros den e p H T Hg; [discriminate|]. cbn [comp_prod] in H.
  destruct (has k e) eqn:Hk; cbn [negb] in H; [|assert (p = gpow G e (gadd G (gsub G (Sym "n") (int lo)) (int 1))) as -> by congruence; now apply (const_ok I G HG)].
  destruct (expr_eqb e (Sym k)) eqn:Ek.
  { apply expr_eqb_eq in Ek. subst e. destruct (Z.ltb_spec 0 lo); [|lia]. apply bind_value in H as (b & Fb & H). injection H as <-. now apply (index_ok I G HG HF). }
  assert (Sy : symbolic G h k lo e = Value p -> ev p = Some (zprod (fv e) lo cnt)).
  { intros S. destruct e; cbn [ProdSpec.treated] in T; destruct T as (NC & Hh & _); now apply (symbolic_ok I G HG rho0 k h lo N _ _ S). }
  destruct e as [| | |l|l|a b| | |]; try (now apply Sy).
  - (* sum *)
    destruct (if is_poly (Add l) then try_special_cases G lc_negative k lo (Add l) else None) as [q|] eqn:Es.
    { injection H as <-. destruct (is_poly (Add l)); [|discriminate]. eapply (try_special_ok I G HG HF HB); eauto; lia. }
    destruct (shift_of k (Add l)) as [[num|]|] eqn:Sh; [|now apply Sy|].
    { eapply (shift_ok I G HG HF rho0 k lo N _ num den); eauto. intros Np Hle.
      assert (Qi : q_is_int num = true).
      { apply shift_v in Sh as [(a & E & ->)|[_ Q]]; auto. assert (l = [Sym k; Num num]) as -> by congruence. cbn in T. destruct T as (_ & _ & T). now apply T. }
      pose proof (q_int_v _ Qi) as V. exists (- q_int num)%Z. split; [rewrite V; f_equal; lia|].
      exfalso. destruct (Hg (- q_int num)%Z) as (v & Ev & Nv).
      - apply le_IZR. rewrite opp_IZR. lra.
      - rewrite (shift_at I rho0 k N _ num _ Sh), V, opp_IZR in Ev. apply Nv. assert (v = - IZR (q_int num) + IZR (q_int num)) by congruence. lra. }
    destruct (Hnd (Add l)) as [Qv Qt]. destruct (num_den (Add l)) as [nm dn] eqn:End. cbn [fst snd] in Qv, Qt.
    assert (Quo : bind (comp fuel false nm) (fun a => bind (comp fuel false dn) (fun b => Value (gmul G a (gpow G b (int (-1)))))) = Value p -> ev p = Some (zprod (fv (Add l)) lo cnt)).
    { intros Q. apply bind_value in Q as (a & Ca & Q). apply bind_value in Q as (b & Cb & Q). injection Q as <-. destruct (Qt T) as [Ta Tb].
      assert (V : forall i, (lo <= i)%Z -> at_k i nm = Some (fv nm i) /\ at_k i dn = Some (fv dn i) /\ fv nm i <> 0 /\ fv dn i <> 0 /\ fv (Add l) i = fv nm i * / fv dn i).
      { intros i Hi. destruct (good_val _ _ _ _ _ _ i Hg Hi) as [E Ne]. destruct (Qv _ _ E) as (x & y & Ex & Ey & Ny & Ev). rewrite (fv_val _ _ _ _ _ _ _ Ex), (fv_val _ _ _ _ _ _ _ Ey).
        repeat split; auto. intros ->. apply Ne. rewrite Ev. unfold Rdiv. ring. }
      assert (Ga : good nm) by (intros i Hi; destruct (V i Hi) as (A & _ & B & _); eauto). assert (Gb : good dn) by (intros i Hi; destruct (V i Hi) as (_ & A & _ & B & _); eauto).
      rewrite (zprod_ext _ (fun i => fv nm i * / fv dn i)) by (intros i Hi; now apply V). rewrite zprod_mul, zprod_inv by (intros; now apply V).
      apply (gmul_val _ _ HG); [now apply (IH false)|]. eapply (gpow_val _ _ HG); [eapply (IH false); eauto|apply int_v|]. apply inv_v. apply zprod_nz. intros. now apply V. }
    destruct (is_num 1 (content (Add l))) eqn:Ec; [destruct (is_num 1 dn); auto|].
    apply bind_value in H as (c & C & H). destruct (is_num 1 dn); [|now apply Quo]. injection H as <-.
    apply bind_value in C as (a & Ca & C). apply bind_value in C as (b & Cb & C). injection C as <-. destruct (Hcont (Add l)) as [Cv Ct]. destruct (Ct T) as [Ta Tb].
    assert (V : forall i, (lo <= i)%Z -> at_k i (primpart (Add l)) = Some (fv (primpart (Add l)) i) /\ at_k i (content (Add l)) = Some (fv (content (Add l)) i) /\ fv (Add l) i = fv (primpart (Add l)) i * fv (content (Add l)) i /\ fv (Add l) i <> 0).
    { intros i Hi. destruct (good_val _ _ _ _ _ _ i Hg Hi) as [E Ne]. pose proof (Cv _ _ E) as V. rewrite eval_Mul2 in V. apply olift2_some in V as (x & y & Ex & Ey & Ev). rewrite (fv_val _ _ _ _ _ _ _ Ex), (fv_val _ _ _ _ _ _ _ Ey). auto. }
    assert (Ga : good (primpart (Add l))). { intros i Hi. destruct (V i Hi) as (A & _ & B & Ne). exists (fv (primpart (Add l)) i). split; auto. intros E0. apply Ne. rewrite B, E0. ring. }
    assert (Gb : good (content (Add l))). { intros i Hi. destruct (V i Hi) as (_ & A & B & Ne). exists (fv (content (Add l)) i). split; auto. intros E0. apply Ne. rewrite B, E0. ring. }
    rewrite (zprod_ext _ (fun i => fv (primpart (Add l)) i * fv (content (Add l)) i)) by (intros i Hi; now apply V). rewrite zprod_mul.
    apply (gmul_val _ _ HG); eapply IH; eauto.
  - (* product *)
    destruct T as (_ & _ & T). clear Sy Hk Ek. revert p H Hg. induction l as [|a l IHl]; intros p H Hg.
    + cbn [fold_right] in H. assert (p = Num 1) as -> by congruence. rewrite num1_v. f_equal. rewrite (zprod_ext _ (fun _ => 1)); [now rewrite zprod_const, pow1|]. intros i Hi. now apply fv_val.
    + cbn [fold_right] in H, T. destruct T as [Ta T]. apply bind_value in H as (q & Eq & H). apply bind_value in H as (r & Er & H). injection H as <-.
      assert (V : forall i, (lo <= i)%Z -> at_k i a = Some (fv a i) /\ at_k i (Mul l) = Some (fv (Mul l) i) /\ fv (Mul (a :: l)) i = fv a i * fv (Mul l) i /\ fv (Mul (a :: l)) i <> 0).
      { intros i Hi. destruct (good_val _ _ _ _ _ _ i Hg Hi) as [E Ne]. pose proof E as V. rewrite eval_Mul, eprod_cons in V. apply olift2_some in V as (x & y & Ex & Ey & Ev). rewrite <- eval_Mul in Ey. rewrite (fv_val _ _ _ _ _ _ _ Ex), (fv_val _ _ _ _ _ _ _ Ey). auto. }
      assert (Ga : good a). { intros i Hi. destruct (V i Hi) as (A & _ & B & Ne). exists (fv a i). split; auto. intros E0. apply Ne. rewrite B, E0. ring. }
      assert (Gb : good (Mul l)). { intros i Hi. destruct (V i Hi) as (_ & A & B & Ne). exists (fv (Mul l) i). split; auto. intros E0. apply Ne. rewrite B, E0. ring. }
      rewrite (zprod_ext _ (fun i => fv (Mul l) i * fv a i)) by (intros i Hi; destruct (V i) as (_ & _ & B & _); [lia|rewrite B; ring]). rewrite zprod_mul.
      apply (gmul_val _ _ HG); [apply (IHl T); auto|eapply IH; eauto].
  - (* power *)
    cbn [ProdSpec.treated] in T. destruct T as (_ & _ & T). destruct (has k a) eqn:Ha.
    + destruct b; try (now apply Sy). destruct T as [Nq Ta]. apply bind_value in H as (r & Er & H). injection H as <-.
      assert (Nq' : rv q <> 0) by (intros E; apply Nq; apply rv_inj; now rewrite rv_0).
      assert (V : forall i, (lo <= i)%Z -> at_k i a = Some (fv a i) /\ rpow (fv a i) (rv q) = Some (fv (Pow a (Num q)) i) /\ fv a i <> 0).
      { intros i Hi. destruct (good_val _ _ _ _ _ _ i Hg Hi) as [E Ne]. pose proof E as V. cbn [eval] in V. destruct (at_k i a) as [x|] eqn:Ex; [|discriminate]. cbn [obind] in V. rewrite (fv_val _ _ _ _ _ _ _ Ex). split; auto. split; auto. exact (rpow_nz _ _ _ Nq' V Ne). }
      assert (Ga : good a) by (intros i Hi; destruct (V i Hi) as (A & _ & B); eauto).
      eapply (gpow_val _ _ HG); [eapply IH; eauto|reflexivity|]. apply zprod_rpow. intros i Hi. destruct (V i Hi) as (_ & A & B). auto.
    + destruct (new_exponent G expand simplify sum_pe h k b) as [s|] eqn:Es; [|now apply Sy]. injection H as <-. pose proof T as (E1 & _).
      assert (V : forall i, (1 <= i)%Z -> exists y, ev a = Some y /\ at_k i b = Some (fv b i) /\ rpow y (fv b i) = Some (fv (Pow a b) i) /\ fv (Pow a b) i <> 0).
      { intros i Hi. destruct (good_val _ _ _ _ _ _ i Hg ltac:(lia)) as [E Ne]. pose proof E as V. cbn [eval] in V. destruct (at_k i a) as [x|] eqn:Ex; [|discriminate]. cbn [obind] in V. destruct (at_k i b) as [y|] eqn:Ey; [|discriminate]. cbn [obind] in V.
        rewrite (fv_val _ _ _ _ _ _ _ Ey). exists x. repeat split; auto. rewrite <- Ex. apply eval_agree. intros s' Hs. unfold upd at 1. destruct (String.eqb_spec s' k); [subst; congruence|reflexivity]. }
      assert (Vs : ev s = Some (zsum (fv b) 1 (Z.to_nat N))) by (apply (exponent_ok b s T); auto; intros i Hi; destruct (V i Hi) as (y & _ & A & _); eauto).
      destruct (V 1%Z ltac:(lia)) as (y & Ey & _). eapply (gpow_val _ _ HG); [exact Ey|exact Vs|]. replace cnt with (Z.to_nat N) by lia. replace lo with 1%Z by lia.
      assert (V' : forall i, (1 <= i)%Z -> rpow y (fv b i) = Some (fv (Pow a b) i) /\ fv (Pow a b) i <> 0).
      { intros i Hi. destruct (V i Hi) as (y' & Ey' & _ & R & Ne). assert (y' = y) by congruence. subst. auto. }
      destruct (Req_dec y 0) as [->|Ny]; [|apply rpow_zsum; auto; intros; apply V'; lia].
      assert (B0 : forall i, (1 <= i)%Z -> fv b i = 0). { intros i Hi. destruct (V' i Hi) as [R Ne]. destruct (Req_dec (fv b i) 0) as [|Nb]; auto. now elim (rpow_nz 0 _ _ Nb R Ne). }
      rewrite (zsum_ext _ (fun _ => 0)) by (intros; apply B0; lia). rewrite (zprod_ext _ (fun _ => 1)).
      2:{ intros i Hi. destruct (V' i ltac:(lia)) as [R _]. rewrite B0, upd0 in R by lia. congruence. }
      rewrite zprod_const, pow1. replace (zsum (fun _ => 0) 1 (Z.to_nat N)) with 0; [apply upd0|]. clear. induction (Z.to_nat N) as [|n IHn]; cbn [zsum]; auto. rewrite <- IHn. ring.
Qed.

Theorem compute_product_ok fuel e p f : (forall e, splits_product I rho G simplify expand k h lo e (fst (factorize e)) (snd (factorize e))) ->
  compute_product G is_poly lc_negative content primpart num_den expand simplify factorize sum_pe h k lo fuel e = Value p ->
  treated (expand e) -> factors_are I rho k lo e f -> ev p = Some (zprod f lo cnt).
Proof.
  intros Hfac H T Hf. unfold compute_product in H. destruct (Hfac (expand e)) as [Fv Ft]. destruct (factorize (expand e)) as [c r]. cbn [fst snd] in *. destruct (Ft T) as [Tc Tr].
  apply bind_value in H as (a & Ca & H). apply bind_value in H as (b & Cb & H). injection H as <-.
  assert (V : forall i, (lo <= i)%Z -> at_k i c = Some (fv c i) /\ at_k i r = Some (fv r i) /\ f i = fv c i * fv r i /\ f i <> 0).
  { intros i Hi. destruct (Hf i Hi) as [E Ne]. apply Hexp in E. pose proof (Fv _ _ E) as V. rewrite eval_Mul2 in V. apply olift2_some in V as (x & y & Ex & Ey & Ev). rewrite (fv_val _ _ _ _ _ _ _ Ex), (fv_val _ _ _ _ _ _ _ Ey). auto. }
  assert (Ga : good c). { intros i Hi. destruct (V i Hi) as (A & _ & B & Ne). exists (fv c i). split; auto. intros E0. apply Ne. rewrite B, E0. ring. }
  assert (Gb : good r). { intros i Hi. destruct (V i Hi) as (_ & A & B & Ne). exists (fv r i). split; auto. intros E0. apply Ne. rewrite B, E0. ring. }
  rewrite (zprod_ext _ (fun i => fv c i * fv r i)) by (intros i Hi; now apply V). rewrite zprod_mul. apply (gmul_val _ _ HG); eapply comp_prod_ok; eauto.
Qed.
End Main.
