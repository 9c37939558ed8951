From Coq Require Import ZArith QArith Qcanon Qreals Reals List String Bool Lia Lra Permutation.
From Verif Require Import IntUtilModel Ast ExprModel ExprProofs1 ExprProofs2 FactModel FactSpec FactProofs FactProofs2 NumDenModel NumDenSpec.
Import ListNotations.
Local Open Scope R_scope.
Local Open Scope list_scope.

Lemma as_int_none v : as_int v = None <-> forall z, v <> IZR z.
Proof.
  split.
  - intros H z E. apply as_int_spec in E. congruence.
  - intros H. destruct (as_int v) as [z|] eqn:E; auto. apply as_int_spec in E. now apply H in E.
Qed.
Lemma rpow_opp a q v : q <= 0 -> rpow a q = Some v -> rpow a (- q) = Some (/ v) /\ v <> 0.
Proof.
  intros Hq. unfold rpow. destruct (as_int q) as [z|] eqn:E.
  - apply as_int_spec in E. subst q. rewrite <- opp_IZR, as_int_IZR. apply le_IZR in Hq. destruct (Req_EM_T a 0) as [A|A].
    + destruct (Z.ltb_spec z 0); [discriminate|]. assert (z = 0%Z) by lia. subst z. cbn. intros [= <-]. split; [f_equal; lra|lra].
    + intros [= <-]. split; [f_equal; now rewrite powerRZ_neg'|now apply powerRZ_NOR].
  - assert (N : as_int (- q) = None).
    { apply as_int_none. intros z Hz. apply (proj1 (as_int_none q) E (- z)%Z). rewrite opp_IZR. lra. }
    rewrite N. destruct (Rlt_dec 0 a).
    + intros [= <-]. rewrite Rpower_Ropp. split; auto. unfold Rpower. pose proof (exp_pos (q * ln a)). lra.
    + destruct (Req_EM_T a 0); [|discriminate]. destruct (Rlt_dec 0 q); [lra|discriminate].
Qed.
Lemma rv_frac q : rv q = IZR (Qnum (this q)) / IZR (Z.pos (Qden (this q))). Proof. reflexivity. Qed.

Section Val.
Variable I : interp.
Variable G : ginac.
Hypothesis HG : ginac_ok I G.
Section Rho.
Variable rho : string -> R.
Notation ev := (eval I rho).
(** [n]/[d] has the value [v]. *)
Definition quot (n d : expr) (v : R) : Prop := exists x y, ev n = Some x /\ ev d = Some y /\ y <> 0 /\ x = v * y.
Lemma one_val : ev (Num 1) = Some 1. Proof. now rewrite eval_num, rv_1. Qed.
Lemma single_factor_ok e num v x : ev e = Some v -> ev num = Some x ->
  let '(n, d) := find_denominator_single_factor G e num in exists y, ev n = Some (x * v * y) /\ ev d = Some y /\ y <> 0.
Proof.
  assert (D : ev e = Some v -> ev num = Some x -> exists y, ev (gmul G num e) = Some (x * v * y) /\ ev (Num 1) = Some y /\ y <> 0).
  { intros He Hn. exists 1. split; [rewrite Rmult_1_r; now apply (gmul_val _ _ HG)|]. split; [apply one_val|lra]. }
  intros He Hn. destruct e as [q| | | | |a b| | |]; cbn [find_denominator_single_factor]; try (now apply D).
  - rewrite eval_num in He. injection He as <-. exists (IZR (Z.pos (Qden (this q)))).
    assert (N : IZR (Z.pos (Qden (this q))) <> 0) by (apply not_0_IZR; lia). split; [|split; [now rewrite eval_num, rv_zq|auto]].
    replace (x * rv q * _) with (x * IZR (Qnum (this q))) by (rewrite rv_frac; field; auto). apply (gmul_val _ _ HG); auto. now rewrite eval_num, rv_zq.
  - destruct b as [q| | | | | | | |]; try (now apply D). destruct (q_le q 0) eqn:Q; [|now apply D].
    apply q_le_spec in Q. rewrite rv_0 in Q. destruct (ev_pow_parts I rho _ _ _ He) as (u & w & Hu & Hw & Hp). rewrite eval_num in Hw. injection Hw as <-.
    destruct (rpow_opp _ _ _ Q Hp) as [P N]. exists (/ v). split; [rewrite Hn; f_equal; field; auto|]. split; [|now apply Rinv_neq_0_compat].
    apply (gpow_val _ _ HG _ _ _ u (- rv q)); auto. now rewrite eval_num, rv_opp.
Qed.
Lemma single_term_ok e num v x : ev e = Some v -> ev num = Some x ->
  let '(n, d) := find_denominator_single_term G e num in exists y, ev n = Some (x * v * y) /\ ev d = Some y /\ y <> 0.
Proof.
  destruct e as [| | | |l| | | |]; try apply single_factor_ok. cbn [find_denominator_single_term]. intros He Hn. rewrite eval_Mul in He. revert v He.
  induction l as [|f l IH]; intros v He.
  - rewrite eprod_nil in He. injection He as <-. cbn [fold_right]. exists 1. rewrite Hn. split; [f_equal; lra|]. split; [apply one_val|lra].
  - rewrite eprod_cons in He. apply olift2_some in He as (a & b & Ha & Hb & ->). cbn [fold_right].
    specialize (IH b Hb). destruct (fold_right _ _ l) as [n d]. destruct IH as (y & Hy & Hd & Ny). cbn [fst snd].
    pose proof (single_factor_ok f n a (x * b * y) Ha Hy) as S. destruct (find_denominator_single_factor G f n) as [n' d']. destruct S as (z & Hz & Hd' & Nz).
    exists (y * z). split; [rewrite Hz; f_equal; ring|]. split; [now apply (gmul_val _ _ HG)|]. intros E. apply Rmult_integral in E. tauto.
Qed.
Lemma single_term_quot e num v x : ev e = Some v -> ev num = Some x ->
  quot (fst (find_denominator_single_term G e num)) (snd (find_denominator_single_term G e num)) (x * v).
Proof.
  intros He Hn. pose proof (single_term_ok e num v x He Hn) as S. destruct (find_denominator_single_term G e num) as [n d]. destruct S as (y & A & B & C).
  exists (x * v * y), y. auto.
Qed.
Lemma gdiv_quot n d v : quot n d v -> ev (gdiv G n d) = Some v.
Proof.
  intros (x & y & Hx & Hy & N & ->). unfold gdiv. replace v with (v * y * / y) by (field; auto). apply (gmul_val _ _ HG); auto. now apply (rinv_val I G HG).
Qed.

(** * Common denominators *)
Variable ds : list expr.
Hypothesis HR : resplits split G ds.
Hypothesis HU : resplits_units split G.
Definition base_of_ds (b : expr) : Prop := exists t ps f, In t ds /\ split t = Some ps /\ In (b, f) ps.
Definition posexp (p : expr * expr) : Prop := is_pos_int_num (snd p) = true.
Definition goodb (b : expr) : Prop := base_of_ds b /\ exists x, ev b = Some x /\ x <> 0.
(** A product with the factors [l]. *)
Definition Good (l : factors) (e : expr) : Prop :=
  splits_to split e l /\ NoDup (map fst l) /\ Forall posexp l /\ Forall (fun p => goodb (fst p)) l /\ ev e = fval I rho l.
Definition dom (l m : factors) : Prop := forall b q, In (b, Num q) l -> exists q', In (b, Num q') m /\ rv q <= rv q'.
Lemma posexp_val p : posexp p -> exists q n, snd p = Num q /\ rv q = INR n /\ (0 < n)%nat.
Proof. apply posint_spec. Qed.
Lemma pair_val p : posexp p -> goodb (fst p) -> exists v, ev (Pow (fst p) (snd p)) = Some v /\ v <> 0.
Proof.
  intros P [_ (x & Hx & N)]. destruct (posexp_val p P) as (q & n & E & Hq & _). rewrite E. exists (x ^ n). split; [now apply (ev_num_pow I rho)|now apply pow_nonzero].
Qed.
Lemma list_val l : Forall posexp l -> Forall (fun p => goodb (fst p)) l -> exists v, fval I rho l = Some v /\ v <> 0.
Proof.
  induction l as [|p l IH]; intros P B; [exists 1; split; [reflexivity|lra]|]. apply Forall_cons_iff in P as [P1 P2]. apply Forall_cons_iff in B as [B1 B2].
  destruct (IH P2 B2) as (v & Hv & N), (pair_val p P1 B1) as (u & Hu & N'). exists (u * v). rewrite fval_cons, Hu, Hv. split; [reflexivity|]. intros E. apply Rmult_integral in E. tauto.
Qed.
Lemma good_val l e : Good l e -> exists v, fval I rho l = Some v /\ ev e = Some v /\ v <> 0.
Proof. intros (_ & _ & P & B & E). destruct (list_val l P B) as (v & Hv & N). exists v. rewrite E. auto. Qed.
Lemma good_nunit l e p : Good l e -> In p l -> fst p <> Num 1.
Proof. intros (HS & _) H. destruct (splits_set _ _ HS) as (ps & _ & S & _). apply S, proper_in in H. tauto. Qed.
Lemma good_add l e b f : Good l e -> b <> Num 1 -> ~ In b (map fst l) -> goodb b -> is_pos_int_num f = true -> Good ((b, f) :: l) (gmul G e (gpow G b f)).
Proof.
  intros HGd B N Gb P. pose proof HGd as (S & ND & Pl & Bl & E). destruct (good_val l e HGd) as (v & Hv & He & Nv). destruct Gb as [(t & ps & f0 & T1 & T2 & T3) (x & Hx & Nx)].
  assert (Gb : goodb b) by (split; [exists t, ps, f0; auto|eauto]).
  split; [apply (proj1 HR e l t ps b f0 f); auto|]. split; [cbn; now constructor|]. split; [now constructor|]. split; [now constructor|].
  destruct (pair_val (b, f) P Gb) as (u & Hu & Nu). cbn [fst snd] in Hu. rewrite fval_cons. cbn [fst snd]. rewrite Hu, Hv. cbn. rewrite Rmult_comm.
  apply (gmul_val _ _ HG); auto. now apply (gpow_ok _ _ HG).
Qed.
Lemma good_unit l e f : Good l e -> f = Num 0 \/ f = Num 1 -> Good l (gmul G e (gpow G (Num 1) f)).
Proof.
  intros HGd F. pose proof HGd as (S & ND & Pl & Bl & E). destruct (good_val l e HGd) as (v & Hv & He & Nv).
  split; [now apply HU|]. split; [auto|]. split; [auto|]. split; [auto|]. rewrite Hv, <- (Rmult_1_r v). apply (gmul_val _ _ HG); auto.
  apply (gpow_ok _ _ HG). destruct F as [->| ->]; [replace 1 with (1 ^ 0) by reflexivity|replace 1 with (1 ^ 1) by (cbn; lra)]; apply (ev_num_pow I rho); try apply one_val; [now rewrite rv_0|now rewrite rv_1].
Qed.
Lemma take_base_spec b ps g ps' : take_base b ps = Some (g, ps') ->
  exists l1 l2, ps = l1 ++ (b, g) :: l2 /\ ps' = l1 ++ (b, Num 0) :: l2.
Proof.
  revert g ps'. induction ps as [|[b' f] ps IH]; intros g ps' H; [discriminate|]. cbn in H. destruct (take_base b ps) as [[h qs]|].
  - injection H as <- <-. destruct (IH h qs eq_refl) as (l1 & l2 & -> & ->). exists ((b', f) :: l1), l2. auto.
  - destruct (expr_eqb b' b) eqn:X; [|discriminate]. apply expr_eqb_eq in X. subst b'. injection H as <- <-. exists [], ps. auto.
Qed.
Lemma take_base_none b ps : take_base b ps = None -> ~ In b (map fst ps).
Proof.
  induction ps as [|[b' f] ps IH]; intros H; [intros []|]. cbn in H. destruct (take_base b ps) as [[h qs]|]; [discriminate|].
  destruct (expr_eqb b' b) eqn:X; [discriminate|]. intros [Y|Y]; [cbn in Y; subst b'; rewrite expr_eqb_refl in X; discriminate|now apply IH].
Qed.
Lemma proper_map_mid (l1 l2 : factors) b g h : map fst (proper (l1 ++ (b, g) :: l2)) = map fst (proper (l1 ++ (b, h) :: l2)).
Proof. unfold proper. rewrite !filter_app, !map_app. f_equal. cbn. destruct (negb _); reflexivity. Qed.

(** The second vector during the first loop; [orig]: at the beginning, [l]: the factors so far. *)
Record State2 (orig cur l : factors) : Prop := {
  s2_nodup : NoDup (map fst (proper cur));
  s2_unit : forall f, In (Num 1, f) cur -> f = Num 0 \/ f = Num 1;
  s2_cur : forall b f, b <> Num 1 -> In (b, f) cur -> f = Num 0 \/ (In (b, f) orig /\ ~ In b (map fst l));
  s2_orig : forall b q, b <> Num 1 -> In (b, Num q) orig -> In (b, Num q) cur \/ exists q', In (b, Num q') l /\ rv q <= rv q' }.
Lemma num0_not_pos : is_pos_int_num (Num 0) = false. Proof. reflexivity. Qed.
Lemma take_loop ps1 ps2 : NoDup (map fst (proper ps1)) -> NoDup (map fst (proper ps2)) ->
  (forall f, In (Num 1, f) ps1 -> f = Num 1) -> (forall f, In (Num 1, f) ps2 -> f = Num 1) ->
  Forall posexp (proper ps1) -> Forall posexp (proper ps2) -> Forall (fun p => goodb (fst p)) (proper ps1) -> Forall (fun p => goodb (fst p)) (proper ps2) ->
  exists l e cur, fold_right (take_step G) (Num 1, ps2) ps1 = (e, cur) /\ Good l e /\ State2 ps2 cur l /\ dom (proper ps1) l /\ (forall b, In b (map fst l) <-> In b (map fst (proper ps1))).
Proof.
  intros ND1 ND2 U1 U2 P1 P2 B1 B2. induction ps1 as [|[b f1] ps1 IH].
  - exists [], (Num 1), ps2. split; [reflexivity|]. split; [|split; [|split]].
    + split; [|split; [constructor|split; [constructor|split; [constructor|now rewrite one_val]]]]. eexists. split; [reflexivity|]. cbn -[zq]. rewrite zq_1. split; [constructor|].
      intros f [H|[H|[]]]; congruence.
    + split; auto; intros b q B H; auto.
    + intros b q [].
    + cbn. tauto.
  - assert (ND1' : NoDup (map fst (proper ps1))).
    { rewrite proper_app, map_app in ND1. revert ND1. generalize (map fst (proper [(b, f1)])). induction l as [|z l IHl]; [auto|]. cbn. intros ND. apply NoDup_cons_iff in ND as [_ ND]. auto. }
    rewrite proper_app in P1, B1. apply Forall_app in P1 as [P1h P1]. apply Forall_app in B1 as [B1h B1].
    destruct IH as (l & e & cur & E & HGd & S2 & D & Bs); auto; [intros f Hf; apply U1; now right|].
    cbn [fold_right]. rewrite E. cbn [take_step]. destruct (expr_eqb b (Num 1)) eqn:X.
    + (* a unit *)
      apply expr_eqb_eq in X. subst b. rewrite (U1 f1) by now left. replace (is_pos_int_num (Num 1)) with true by reflexivity.
      change (proper ((Num 1, Num 1) :: ps1)) with (proper ps1).
      destruct (take_base (Num 1) cur) as [[f2 cur']|] eqn:T.
      * destruct (take_base_spec _ _ _ _ T) as (l1 & l2 & -> & ->).
        assert (F2 : f2 = Num 0 \/ f2 = Num 1) by (apply (s2_unit _ _ _ S2), in_elt).
        exists l. eexists. exists (l1 ++ (Num 1, Num 0) :: l2). split; [reflexivity|]. split; [|split; [|split; auto]].
        -- destruct F2 as [->| ->].
           ++ rewrite (proj2 (pos_ints_none (Num 1) (Num 0))) by (now right). apply good_unit; [|now left]. apply good_unit; [auto|now right].
           ++ assert (PI : pos_ints (Num 1) (Num 1) = Some (1%Qc, 1%Qc)) by reflexivity. rewrite PI. replace (q_le 1 1) with true by (symmetry; apply q_le_spec; lra). apply good_unit; auto.
        -- split.
           ++ rewrite (proper_map_mid _ _ _ _ f2). apply S2.
           ++ intros f Hf. apply in_app_or in Hf as [Hf|[Hf|Hf]]; [apply (s2_unit _ _ _ S2), in_or_app; auto|left; congruence|apply (s2_unit _ _ _ S2), in_or_app; right; now right].
           ++ intros b f B Hf. apply (s2_cur _ _ _ S2); auto. apply in_app_or in Hf as [Hf|[Hf|Hf]]; [apply in_or_app; auto|congruence|apply in_or_app; right; now right].
           ++ intros b q B Hf. destruct (s2_orig _ _ _ S2 b q B Hf) as [Hc|Hc]; [left|now right]. apply in_app_or in Hc as [Hc|[Hc|Hc]]; [apply in_or_app; auto|congruence|apply in_or_app; right; now right].
      * exists l. eexists. exists cur. split; [reflexivity|]. split; [apply good_unit; auto|auto].
    + assert (B : b <> Num 1) by (intros ->; rewrite expr_eqb_refl in X; discriminate).
      assert (Pr : proper ((b, f1) :: ps1) = (b, f1) :: proper ps1).
      { unfold proper. cbn [filter fst]. assert (Y : is_num 1 b = false) by (apply not_true_iff_false; rewrite is_num_eq; auto). now rewrite Y. }
      assert (Ph : proper [(b, f1)] = [(b, f1)]).
      { unfold proper. cbn [filter fst]. assert (Y : is_num 1 b = false) by (apply not_true_iff_false; rewrite is_num_eq; auto). now rewrite Y. }
      rewrite Pr in *. rewrite Ph in P1h, B1h. apply Forall_cons_iff in P1h as [Pb _]. apply Forall_cons_iff in B1h as [Gb _]. unfold posexp in Pb. cbn [fst snd] in Pb, Gb. rewrite Pb.
      cbn [map fst] in ND1. apply NoDup_cons_iff in ND1 as [Nb _].
      assert (Nl : ~ In b (map fst l)) by (rewrite Bs; auto).
      destruct (posint_spec _ Pb) as (q1 & n1 & -> & _ & _).
      destruct (take_base b cur) as [[f2 cur']|] eqn:T.
      * destruct (take_base_spec _ _ _ _ T) as (l1 & l2 & -> & ->).
        assert (Hin : In (b, f2) (l1 ++ (b, f2) :: l2)) by apply in_elt.
        destruct (s2_cur _ _ _ S2 b f2 B Hin) as [->|[Ho _]].
        { (* the marked entry would mean that b was met before *)
          exfalso. clear T.
          assert (In b (map fst ps2)).
          { (* bases of the current vector are those of the original one *)
            assert (K : forall ps s, map fst (snd (fold_right (take_step G) s ps)) = map fst (snd s)).
            { intros ps s. induction ps as [|[c g] ps IHp]; [reflexivity|]. cbn [fold_right]. rewrite <- IHp. destruct (fold_right (take_step G) s ps) as [e0 cur0]. cbn [take_step snd].
              destruct (is_pos_int_num g); [|reflexivity]. destruct (take_base c cur0) as [[g2 cur1]|] eqn:T0; [|reflexivity].
              destruct (take_base_spec _ _ _ _ T0) as (m1 & m2 & -> & ->). cbn [snd]. rewrite !map_app. reflexivity. }
            specialize (K ps1 (Num 1, ps2)). rewrite E in K. cbn [snd] in K. rewrite <- K, map_app. apply in_elt. }
          apply in_map_iff in H as ([b' g] & E1 & E2). cbn in E1. subst b'.
          assert (Pg : is_pos_int_num g = true). { rewrite Forall_forall in P2. apply (P2 (b, g)). apply proper_in. auto. }
          destruct (posint_spec _ Pg) as (q & n & -> & Hq & Hn). destruct (s2_orig _ _ _ S2 b q B E2) as [H|(q' & H & _)].
          - assert (Num 0 = Num q).
            { apply (nodup_fun b _ _ (proper (l1 ++ (b, Num 0) :: l2)) (s2_nodup _ _ _ S2)); apply proper_in; auto. }
            injection H0 as <-. rewrite rv_0 in Hq. apply lt_INR in Hn. cbn in Hn. lra.
          - apply Nl. now apply (in_map fst) in H. }
        assert (P2f : is_pos_int_num f2 = true). { rewrite Forall_forall in P2. apply (P2 (b, f2)). apply proper_in. auto. }
        destruct (posint_spec _ P2f) as (q2 & n2 & -> & _ & _).
        assert (PI : pos_ints (Num q1) (Num q2) = Some (q1, q2)) by (apply pos_ints_some; auto). rewrite PI.
        set (q := if q_le q2 q1 then q1 else q2). assert (Pq : is_pos_int_num (Num q) = true) by (unfold q; destruct (q_le q2 q1); auto).
        assert (L1 : rv q1 <= rv q /\ rv q2 <= rv q).
        { unfold q. destruct (q_le q2 q1) eqn:Q; [apply q_le_spec in Q; lra|]. destruct (Rle_or_lt (rv q2) (rv q1)) as [L|L]; [apply q_le_spec in L; congruence|lra]. }
        exists ((b, Num q) :: l). eexists. exists (l1 ++ (b, Num 0) :: l2). split; [reflexivity|]. split; [now apply good_add|]. split; [|split].
        -- split.
           ++ rewrite (proper_map_mid _ _ _ _ (Num q2)). apply S2.
           ++ intros f Hf. apply (s2_unit _ _ _ S2). apply in_app_or in Hf as [Hf|[Hf|Hf]]; [apply in_or_app; auto|congruence|apply in_or_app; right; now right].
           ++ intros b' f B' Hf. destruct (expr_eqb b' b) eqn:Y.
              ** apply expr_eqb_eq in Y. subst b'. left. apply (nodup_fun b _ _ (proper (l1 ++ (b, Num 0) :: l2))); [rewrite (proper_map_mid _ _ _ _ (Num q2)); apply S2| |]; apply proper_in; auto. split; [apply in_elt|auto].
              ** assert (B'' : b' <> b) by (intros ->; rewrite expr_eqb_refl in Y; discriminate).
                 destruct (s2_cur _ _ _ S2 b' f B') as [->|[H1 H2]]; [|now left|right; split; [auto|]].
                 --- apply in_app_or in Hf as [Hf|[Hf|Hf]]; [apply in_or_app; auto|congruence|apply in_or_app; right; now right].
                 --- cbn. intros [H|H]; congruence.
           ++ intros b' q' B' Hf. destruct (s2_orig _ _ _ S2 b' q' B' Hf) as [Hc|(q'' & Hc & Lc)]; [|right; exists q''; split; [now right|auto]].
              apply in_app_or in Hc as [Hc|[Hc|Hc]]; [left; apply in_or_app; auto| |left; apply in_or_app; right; now right].
              injection Hc as <- <-. right. exists q. split; [now left|lra].
        -- intros b' q' [H|H]; [injection H as <- <-; exists q; split; [now left|lra]|]. destruct (D b' q' H) as (q'' & H1 & H2). exists q''. split; [now right|auto].
        -- intros b'. cbn. rewrite Bs. tauto.
      * exists ((b, Num q1) :: l). eexists. exists cur. split; [reflexivity|]. split; [now apply good_add|]. split; [|split].
        -- apply take_base_none in T. split; try apply S2.
           ++ intros b' f B' Hf. destruct (s2_cur _ _ _ S2 b' f B' Hf) as [->|[H1 H2]]; [now left|]. right. split; [auto|]. cbn. intros [H|H]; [|auto]. subst b'. apply T. now apply (in_map fst) in Hf.
           ++ intros b' q' B' Hf. destruct (s2_orig _ _ _ S2 b' q' B' Hf) as [Hc|(q'' & Hc & Lc)]; [now left|]. right. exists q''. split; [now right|auto].
        -- intros b' q' [H|H]; [injection H as <- <-; exists q1; split; [now left|lra]|]. destruct (D b' q' H) as (q'' & H1 & H2). exists q''. split; [now right|auto].
        -- intros b'. cbn. rewrite Bs. tauto.
Qed.
Lemma finish_loop orig cur l e : Good l e -> State2 orig cur l -> Forall posexp (proper orig) -> Forall (fun p => goodb (fst p)) (proper orig) ->
  exists l', Good l' (fold_right (fun p e => if is_num 0 (snd p) then e else gmul G e (gpow G (fst p) (snd p))) e cur) /\ dom l l' /\ dom (proper orig) l'.
Proof.
  intros HGd S2 PO BO.
  enough (H : forall c1 c2, cur = c1 ++ c2 -> exists l', Good l' (fold_right (fun p e => if is_num 0 (snd p) then e else gmul G e (gpow G (fst p) (snd p))) e c2) /\
    (forall p, In p l' <-> In p l \/ (In p (proper c2) /\ snd p <> Num 0))).
  { destruct (H [] cur eq_refl) as (l' & A & B). exists l'. split; [auto|]. split.
    - intros b q Hb. exists q. split; [apply B; auto|lra].
    - intros b q Hb. apply proper_in in Hb as [Hb B']. cbn in B'. destruct (s2_orig _ _ _ S2 b q B' Hb) as [Hc|(q' & Hc & L)].
      + exists q. split; [|lra]. apply B. right. split; [apply proper_in; auto|]. cbn. intros E. injection E as ->.
        rewrite Forall_forall in PO. specialize (PO (b, Num 0) (proj2 (proper_in _ _) (conj Hb B'))). unfold posexp in PO. cbn [snd] in PO. rewrite num0_not_pos in PO. discriminate.
      + exists q'. split; [apply B; auto|auto]. }
  intros c1 c2. revert c1. induction c2 as [|[b f] c2 IH]; intros c1 E.
  - exists l. split; [auto|]. intros p. cbn. tauto.
  - destruct (IH (c1 ++ [(b, f)])) as (l' & A & B); [rewrite <- app_assoc; auto|]. cbn [fold_right fst snd].
    assert (Hin : In (b, f) cur) by (rewrite E; apply in_elt).
    destruct (is_num 0 f) eqn:F0.
    + apply is_num_eq in F0. subst f. exists l'. split; [auto|]. intros p. rewrite B. unfold proper at 2. cbn [filter]. destruct (negb _); [|tauto]. cbn [In]. split; [tauto|]. intros [H|[[<-|H] H']]; [auto|now destruct H'|auto].
    + assert (F0' : f <> Num 0) by (intros ->; cbn in F0; discriminate).
      destruct (expr_eqb b (Num 1)) eqn:X.
      * apply expr_eqb_eq in X. subst b. destruct (s2_unit _ _ _ S2 f Hin) as [->| ->]; [tauto|]. exists l'. split; [apply good_unit; auto|]. intros p. rewrite B. reflexivity.
      * assert (B1 : b <> Num 1) by (intros ->; rewrite expr_eqb_refl in X; discriminate).
        destruct (s2_cur _ _ _ S2 b f B1 Hin) as [->|[Ho Nl]]; [tauto|].
        assert (Hp : In (b, f) (proper orig)) by (apply proper_in; auto).
        exists ((b, f) :: l'). split.
        -- apply good_add; auto.
           ++ intros H. apply in_map_iff in H as ([b' f'] & E1 & E2). cbn in E1. subst b'. apply B in E2 as [E2|[E2 _]]; [apply Nl; now apply (in_map fst) in E2|].
              pose proof (s2_nodup _ _ _ S2) as ND. rewrite E in ND.
              assert (Y : is_num 1 b = false) by (apply not_true_iff_false; rewrite is_num_eq; auto).
              assert (Pm : proper (c1 ++ (b, f) :: c2) = proper c1 ++ (b, f) :: proper c2) by (unfold proper; rewrite filter_app; cbn [filter fst]; now rewrite Y).
              rewrite Pm, map_app in ND. cbn [map fst] in ND. apply NoDup_remove_2 in ND. apply ND, in_or_app. right. now apply (in_map fst) in E2.
           ++ exact (proj1 (Forall_forall _ _) BO _ Hp).
           ++ exact (proj1 (Forall_forall _ _) PO _ Hp).
        -- intros p. cbn [In]. rewrite B. assert (Y : is_num 1 b = false) by (apply not_true_iff_false; rewrite is_num_eq; auto).
           unfold proper at 2. cbn [filter fst]. rewrite Y. cbn [negb In]. split; [intros [<-|[H|H]]; [right; split; [now left|auto]|auto|tauto]|]. intros [H|[[<-|H] H']]; auto.
Qed.
End Rho.
End Val.
