From Coq Require Import ZArith QArith Qcanon Qreals Reals List String Bool Lia Lra Permutation.
From Verif Require Import IntUtilModel IntUtilSpec IntUtilProofs Ast ExprModel ExprProofs1 ExprProofs2 FactModel FactSpec.
Import ListNotations.
Local Open Scope R_scope.
Local Open Scope list_scope.

Lemma one_eq : one = Num 1. Proof. reflexivity. Qed.
Lemma zq_1 : zq 1 = 1%Qc. Proof. apply Qc_is_canon. reflexivity. Qed.
Lemma posint_spec e : is_pos_int_num e = true -> exists q n, e = Num q /\ rv q = INR n /\ (0 < n)%nat.
Proof.
  destruct e as [q| | | | | | | |]; try discriminate. cbn. intros H. apply andb_true_iff in H as [H1 H2].
  apply q_is_int_spec in H1. apply q_lt_spec in H2. rewrite rv_0 in H2. exists q, (Z.to_nat (q_int q)).
  assert (0 < q_int q)%Z by (apply lt_IZR; lra). split; [reflexivity|]. split; [rewrite INR_IZR_INZ, Z2Nat.id by lia; auto|lia].
Qed.
Lemma posint_zq z : (0 < z)%Z -> is_pos_int_num (Num (zq z)) = true.
Proof. intros H. unfold is_pos_int_num. rewrite q_is_int_zq. cbn [andb]. apply q_lt_spec. rewrite rv_0, rv_zq. now apply IZR_lt. Qed.
Lemma pos_ints_some a b p q : pos_ints a b = Some (p, q) <-> is_pos_int_num a = true /\ is_pos_int_num b = true /\ a = Num p /\ b = Num q.
Proof.
  split.
  - destruct a, b; try discriminate. unfold pos_ints. destruct (is_pos_int_num _) eqn:A; [|discriminate]. cbn [andb].
    destruct (is_pos_int_num (Num q1)) eqn:B; [|discriminate]. intros H. injection H as <- <-. auto.
  - intros (A & B & -> & ->). unfold pos_ints. now rewrite A, B.
Qed.
Lemma pos_ints_none a b : pos_ints a b = None <-> is_pos_int_num a = false \/ is_pos_int_num b = false.
Proof.
  split.
  - intros H. destruct (is_pos_int_num a) eqn:A; [|auto]. destruct (is_pos_int_num b) eqn:B; [|auto]. exfalso.
    destruct (posint_spec _ A) as (p & ? & -> & _), (posint_spec _ B) as (q & ? & -> & _).
    assert (K : pos_ints (Num p) (Num q) = Some (p, q)) by (apply pos_ints_some; auto). congruence.
  - intros H. destruct (pos_ints a b) as [[p q]|] eqn:E; auto. apply pos_ints_some in E as (A & B & _). destruct H; congruence.
Qed.

Section Val.
Variable I : interp.
Variable rho : string -> R.
Notation ev := (eval I rho).
Definition fval (l : factors) : option R := eprod I rho (map (fun p => Pow (fst p) (snd p)) l).
Lemma fval_nil : fval [] = Some 1. Proof. reflexivity. Qed.
Lemma fval_cons p l : fval (p :: l) = olift2 Rmult (ev (Pow (fst p) (snd p))) (fval l). Proof. reflexivity. Qed.
Lemma fval_app l m x y : fval l = Some x -> fval m = Some y -> fval (l ++ m) = Some (x * y).
Proof.
  revert x. induction l as [|p l IH]; intros x Hl Hm.
  - injection Hl as <-. cbn [app]. rewrite Hm. f_equal. lra.
  - rewrite fval_cons in Hl. apply olift2_some in Hl as (a & b & Ha & Hb & ->). cbn [app]. rewrite fval_cons, Ha, (IH b); auto. cbn. f_equal. lra.
Qed.
Lemma fval_perm l m : Permutation l m -> fval l = fval m.
Proof.
  induction 1 as [| p l m H IH | p q l | l m n H1 IH1 H2 IH2]; auto.
  - now rewrite !fval_cons, IH.
  - rewrite !fval_cons. destruct (ev (Pow (fst p) (snd p))), (ev (Pow (fst q) (snd q))), (fval l); cbn; auto. f_equal. lra.
  - congruence.
Qed.
Lemma fval_in l v p : fval l = Some v -> In p l -> exists u, ev (Pow (fst p) (snd p)) = Some u.
Proof.
  revert v. induction l as [|q l IH]; intros v H [].
  - subst q. rewrite fval_cons in H. apply olift2_some in H as (a & b & Ha & Hb & ->). eauto.
  - rewrite fval_cons in H. apply olift2_some in H as (a & b & Ha & Hb & ->). eauto.
Qed.
Lemma ev_pow1 e x : ev e = Some x -> ev (Pow e one) = Some x.
Proof. intros H. cbn [eval]. rewrite H. unfold one. rewrite eval_num, rv_1. cbn [obind]. change 1 with (INR 1). rewrite rpow_nat. f_equal. lra. Qed.
Lemma fval_single e x : ev e = Some x -> fval [(e, one)] = Some x.
Proof. intros H. rewrite fval_cons, fval_nil. cbn [fst snd]. rewrite (ev_pow1 _ _ H). cbn. f_equal. lra. Qed.
Lemma fval_ints (bs es : list Z) : List.length bs = List.length es -> Forall (fun e => (0 < e)%Z) es ->
  fval (combine (map (fun b => Num (zq b)) bs) (map (fun k => Num (zq k)) es)) = Some (IZR (prodpow bs es)).
Proof.
  revert es. induction bs as [|b bs IH]; intros [|k es] L F; try discriminate; [reflexivity|].
  cbn [map combine]. apply Forall_cons_iff in F as [Hk F]. rewrite fval_cons, IH; [|now injection L|auto]. cbn [fst snd].
  assert (E : ev (Pow (Num (zq b)) (Num (zq k))) = Some (IZR (b ^ k))).
  { cbn [eval]. rewrite !rv_zq. cbn [obind]. replace (IZR k) with (INR (Z.to_nat k)) by (rewrite INR_IZR_INZ, Z2Nat.id; auto; lia).
    rewrite rpow_nat. f_equal. rewrite pow_IZR, Z2Nat.id by lia. reflexivity. }
  rewrite E. cbn [olift2 prodpow]. now rewrite mult_IZR.
Qed.
Lemma split_factor_ok e acc ps x y : split_bases_exponents_factor e acc = Some ps -> ev e = Some x -> fval acc = Some y -> fval ps = Some (x * y).
Proof.
  assert (D : forall e x, ev e = Some x -> fval acc = Some y -> fval (acc ++ [(e, one)]) = Some (x * y)).
  { intros e0 x0 H H'. rewrite (fval_app _ _ y x0); auto; [f_equal; lra|]. now apply fval_single. }
  destruct e as [q| | | | |a b | | |]; intros H Hx Hy; cbn [split_bases_exponents_factor] in H; try (injection H as <-; now apply D).
  - destruct (q_is_int q) eqn:Q; [|injection H as <-; now apply D].
    destruct (Z.eq_dec (q_int q) 0) as [Z0|Z0]; [rewrite Z0 in H; cbn in H; discriminate|].
    destruct (partial_factor_spec (q_int q) [] [] Z0) as (bs & es & E & L & P & F & _). rewrite E in H. cbn [app] in H. injection H as <-.
    apply q_is_int_spec in Q. rewrite eval_num in Hx. injection Hx as <-.
    assert (S : exists s, fval (if q_lt q 0 then [(Num (-(1))%Qc, one)] else []) = Some s /\ s * IZR (Z.abs (q_int q)) = rv q).
    { destruct (q_lt q 0) eqn:N.
      - apply q_lt_spec in N. rewrite rv_0, Q in N. apply lt_IZR in N. exists (-1). split.
        + apply fval_single. rewrite eval_num, rv_opp, rv_1. f_equal; lra.
        + rewrite Q, <- mult_IZR. f_equal. lia.
      - apply q_lt_false in N. rewrite rv_0, Q in N. apply le_IZR in N. exists 1. split; [reflexivity|]. rewrite Q, <- mult_IZR. f_equal. lia. }
    destruct S as (s & S1 & S2).
    assert (U : fval (if Qc_eqb q 1 then [(one, one)] else []) = Some 1).
    { destruct (Qc_eqb q 1); [|reflexivity]. apply fval_single. unfold one. now rewrite eval_num, rv_1. }
    rewrite (fval_app _ _ (IZR (prodpow bs es)) (y * (s * 1))); [f_equal; rewrite P, <- S2; ring|now apply fval_ints|].
    apply fval_app; auto. apply fval_app; auto.
  - injection H as <-. rewrite (fval_app _ _ y x); auto; [f_equal; lra|]. rewrite fval_cons, fval_nil. cbn [fst snd]. rewrite Hx. cbn. f_equal. lra.
Qed.
(** C50: splitting preserves the product. *)
Lemma split_ok e ps v : split_bases_exponents e = Some ps -> ev e = Some v -> fval ps = Some v.
Proof.
  assert (D : split_bases_exponents_factor e [] = Some ps -> ev e = Some v -> fval ps = Some v).
  { intros H Hv. rewrite (split_factor_ok _ _ _ v 1 H Hv fval_nil). f_equal. lra. }
  destruct e as [| | | |l| | | |]; try exact D. clear D. cbn [split_bases_exponents]. intros H Hv. rewrite eval_Mul in Hv. revert ps v H Hv.
  induction l as [|f l IH]; intros ps v H Hv.
  - injection H as <-. rewrite eprod_nil in Hv. now injection Hv as <-.
  - cbn [fold_right] in H. rewrite eprod_cons in Hv. apply olift2_some in Hv as (x & y & Hx & Hy & ->).
    destruct (fold_right _ _ l) as [acc|]; [|discriminate]. apply (split_factor_ok _ _ _ _ _ H Hx). now apply IH.
Qed.
End Val.

(** * The common exponent *)
Definition lk (b : expr) (ps : factors) : option expr := match find_base b ps with Some (_, f) => Some f | None => None end.
Lemma lk_in b ps f : lk b ps = Some f -> In (b, f) ps.
Proof.
  unfold lk, find_base. destruct (find _ (rev ps)) as [[b' f']|] eqn:E; [|discriminate]. intros [= ->].
  apply find_some in E as [E1 E2]. cbn in E2. apply expr_eqb_eq in E2. subst b'. now apply in_rev.
Qed.
Lemma lk_none b ps : lk b ps = None -> ~ In b (map fst ps).
Proof.
  unfold lk, find_base. destruct (find _ (rev ps)) as [[b' f']|] eqn:E; [discriminate|]. intros _ H. apply in_map_iff in H as ([b' f'] & <- & H).
  apply in_rev in H. apply (find_none _ _ E) in H. cbn in H. rewrite expr_eqb_refl in H. discriminate.
Qed.
Lemma proper_in p ps : In p (proper ps) <-> In p ps /\ fst p <> Num 1.
Proof. unfold proper. rewrite filter_In, negb_true_iff, <- not_true_iff_false, is_num_eq. tauto. Qed.
Lemma nodup_fun b f f' (ps : factors) : NoDup (map fst ps) -> In (b, f) ps -> In (b, f') ps -> f = f'.
Proof.
  induction ps as [|[c g] ps IH]; intros ND H H'; [destruct H|]. cbn in ND. apply NoDup_cons_iff in ND as [N ND].
  assert (K : forall g, In (b, g) ps -> In b (map fst ps)). { intros g' G'. now apply (in_map fst) in G'. }
  destruct H as [H|H], H' as [H'|H']; try congruence.
  - injection H as -> ->. apply K in H'. tauto.
  - injection H' as -> ->. apply K in H. tauto.
  - eauto.
Qed.
Lemma lk_unique b f ps : NoDup (map fst (proper ps)) -> b <> Num 1 -> In (b, f) ps -> lk b ps = Some f.
Proof.
  intros ND B H. destruct (lk b ps) as [g|] eqn:E.
  - apply lk_in in E. f_equal. apply (nodup_fun b g f (proper ps) ND); apply proper_in; auto.
  - apply lk_none in E. exfalso. apply E. now apply (in_map fst) in H.
Qed.
Definition cmb (c f : expr) : option expr :=
  match pos_ints c f with
  | Some (nc, nf) => Some (Num (if q_lt nc nf then nc else nf))
  | None => if expr_eqb c f then Some c else None
  end.
Lemma ce_absent b c ps : ~ In b (map fst ps) -> common_exponent b c ps = None.
Proof.
  induction ps as [|[b' f] ps IH]; intros H; [reflexivity|]. cbn [common_exponent]. cbn in H. rewrite IH by tauto.
  destruct (expr_eqb b' b) eqn:E; auto. apply expr_eqb_eq in E. tauto.
Qed.
Lemma proper_app p ps : proper (p :: ps) = proper [p] ++ proper ps.
Proof. unfold proper. cbn. destruct (negb _); reflexivity. Qed.
Lemma ce_lk b c ps : NoDup (map fst (proper ps)) -> b <> Num 1 -> common_exponent b c ps = match lk b ps with Some f => cmb c f | None => None end.
Proof.
  intros ND B. induction ps as [|[b' f] ps IH]; [reflexivity|]. cbn [common_exponent].
  assert (ND' : NoDup (map fst (proper ps))).
  { rewrite proper_app, map_app in ND. revert ND. generalize (map fst (proper [(b', f)])). induction l as [|u l IHl]; [auto|]. cbn. intros ND. apply NoDup_cons_iff in ND as [_ ND]. auto. }
  destruct (expr_eqb b' b) eqn:E.
  - apply expr_eqb_eq in E. subst b'. rewrite (lk_unique b f ((b, f) :: ps) ND B) by now left.
    assert (N : ~ In b (map fst ps)).
    { intros H. rewrite proper_app in ND. unfold proper at 1 in ND. cbn [filter fst] in ND.
      assert (X : is_num 1 b = false) by (apply not_true_iff_false; rewrite is_num_eq; auto). rewrite X in ND. cbn in ND. apply NoDup_cons_iff in ND as [N _].
      apply N. apply in_map_iff in H as ([b' f'] & H1 & H2). cbn in H1. subst b'. change b with (fst (b, f')). apply in_map, proper_in. auto. }
    rewrite ce_absent by auto. reflexivity.
  - rewrite IH by auto. assert (N : b' <> b) by (intros ->; rewrite expr_eqb_refl in E; discriminate).
    assert (L : lk b ((b', f) :: ps) = lk b ps).
    { destruct (lk b ((b', f) :: ps)) as [g|] eqn:F.
      - apply lk_in in F. destruct F as [F|F]; [congruence|]. symmetry. now apply lk_unique.
      - apply lk_none in F. destruct (lk b ps) as [g|] eqn:F'; auto. apply lk_in, (in_map fst) in F'. exfalso. apply F. now right. }
    rewrite L. destruct (lk b ps) as [g|]; [|reflexivity]. destruct (cmb c g); reflexivity.
Qed.
Lemma cmb_pos c f m : is_pos_int_num c = true -> cmb c f = Some m ->
  exists qc qf qm, c = Num qc /\ f = Num qf /\ m = Num qm /\ is_pos_int_num f = true /\ is_pos_int_num m = true /\ rv qm = Rmin (rv qc) (rv qf) /\ (m = c \/ m = f).
Proof.
  intros P. unfold cmb. destruct (pos_ints c f) as [[p q]|] eqn:E.
  - apply pos_ints_some in E as (_ & Q & -> & ->). intros [= <-]. exists p, q. destruct (q_lt p q) eqn:L.
    + apply q_lt_spec in L. exists p. repeat (split; auto). rewrite Rmin_left; lra.
    + apply q_lt_false in L. exists q. repeat (split; auto). rewrite Rmin_right; lra.
  - apply pos_ints_none in E. destruct (expr_eqb c f) eqn:X; [|discriminate]. apply expr_eqb_eq in X. subst f. destruct E; congruence.
Qed.
Lemma cmb_pos_ex c f : is_pos_int_num c = true -> is_pos_int_num f = true -> exists m, cmb c f = Some m.
Proof.
  intros P Q. unfold cmb. destruct (pos_ints c f) as [[p q]|] eqn:E; [eauto|]. apply pos_ints_none in E. destruct E; congruence.
Qed.
Lemma cmb_npos c f m : is_pos_int_num c = false -> cmb c f = Some m -> f = c /\ m = c.
Proof.
  intros P. unfold cmb. destruct (pos_ints c f) as [[p q]|] eqn:E; [apply pos_ints_some in E as (Q & _); congruence|].
  destruct (expr_eqb c f) eqn:X; [|discriminate]. apply expr_eqb_eq in X. intros [= <-]. auto.
Qed.
Lemma cmb_same c : is_pos_int_num c = false -> cmb c c = Some c.
Proof. intros P. unfold cmb. rewrite (proj2 (pos_ints_none c c)) by auto. now rewrite expr_eqb_refl. Qed.

Section Terms.
Variable sp : expr -> factors.
Notation lkt b t := (lk b (sp t)).
Fixpoint RR (b c : expr) (ts : list expr) : option expr :=
  match ts with
  | [] => Some c
  | t :: ts => match RR b c ts with Some c => match lkt b t with Some f => cmb c f | None => None end | None => None end
  end.
Definition rvn (e : expr) : R := match e with Num q => rv q | _ => 0 end.
Lemma RR_pos b c ts m : is_pos_int_num c = true -> RR b c ts = Some m ->
  is_pos_int_num m = true /\ rvn m <= rvn c /\ (forall t, In t ts -> exists f, lkt b t = Some f /\ is_pos_int_num f = true /\ rvn m <= rvn f) /\
  (m = c \/ exists t, In t ts /\ lkt b t = Some m).
Proof.
  intros P. revert m. induction ts as [|t ts IH]; intros m H; cbn [RR] in H.
  - injection H as <-. split; [auto|]. split; [lra|]. split; [intros t []|auto].
  - destruct (RR b c ts) as [d|]; [|discriminate]. destruct (IH d eq_refl) as (Pd & L & A & B). destruct (lkt b t) as [f|] eqn:E; [|discriminate].
    destruct (cmb_pos d f m Pd H) as (qd & qf & qm & -> & -> & -> & Pf & Pm & V & W). cbn [rvn] in *.
    pose proof (Rmin_l (rv qd) (rv qf)). pose proof (Rmin_r (rv qd) (rv qf)). split; [auto|]. split; [lra|]. split.
    + intros t' [<-|H']; [exists (Num qf); split; [auto|split; [auto|cbn; lra]]|]. destruct (A t' H') as (f & F1 & F2 & F3). exists f. split; [auto|]. split; [auto|lra].
    + destruct W as [W|W].
      * rewrite W. destruct B as [B|(t' & B1 & B2)]; [auto|]. right. exists t'. split; [now right|auto].
      * right. exists t. split; [now left|congruence].
Qed.
Lemma RR_pos_ex b c ts : is_pos_int_num c = true -> (forall t, In t ts -> exists f, lkt b t = Some f /\ is_pos_int_num f = true) -> exists m, RR b c ts = Some m.
Proof.
  intros P. induction ts as [|t ts IH]; intros H; [exists c; reflexivity|].
  destruct IH as [d Hd]; [intros t' H'; apply H; now right|]. cbn [RR]. rewrite Hd.
  destruct (H t (or_introl eq_refl)) as (f & -> & Pf). apply cmb_pos_ex; auto. now apply (RR_pos b c ts d P).
Qed.
Lemma RR_npos b c ts m : is_pos_int_num c = false -> RR b c ts = Some m -> m = c /\ forall t, In t ts -> lkt b t = Some c.
Proof.
  intros P. revert m. induction ts as [|t ts IH]; intros m H; cbn [RR] in H; [injection H as <-; split; [auto|intros t []]|].
  destruct (RR b c ts) as [d|]; [|discriminate]. destruct (IH d eq_refl) as [-> A]. destruct (lkt b t) as [f|] eqn:E; [|discriminate].
  apply (cmb_npos c f m P) in H as [-> ->]. split; auto. intros t' [<-|H']; auto.
Qed.
Lemma RR_npos_ex b c ts : is_pos_int_num c = false -> (forall t, In t ts -> lkt b t = Some c) -> RR b c ts = Some c.
Proof.
  intros P. induction ts as [|t ts IH]; intros H; [reflexivity|]. cbn [RR]. rewrite IH by (intros; apply H; now right).
  rewrite (H t (or_introl eq_refl)). now apply cmb_same.
Qed.
(** [b] has the common exponent [m] in all the terms. *)
Definition CM (ts : list expr) (b m : expr) : Prop := exists t f, In t ts /\ lkt b t = Some f /\ RR b f ts = Some m.
Lemma CM_all ts b m t : CM ts b m -> In t ts -> exists f, lkt b t = Some f /\ RR b f ts = Some m.
Proof.
  intros (t0 & f0 & T0 & L0 & R0) Ht. destruct (is_pos_int_num f0) eqn:P.
  - destruct (RR_pos b f0 ts m P R0) as (Pm & Lm & A & B). destruct (A t Ht) as (f & Lf & Pf & Lmf). exists f. split; [auto|].
    destruct (RR_pos_ex b f ts Pf) as [m' R']; [intros t' H'; destruct (A t' H') as (g & G1 & G2 & _); eauto|]. rewrite R'. f_equal.
    destruct (RR_pos b f ts m' Pf R') as (Pm' & Lm' & A' & B').
    assert (S1 : exists t, In t ts /\ lkt b t = Some m) by (destruct B as [->|B]; eauto).
    assert (S2 : exists t, In t ts /\ lkt b t = Some m') by (destruct B' as [->|B']; eauto).
    destruct S1 as (t1 & T1 & L1), S2 as (t2 & T2 & L2).
    destruct (A t2 T2) as (g & G1 & _ & G3), (A' t1 T1) as (g' & G1' & _ & G3'). rewrite L2 in G1. injection G1 as <-. rewrite L1 in G1'. injection G1' as <-.
    destruct (posint_spec _ Pm) as (q & _ & -> & _), (posint_spec _ Pm') as (q' & _ & -> & _). cbn in G3, G3'. f_equal. apply rv_inj. lra.
  - destruct (RR_npos b f0 ts m P R0) as [-> A]. exists f0. split; auto.
Qed.
Lemma CM_fun ts b m m' : CM ts b m -> CM ts b m' -> m = m'.
Proof. intros H H'. destruct H' as (t & f & T & L & R'). destruct (CM_all ts b m t H T) as (f' & L' & R''). rewrite L in L'. injection L' as <-. congruence. Qed.
(** The value relation between the exponent of a term and the common one. *)
Lemma RR_le b c ts m : RR b c ts = Some m -> (m = c) \/ (exists qc qm n k, c = Num qc /\ m = Num qm /\ rv qc = INR n /\ rv qm = INR k /\ (k <= n)%nat /\ is_pos_int_num c = true /\ is_pos_int_num m = true).
Proof.
  intros H. destruct (is_pos_int_num c) eqn:P; [|left; now apply (RR_npos b c ts m P)]. right.
  destruct (RR_pos b c ts m P H) as (Pm & L & _). destruct (posint_spec _ P) as (q & n & -> & Hn & _), (posint_spec _ Pm) as (q' & k & -> & Hk & _).
  exists q, q', n, k. cbn in L. repeat (split; auto). apply INR_le. lra.
Qed.
End Terms.
