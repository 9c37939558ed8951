(** Proofs about NumFormModel.v. *)
From Coq Require Import ZArith QArith Qcanon Qreals Reals List Bool Lia Lra.
From Coquelicot Require Import Complex.
From Verif Require Import Fld CplxF Ast IntUtilModel IntUtilSpec IntUtilProofs NumFormModel NumFormSpec.
Import ListNotations.
Local Open Scope Z_scope.

Lemma prod_powers_eq bs es : prod_powers bs es = prodpow bs es.
Proof. revert es. induction bs as [|b bs IH]; intros [|e es]; cbn; auto; now rewrite IH. Qed.
Lemma prodpow_pos bs es : Forall (fun b => 0 < b) bs -> Forall (fun e => 0 <= e) es -> 0 < prodpow bs es.
Proof.
  revert es. induction bs as [|b bs IH]; intros [|e es] H1 H2; cbn; try lia. inversion H1; inversion H2; subst.
  apply Z.mul_pos_pos; auto. apply Z.pow_pos_nonneg; lia.
Qed.
Lemma std_pos k bs es m es' : 0 < k -> Forall (fun b => 0 < b) bs -> Forall (fun e => 0 <= e) es -> List.length bs = List.length es ->
  to_std_form k bs es = (m, es') -> 0 < m /\ Forall (fun e => 0 <= e < k) es' /\ List.length es' = List.length es /\ prodpow bs es = m ^ k * prodpow bs es'.
Proof.
  intros Hk. revert es m es'. induction bs as [|b bs IH]; intros [|e es] m es' H1 H2 HL H; cbn in HL; try discriminate.
  - injection H as <- <-. rewrite Z.pow_1_l by lia. repeat split; auto; lia.
  - inversion H1; inversion H2; subst. cbn [to_std_form] in H. destruct (to_std_form k bs es) as [m0 es0] eqn:E.
    destruct (IH es m0 es0) as (A & B & C & D); auto. replace (k <? 0) with false in H by (symmetry; apply Z.ltb_ge; lia). cbn [andb] in H. injection H as <- <-.
    rewrite (Z.abs_eq k) by lia. rewrite Z.rem_mod_nonneg, Z.quot_div_nonneg by lia.
    pose proof (Z.mod_pos_bound e k Hk) as M. pose proof (Z.div_mod e k ltac:(lia)) as DM. pose proof (Z.div_pos e k ltac:(lia) Hk) as DP.
    split; [apply Z.mul_pos_pos; auto; apply Z.pow_pos_nonneg; lia|]. split; [constructor; auto|]. split; [cbn; lia|]. cbn [prodpow].
    rewrite D, Z.pow_mul_l. rewrite DM at 1. rewrite Z.pow_add_r by nia. rewrite (Z.mul_comm k (e / k)), Z.pow_mul_r by lia. ring.
Qed.
Lemma std_neg k bs es m es' : 0 < k -> Forall (fun b => 0 < b) bs -> Forall (fun e => 0 <= e) es -> List.length bs = List.length es ->
  to_std_form (- k) bs es = (m, es') -> 0 < m /\ Forall (fun e => 0 <= e < k) es' /\ List.length es' = List.length es /\ m ^ k = prodpow bs es * prodpow bs es'.
Proof.
  intros Hk. revert es m es'. induction bs as [|b bs IH]; intros [|e es] m es' H1 H2 HL H; cbn in HL; try discriminate.
  - injection H as <- <-. rewrite Z.pow_1_l by lia. repeat split; auto; lia.
  - inversion H1; inversion H2; subst. cbn [to_std_form] in H. destruct (to_std_form (- k) bs es) as [m0 es0] eqn:E.
    destruct (IH es m0 es0) as (A & B & C & D); auto. replace (- k <? 0) with true in H by (symmetry; apply Z.ltb_lt; lia). cbn [andb] in H.
    rewrite Z.abs_opp, (Z.abs_eq k) in H by lia. rewrite Z.rem_mod_nonneg, Z.quot_div_nonneg in H by lia.
    pose proof (Z.mod_pos_bound e k Hk) as M. pose proof (Z.div_mod e k ltac:(lia)) as DM. pose proof (Z.div_pos e k ltac:(lia) Hk) as DP.
    destruct (Z.eqb_spec (e mod k) 0) as [Ez|Ez]; cbn [negb] in H; injection H as <- <-.
    + split; [apply Z.mul_pos_pos; auto; apply Z.pow_pos_nonneg; lia|]. split; [constructor; auto|]. split; [cbn; lia|]. cbn [prodpow].
      rewrite Ez, Z.pow_0_r, Z.pow_mul_l, D. rewrite DM at 2. rewrite Ez, Z.add_0_r, (Z.mul_comm k (e / k)), Z.pow_mul_r by lia. ring.
    + split; [apply Z.mul_pos_pos; auto; apply Z.pow_pos_nonneg; lia|]. split; [constructor; auto; lia|]. split; [cbn; lia|]. cbn [prodpow].
      rewrite Z.pow_mul_l, D. rewrite <- (Z.pow_mul_r b (e / k + 1) k) by lia. replace ((e / k + 1) * k) with (e + (k - e mod k)) by nia.
      rewrite Z.pow_add_r by lia. ring.
Qed.
Lemma gcd_exponents_ok es g : 0 < g -> 0 < gcd_exponents g es /\ (gcd_exponents g es | g) /\ (1 < gcd_exponents g es -> Forall (fun e => (gcd_exponents g es | e)) es).
Proof.
  unfold gcd_exponents. revert g. induction es as [|e es IH]; intros g Hg; cbn [fold_left].
  - repeat split; auto. exists 1. lia.
  - destruct (Z.ltb_spec 1 g) as [L|L].
    + assert (P : 0 < Z.gcd g e) by (pose proof (Z.gcd_nonneg g e); assert (Z.gcd g e <> 0) by (intros X; apply Z.gcd_eq_0_l in X; lia); lia).
      destruct (IH _ P) as (A & B & C). split; auto. split; [eapply Z.divide_trans; [exact B|apply Z.gcd_divide_l]|].
      intros H. constructor; auto. eapply Z.divide_trans; [exact B|apply Z.gcd_divide_r].
    + destruct (IH _ Hg) as (A & B & C). split; auto. split; auto. intros H. exfalso. apply Z.divide_pos_le in B; lia.
Qed.
Lemma prodpow_div g bs es : 0 < g -> Forall (fun b => 0 < b) bs -> Forall (fun e => 0 <= e) es -> Forall (fun e => (g | e)) es ->
  prodpow bs (map (fun e => e / g) es) ^ g = prodpow bs es.
Proof.
  intros Hg. revert es. induction bs as [|b bs IH]; intros [|e es] H1 H2 H3; cbn [map prodpow]; try (apply Z.pow_1_l; lia).
  inversion H1; inversion H2; inversion H3; subst. rewrite Z.pow_mul_l, IH by auto. f_equal. rewrite <- Z.pow_mul_r; [|apply Z.div_pos; lia|lia].
  destruct H12 as [q ->]. now rewrite Z.div_mul by lia.
Qed.

Local Open Scope R_scope.
Lemma IZR_pow b k : (0 <= k)%Z -> IZR (b ^ k) = IZR b ^ Z.to_nat k.
Proof. intros H. rewrite pow_IZR, Z2Nat.id; auto. Qed.
Lemma root_unique v x k : (0 < k)%Z -> 0 < v -> v ^ Z.to_nat k = x -> v = Rpower x (/ IZR k).
Proof.
  intros Hk Hv <-. rewrite <- Rpower_pow by auto. rewrite Rpower_mult, INR_IZR_INZ, Z2Nat.id by lia.
  rewrite Rinv_r by (apply not_0_IZR; lia). now rewrite Rpower_1.
Qed.
Lemma root_pow x k : (0 < k)%Z -> 0 < x -> Rpower x (/ IZR k) ^ Z.to_nat k = x.
Proof.
  intros Hk Hx. rewrite <- Rpower_pow by apply exp_pos. rewrite Rpower_mult, INR_IZR_INZ, Z2Nat.id by lia.
  rewrite Rinv_l by (apply not_0_IZR; lia). now rewrite Rpower_1.
Qed.
(** The part of reduce_to_standard_form after the special cases. *)
Definition core (sign : nat) (num den k : Z) : outcome stdform :=
  match partial_factor num ([], []), partial_factor den ([], []) with
  | Ret (nb, ne), Ret (db, de) =>
    let (rn, ne) := to_std_form k nb ne in
    let (rd, de) := to_std_form (- k) db de in
    let gc := gcd_exponents (gcd_exponents k ne) de in
    let '(k, ne, de) := if (1 <? gc)%Z then (k / gc, map (fun e => e / gc) ne, map (fun e => e / gc) de)%Z else (k, ne, de) in
    let p := (prod_powers nb ne * prod_powers db de)%Z in
    Ret (if (1 <? p)%Z then MkStd sign rn rd p k else MkStd sign rn rd 1 1)
  | _, _ => Undef
  end.
Lemma Rpower_1_l y : Rpower 1 y = 1.
Proof. unfold Rpower. rewrite ln_1, Rmult_0_r. apply exp_0. Qed.
Lemma core_ok sign num den k : (0 < k)%Z -> num <> 0%Z -> den <> 0%Z ->
  exists s, core sign num den k = Ret s /\ sgn s = sign /\
    IZR (snum s) / IZR (sden s) * Rpower (IZR (irr s)) (/ IZR (idx s)) = Rpower (IZR (Z.abs num) / IZR (Z.abs den)) (/ IZR k).
Proof.
  intros Hk Hn Hd. unfold core.
  destruct (partial_factor_spec num [] [] Hn) as (nb & ne & -> & Ln & Pn & En & _ & _ & Bn & _).
  destruct (partial_factor_spec den [] [] Hd) as (db & de & -> & Ld & Pd & Ed & _ & _ & Bd & _).
  cbn [app].
  assert (Bp : forall bs n, (forall b, In b bs -> (b = 1 /\ Z.abs n = 1) \/ Znumtheory.prime b \/ (100 < b /\ no_small_prime b))%Z -> Forall (fun b => 0 < b)%Z bs).
  { intros bs n H. apply Forall_forall. intros b Hb. apply H in Hb as [[-> _]|[Hb|[Hb _]]]; try lia. apply Znumtheory.prime_ge_2 in Hb. lia. }
  apply Bp in Bn, Bd. clear Bp.
  assert (En' : Forall (fun e => 0 <= e)%Z ne) by (eapply Forall_impl; [|exact En]; cbn; intros; lia).
  assert (Ed' : Forall (fun e => 0 <= e)%Z de) by (eapply Forall_impl; [|exact Ed]; cbn; intros; lia).
  destruct (to_std_form k nb ne) as [rn ne1] eqn:Sn. destruct (to_std_form (- k) db de) as [rd de1] eqn:Sd.
  destruct (std_pos k nb ne rn ne1 Hk Bn En' Ln Sn) as (A1 & A2 & A3 & A4).
  destruct (std_neg k db de rd de1 Hk Bd Ed' Ld Sd) as (C1 & C2 & C3 & C4).
  assert (A2' : Forall (fun e => 0 <= e)%Z ne1) by (eapply Forall_impl; [|exact A2]; cbn; intros; lia).
  assert (C2' : Forall (fun e => 0 <= e)%Z de1) by (eapply Forall_impl; [|exact C2]; cbn; intros; lia).
  destruct (gcd_exponents_ok ne1 k Hk) as (G1 & G2 & G3). set (g1 := gcd_exponents k ne1) in *.
  destruct (gcd_exponents_ok de1 g1 G1) as (G4 & G5 & G6). set (g := gcd_exponents g1 de1) in *.
  assert (X : exists k' ne2 de2, (if (1 <? g)%Z then (k / g, map (fun e => e / g) ne1, map (fun e => e / g) de1)%Z else (k, ne1, de1)) = (k', ne2, de2) /\
     (0 < k')%Z /\ exists h, (0 < h)%Z /\ k = (h * k')%Z /\ (prodpow nb ne2 ^ h = prodpow nb ne1)%Z /\ (prodpow db de2 ^ h = prodpow db de1)%Z /\
     Forall (fun e => 0 <= e)%Z ne2 /\ Forall (fun e => 0 <= e)%Z de2).
  { destruct (Z.ltb_spec 1 g) as [L|L].
    - assert (Dk : (g | k)%Z) by (eapply Z.divide_trans; eauto). destruct Dk as [q Hq].
      assert (Hq' : (k / g = q)%Z) by (rewrite Hq; apply Z.div_mul; lia).
      assert (F1 : Forall (fun e => (g | e)%Z) ne1).
      { eapply Forall_impl; [|apply G3; apply Z.divide_pos_le in G5; lia]. cbn. intros e He. eapply Z.divide_trans; eauto. }
      do 3 eexists. split; [reflexivity|]. split; [nia|]. exists g. split; [lia|]. split; [rewrite Hq'; lia|].
      split; [apply prodpow_div; auto; lia|]. split; [apply prodpow_div; auto; lia|].
      split; apply Forall_forall; intros e He; apply in_map_iff in He as (e0 & <- & He0); (apply Z.div_pos; [|lia]).
      + exact (proj1 (Forall_forall _ _) A2' e0 He0).
      + exact (proj1 (Forall_forall _ _) C2' e0 He0).
    - do 3 eexists. split; [reflexivity|]. split; [lia|]. exists 1%Z. rewrite !Z.pow_1_r. repeat split; auto; lia. }
  destruct X as (k' & ne2 & de2 & -> & Hk' & h & Hh & Ekh & P1 & P2 & F1 & F2).
  cbv zeta. rewrite (prod_powers_eq nb), (prod_powers_eq db). set (p := (prodpow nb ne2 * prodpow db de2)%Z).
  assert (Pp : (0 < p)%Z) by (apply Z.mul_pos_pos; apply prodpow_pos; auto).
  assert (R1 : 0 < IZR rn) by (apply IZR_lt; auto). assert (R2 : 0 < IZR rd) by (apply IZR_lt; auto). assert (R3 : 0 < IZR p) by (apply IZR_lt; auto).
  assert (Main : IZR rn / IZR rd * Rpower (IZR p) (/ IZR k') = Rpower (IZR (Z.abs num) / IZR (Z.abs den)) (/ IZR k)).
  { apply root_unique; auto.
    - apply Rmult_lt_0_compat; [apply Rdiv_lt_0_compat; auto|apply exp_pos].
    - rewrite Rpow_mult_distr. rewrite Ekh at 2. rewrite (Z.mul_comm h), Z2Nat.inj_mul by lia. rewrite pow_mult, root_pow by auto.
      rewrite <- IZR_pow by lia. unfold p. rewrite Z.pow_mul_l, P1, P2. unfold Rdiv. rewrite Rpow_mult_distr, pow_inv, <- !IZR_pow by lia.
      rewrite C4, <- Pn, <- Pd, A4, !mult_IZR. field.
      assert (prodpow db de <> 0)%Z by (pose proof (prodpow_pos db de Bd Ed'); lia). assert (prodpow db de1 <> 0)%Z by (pose proof (prodpow_pos db de1 Bd C2'); lia).
      split; apply not_0_IZR; auto. }
  eexists. split; [reflexivity|]. destruct (Z.ltb_spec 1 p) as [L|L]; cbn [sgn snum sden irr idx]; split; auto.
  rewrite <- Main. replace p with 1%Z by lia. now rewrite !Rpower_1_l.
Qed.
Lemma reduce_unfold k r : k <> 0%Z -> (Qnum (this r) <> 0)%Z -> reduce_to_standard_form k r =
  let num := Qnum (this r) in let den := Z.pos (Qden (this r)) in
  let sign := if (num <? 0)%Z then (if Z.even k then (if (0 <? k)%Z then 1%nat else 3%nat) else 2%nat) else 0%nat in
  if (k <? 0)%Z then (if (- k =? 1)%Z then Ret (MkStd sign den num 1 1) else core sign den num (- k))
  else (if (k =? 1)%Z then Ret (MkStd sign num den 1 1) else core sign num den k).
Proof.
  intros Hk Hr. unfold reduce_to_standard_form. destruct (Z.eqb_spec k 0); [lia|]. destruct (Z.eqb_spec (Qnum (this r)) 0); [lia|].
  cbv zeta. destruct (k <? 0)%Z; reflexivity.
Qed.
Lemma rv_frac r : rv r = IZR (Qnum (this r)) / IZR (Z.pos (Qden (this r))).
Proof. reflexivity. Qed.
Lemma rv_sign r : (rv r < 0 <-> (Qnum (this r) < 0)%Z) /\ (0 < rv r <-> (0 < Qnum (this r))%Z).
Proof.
  rewrite rv_frac. assert (D : 0 < IZR (Z.pos (Qden (this r)))) by now apply IZR_lt. pose proof (Rinv_0_lt_compat _ D) as Di. unfold Rdiv. split; split; intros H.
  - apply lt_IZR. destruct (Rlt_or_le (IZR (Qnum (this r))) 0); auto. nra.
  - apply IZR_lt in H. nra.
  - apply lt_IZR. destruct (Rlt_or_le 0 (IZR (Qnum (this r)))); auto. nra.
  - apply IZR_lt in H. nra.
Qed.
(** Sign exponent. *)
Definition sign_of (r : Qc) (k : Z) : nat := if (Qnum (this r) <? 0)%Z then (if Z.even k then (if (0 <? k)%Z then 1%nat else 3%nat) else 2%nat) else 0%nat.
Lemma Rpower_opp_exp x y : 0 < x -> Rpower x (- y) = Rpower (/ x) y.
Proof. intros H. unfold Rpower. rewrite ln_Rinv by auto. f_equal. lra. Qed.
Lemma inv_frac a b : a <> 0 -> b <> 0 -> / (a / b) = b / a. Proof. intros. field. auto. Qed.
Lemma reduce_general k r : k <> 0%Z -> rv r <> 0 -> (1 < Z.abs k)%Z \/ 0 < rv r ->
  exists s, reduce_to_standard_form k r = Ret s /\ std_value s = Cmult (fpow (K := CF) Ci (sign_of r k)) (RtoC (Rpower (Rabs (rv r)) (/ IZR k))).
Proof.
  intros Hk Hr Hc. assert (Hn : (Qnum (this r) <> 0)%Z) by (intros X; apply Hr; rewrite rv_frac, X; unfold Rdiv; ring).
  rewrite reduce_unfold by auto. cbv zeta. fold (sign_of r k). unfold std_value.
  set (num := Qnum (this r)) in *. set (den := Z.pos (Qden (this r))) in *. assert (Hd : (0 < den)%Z) by (subst den; lia).
  assert (Hd' : 0 < IZR den) by now apply IZR_lt. assert (Hn' : IZR num <> 0) by now apply not_0_IZR.
  assert (AB : Rabs (rv r) = IZR (Z.abs num) / IZR (Z.abs den)).
  { rewrite rv_frac. fold num. fold den. unfold Rdiv. rewrite Rabs_mult, Rabs_inv, !abs_IZR. reflexivity. }
  assert (Xn : 0 < IZR (Z.abs num)) by (apply IZR_lt; lia). assert (Xd : 0 < IZR (Z.abs den)) by (apply IZR_lt; lia).
  assert (PO : 0 < rv r -> Z.abs num = num) by (intros P; apply rv_sign in P; fold num in P; lia).
  destruct (Z.ltb_spec k 0) as [L|L].
  - assert (Rp : Rpower (Rabs (rv r)) (/ IZR k) = Rpower (IZR (Z.abs den) / IZR (Z.abs num)) (/ IZR (- k))).
    { rewrite AB, <- inv_frac by lra. rewrite <- Rpower_opp_exp by (apply Rdiv_lt_0_compat; auto). f_equal. rewrite opp_IZR. field. apply not_0_IZR. lia. }
    destruct (Z.eqb_spec (- k) 1) as [E|E].
    + eexists. split; [reflexivity|]. cbn [sgn snum sden irr idx]. rewrite Rpower_1_l, Rmult_1_r, Rp, E.
      destruct Hc as [Hc|Hc]; [lia|]. rewrite Rinv_1, Rpower_1 by (apply Rdiv_lt_0_compat; auto). rewrite (PO Hc), (Z.abs_eq den) by lia. reflexivity.
    + destruct (core_ok (sign_of r k) den num (- k)) as (s & E1 & E2 & E3); try lia. exists s. rewrite E2, E3, Rp. auto.
  - destruct (Z.eqb_spec k 1) as [E|E].
    + eexists. split; [reflexivity|]. cbn [sgn snum sden irr idx]. rewrite Rpower_1_l, Rmult_1_r, E.
      destruct Hc as [Hc|Hc]; [lia|]. rewrite Rinv_1, Rpower_1 by (rewrite AB; apply Rdiv_lt_0_compat; auto). rewrite AB, (PO Hc), (Z.abs_eq den) by lia. reflexivity.
    + destruct (core_ok (sign_of r k) num den k) as (s & E1 & E2 & E3); try lia. exists s. rewrite E2, E3, AB. auto.
Qed.
Theorem reduce_positive k r : k <> 0%Z -> 0 < rv r ->
  exists s, reduce_to_standard_form k r = Ret s /\ std_value s = RtoC (Rpower (rv r) (/ IZR k)).
Proof.
  intros Hk Hr. destruct (reduce_general k r Hk) as (s & E1 & E2); [lra|auto|]. exists s. split; auto. rewrite E2.
  unfold sign_of. pose proof (proj1 (proj2 (rv_sign r)) Hr). replace (Qnum (this r) <? 0)%Z with false by (symmetry; apply Z.ltb_ge; lia).
  cbn [fpow]. rewrite Rabs_right by lra. apply Cmult_1_l.
Qed.
Theorem reduce_zero k : (0 < k)%Z -> exists s, reduce_to_standard_form k 0 = Ret s /\ std_value s = RtoC 0.
Proof.
  intros Hk. unfold reduce_to_standard_form. destruct (Z.eqb_spec k 0); [lia|]. replace (Qnum (this 0%Qc) =? 0)%Z with true by reflexivity.
  replace (k <? 0)%Z with false by (symmetry; apply Z.ltb_ge; lia). eexists. split; [reflexivity|]. unfold std_value. cbn. rewrite Cmult_1_l. f_equal. unfold Rdiv. ring.
Qed.
Theorem reduce_undefined k r : reduce_to_standard_form k r = Undef <-> k = 0%Z \/ ((k < 0)%Z /\ rv r = 0).
Proof.
  assert (Z0 : rv r = 0 <-> (Qnum (this r) = 0)%Z).
  { rewrite rv_frac. split; intros H; [|rewrite H; unfold Rdiv; ring]. apply eq_IZR.
    assert (D : 0 < IZR (Z.pos (Qden (this r)))) by now apply IZR_lt. apply Rmult_eq_reg_r with (/ IZR (Z.pos (Qden (this r)))); [|apply Rinv_neq_0_compat; lra]. unfold Rdiv in H. lra. }
  destruct (Z.eq_dec k 0) as [->|Hk]; [split; auto|].
  destruct (Z.eq_dec (Qnum (this r)) 0) as [E|E].
  - unfold reduce_to_standard_form. destruct (Z.eqb_spec k 0); [lia|]. rewrite E. cbn [Z.eqb]. destruct (Z.ltb_spec k 0); split; try discriminate; auto.
    + right. split; [lia|]. now apply Z0.
    + intros [|[]]; lia.
  - split.
    + rewrite reduce_unfold by auto. cbv zeta. destruct (k <? 0)%Z eqn:L.
      * apply Z.ltb_lt in L. destruct (- k =? 1)%Z; [discriminate|]. intros H. edestruct (core_ok) as (s & E1 & _); [| | |rewrite E1 in H; discriminate]; lia.
      * apply Z.ltb_ge in L. destruct (k =? 1)%Z; [discriminate|]. intros H. edestruct (core_ok) as (s & E1 & _); [| | |rewrite E1 in H; discriminate]; lia.
    + intros [|[_ H]]; [lia|]. apply Z0 in H. lia.
Qed.
Lemma cpowR x n : fpow (K := CF) (RtoC x) n = RtoC (x ^ n).
Proof. induction n as [|n IH]; cbn [fpow pow]; [reflexivity|]. rewrite IH, RtoC_mult. reflexivity. Qed.
Lemma cpow_mul (a b : CF) n : fpow (a * b)%F n = (fpow a n * fpow b n)%F.
Proof. apply fpow_mul_l. Qed.
Lemma i_pow_4 a q : fpow (K := CF) Ci (a + 4 * q) = fpow (Ci : CF) a.
Proof.
  induction q as [|q IH]; [f_equal; lia|]. replace (a + 4 * S q)%nat with (S (S (S (S (a + 4 * q)))))%nat by lia. cbn [fpow]. rewrite IH.
  set (z := fpow (Ci : CF) a). clearbody z. change (@fmul CF) with Cmult. unfold Cmult, Ci. destruct z as [x y]. cbn. f_equal; ring.
Qed.
Lemma i_pow_pow a b : fpow (K := CF) (fpow (Ci : CF) a) b = fpow (Ci : CF) (a * b).
Proof. symmetry. apply fpow_mul. Qed.
(** A negative number: the k-th power of the result is the number if k is odd (and not 1 or -1) or k = 2 modulo 4. *)
Theorem reduce_negative k r : rv r < 0 -> (1 < Z.abs k)%Z -> Z.odd k = true \/ (k mod 4 = 2)%Z ->
  exists s, reduce_to_standard_form k r = Ret s /\ cpow (std_value s) k = RtoC (rv r).
Proof.
  intros Hr Hk Hp. destruct (reduce_general k r) as (s & E1 & E2); [lia|lra|auto|]. exists s. split; auto. rewrite E2. clear E1 E2 s.
  assert (Nn : (Qnum (this r) <? 0)%Z = true) by (apply Z.ltb_lt; now apply rv_sign). unfold sign_of. rewrite Nn.
  set (sg := if Z.even k then if (0 <? k)%Z then 1%nat else 3%nat else 2%nat).
  assert (SG : fpow (K := CF) (fpow (Ci : CF) sg) (Z.to_nat (Z.abs k)) = RtoC (-1)).
  { rewrite i_pow_pow. 
    assert (X : exists q, (sg * Z.to_nat (Z.abs k) = 2 + 4 * q)%nat).
    { assert (Y : exists q, (Z.of_nat sg * Z.abs k = 2 + 4 * q)%Z).
      { subst sg. destruct (Z.even k) eqn:Ev.
        - destruct Hp as [Ho|Hm]; [rewrite <- Z.negb_even, Ev in Ho; discriminate|]. pose proof (Z.div_mod k 4 ltac:(lia)) as DM. rewrite Hm in DM.
          destruct (Z.ltb_spec 0 k); [exists (k / 4)%Z; lia|]. exists (- (k / 4) * 3 - 2)%Z. lia.
        - assert (Ho : Z.odd k = true) by (rewrite <- Z.negb_even, Ev; auto). apply Z.odd_spec in Ho as [m Hm]. destruct (Z_le_dec 0 k); [exists m; lia|exists (- m - 1)%Z; lia]. }
      destruct Y as [q Hq]. exists (Z.to_nat q). apply Nat2Z.inj. rewrite Nat2Z.inj_mul, Nat2Z.inj_add, Nat2Z.inj_mul, !Z2Nat.id by lia. lia. }
    destruct X as [q ->]. rewrite i_pow_4. cbn [fpow]. change (@fmul CF) with Cmult. change (@f1 CF) with (RtoC 1). unfold Cmult, Ci, RtoC. cbn [fst snd]. f_equal; lra. }
  assert (MG : forall x, fpow (K := CF) (Cmult (fpow (Ci : CF) sg) (RtoC x)) (Z.to_nat (Z.abs k)) = RtoC (- (x ^ Z.to_nat (Z.abs k)))).
  { intros x. change Cmult with (@fmul CF). rewrite cpow_mul, SG, cpowR. change (@fmul CF) with Cmult. rewrite <- RtoC_mult. f_equal. ring. }
  rewrite Rabs_left by auto. unfold cpow, zpow. destruct k as [|p|p]; [lia| |].
  - specialize (MG (Rpower (- rv r) (/ IZR (Z.pos p)))). cbn [Z.abs Z.to_nat] in MG. rewrite MG. f_equal. change (Pos.to_nat p) with (Z.to_nat (Z.pos p)). rewrite root_pow; [ring|lia|lra].
  - specialize (MG (Rpower (- rv r) (/ IZR (Z.neg p)))). cbn [Z.abs Z.to_nat] in MG. rewrite MG. change (Pos.to_nat p) with (Z.to_nat (Z.pos p)).
    replace (/ IZR (Z.neg p)) with (- / IZR (Z.pos p)) by (change (Z.neg p) with (- Z.pos p)%Z; rewrite opp_IZR; field; apply not_0_IZR; lia).
    rewrite Rpower_opp_exp by lra. rewrite root_pow; [|lia|apply Rinv_0_lt_compat; lra].
    change (@finv CF) with Cinv. transitivity (RtoC (/ (- / - rv r))); [|apply f_equal; field; lra]. symmetry. apply RtoC_inv.
    assert (0 < / - rv r) by (apply Rinv_0_lt_compat; lra). lra.
Qed.

(** red_prod *)
Lemma rv_inv q : rv q <> 0 -> rv (/ q)%Qc = / rv q.
Proof.
  intros H. unfold Qcinv. unfold rv at 1, Q2Qc, this at 1. rewrite (Qeq_eqR _ _ (Qred_correct _)). apply Q2R_inv. intros X. apply H. unfold rv. rewrite (Qeq_eqR _ _ X). apply RMicromega.Q2R_0.
Qed.
Lemma rv_pow q n : rv (q ^ n)%Qc = rv q ^ n.
Proof. induction n as [|n IH]; cbn [Qcpower pow]; [apply rv_1|]. rewrite rv_mul, IH. reflexivity. Qed.
Lemma rv_qpow b z : 0 < rv b -> rv (qpow b z) = Rpower (rv b) (IZR z).
Proof.
  intros H. unfold qpow. destruct (Z.ltb_spec z 0).
  - rewrite rv_inv, rv_pow; [|rewrite rv_pow; apply pow_nonzero; lra]. replace (IZR z) with (- INR (Z.to_nat (- z))) by (rewrite INR_IZR_INZ, Z2Nat.id, opp_IZR by lia; ring).
    rewrite Rpower_Ropp, Rpower_pow by auto. reflexivity.
  - rewrite rv_pow, <- Rpower_pow by auto. f_equal. rewrite INR_IZR_INZ, Z2Nat.id by lia. reflexivity.
Qed.
Theorem red_prod_positive b1 e1 b2 e2 : 0 < rv b1 -> 0 < rv b2 -> rv e1 <> 0 -> rv e2 <> 0 ->
  exists s, red_prod b1 e1 b2 e2 = Ret s /\ std_value s = RtoC (Rpower (rv b1) (rv e1) * Rpower (rv b2) (rv e2)).
Proof.
  intros B1 B2 E1 E2. unfold red_prod.
  assert (N : forall e, rv e <> 0 -> (Qnum (this e) <> 0)%Z) by (intros e H X; apply H; rewrite rv_frac, X; unfold Rdiv; ring).
  destruct (Z.eqb_spec (Qnum (this e1)) 0) as [X|_]; [now apply N in X|]. destruct (Z.eqb_spec (Qnum (this e2)) 0) as [X|_]; [now apply N in X|]. cbn [orb].
  set (sp := fun e : Qc => if (0 <? Qnum (this e))%Z then (Qnum (this e), Z.pos (Qden (this e))) else (- Qnum (this e), - Z.pos (Qden (this e)))%Z).
  assert (S : forall e, rv e <> 0 -> exists n d, sp e = (n, d) /\ (0 < n)%Z /\ (d <> 0)%Z /\ rv e = IZR n / IZR d).
  { intros e He. unfold sp. destruct (Z.ltb_spec 0 (Qnum (this e))); do 2 eexists; (split; [reflexivity|]); rewrite rv_frac.
    - repeat split; auto; lia.
    - apply N in He. repeat split; auto; try lia. rewrite !opp_IZR. field. apply not_0_IZR. lia. }
  change (exists s, (let (n1, d1) := sp e1 in let (n2, d2) := sp e2 in reduce_to_standard_form (d1 * d2 / Z.gcd d1 d2) (qpow (qpow b1 n1) (d2 / Z.gcd d1 d2) * qpow (qpow b2 n2) (d1 / Z.gcd d1 d2))%Qc) = Ret s /\
    std_value s = RtoC (Rpower (rv b1) (rv e1) * Rpower (rv b2) (rv e2))).
  destruct (S e1 E1) as (n1 & d1 & -> & P1 & D1 & ->). destruct (S e2 E2) as (n2 & d2 & -> & P2 & D2 & ->). clear S sp.
  set (g := Z.gcd d1 d2). assert (Hg : (0 < g)%Z) by (pose proof (Z.gcd_nonneg d1 d2); assert (g <> 0)%Z by (intros X; apply Z.gcd_eq_0_l in X; lia); lia).
  destruct (Z.gcd_divide_l d1 d2) as [q1 Q1]. destruct (Z.gcd_divide_r d1 d2) as [q2 Q2]. fold g in Q1, Q2.
  assert (K : (d1 * d2 / g = q1 * d2)%Z) by (rewrite Q1 at 1; replace (q1 * g * d2)%Z with (q1 * d2 * g)%Z by ring; apply Z.div_mul; lia).
  assert (K1 : (d1 / g = q1)%Z) by (rewrite Q1; apply Z.div_mul; lia). assert (K2 : (d2 / g = q2)%Z) by (rewrite Q2; apply Z.div_mul; lia).
  rewrite K, K1, K2.
  assert (R1 : rv (qpow b1 n1) = Rpower (rv b1) (IZR n1)) by now apply rv_qpow. assert (R2 : rv (qpow b2 n2) = Rpower (rv b2) (IZR n2)) by now apply rv_qpow.
  assert (Rm : rv (qpow (qpow b1 n1) q2 * qpow (qpow b2 n2) q1)%Qc = Rpower (rv b1) (IZR n1 * IZR q2) * Rpower (rv b2) (IZR n2 * IZR q1)).
  { rewrite rv_mul, !rv_qpow; rewrite ?R1, ?R2; try apply exp_pos; auto. now rewrite !Rpower_mult. }
  assert (q1 <> 0)%Z by nia. assert (q2 <> 0)%Z by nia.
  destruct (reduce_positive (q1 * d2) (qpow (qpow b1 n1) q2 * qpow (qpow b2 n2) q1)%Qc) as (s & S1 & S2); [nia|rewrite Rm; apply Rmult_lt_0_compat; apply exp_pos|].
  exists s. split; auto. rewrite S2, Rm. f_equal. rewrite <- Rpower_mult_distr by apply exp_pos. rewrite !Rpower_mult.
  assert (IZR q1 <> 0) by now apply not_0_IZR. assert (IZR q2 <> 0) by now apply not_0_IZR. assert (IZR g <> 0) by (apply not_0_IZR; lia).
  rewrite mult_IZR, Q1, Q2, !mult_IZR. f_equal; f_equal; field; auto.
Qed.
