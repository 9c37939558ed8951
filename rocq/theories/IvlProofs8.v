(** Chains of widenings and narrowings stop. *)
From Coq Require Import ZArith QArith Qcanon Qround Reals Qreals Lra Lia Psatz Bool List.
From Verif Require Import Bool3Model Ast IvlModel IvlSpec IvlProofs IvlProofs2 IvlProofs3 IvlProofs4 IvlProofs5 IvlProofs6 IvlProofs7.
Local Open Scope R_scope.
Set Bullet Behavior "Strict Subproofs".

(** * The order of the boundaries *)
Lemma gtb_lt f g : Z.gtb (flag_z f) (flag_z g) = Z.ltb (flag_z g) (flag_z f).
Proof. destruct f, g; reflexivity. Qed.
Lemma b_lt_trans b c d : b_lt b c = true -> b_lt c d = true -> b_lt b d = true.
Proof.
  unfold b_lt. destruct b as [v f], c as [w g], d as [u h]. cbn [bv bf].
  destruct v as [|s|s p], w as [|s'|s' q], u as [|s''|s'' r]; cbn; try discriminate; try (destruct s; cbn; try discriminate); try (destruct s'; cbn; try discriminate); try (destruct s''; cbn; try discriminate);
    try reflexivity; try (destruct f, g, h; cbn; intros; congruence).
  all: qsplit; q2r; cbn; try discriminate; try reflexivity; try lra; destruct f, g, h; cbn; intros; try congruence; try lra.
Qed.
Lemma b_lt_irrefl b : b_lt b b = false.
Proof. unfold b_lt. rewrite Z.ltb_irrefl, Bool.andb_false_r, Bool.orb_false_r. destruct b as [[|[]|s p] f]; cbn; try reflexivity. qsplit; q2r; try reflexivity; lra. Qed.
(** c < b and not d < b ... *)
Lemma b_lt_le b c d : bv d <> NaN -> b_lt b c = true -> b_lt d c = false -> b_lt b d = true.
Proof.
  unfold b_lt. destruct b as [v f], c as [w g], d as [u h]. cbn [bv bf].
  destruct v as [|s|s p], w as [|s'|s' q], u as [|s''|s'' r]; cbn; try discriminate; try congruence; try (destruct s; cbn; try discriminate); try (destruct s'; cbn; try discriminate); try (destruct s''; cbn; try discriminate);
    try reflexivity; try (destruct f, g, h; cbn; intros; congruence).
  all: qsplit; q2r; cbn; try discriminate; try reflexivity; try lra; intros; destruct f, g, h; cbn in *; congruence.
Qed.
Lemma b_le_lt b c d : bv c <> NaN -> b_lt c b = false -> b_lt c d = true -> b_lt b d = true \/ bv b = NaN.
Proof.
  unfold b_lt. destruct b as [v f], c as [w g], d as [u h]. cbn [bv bf].
  destruct v as [|s|s p], w as [|s'|s' q], u as [|s''|s'' r]; cbn; auto; try discriminate; try congruence; try (destruct s; cbn; try discriminate); try (destruct s'; cbn; try discriminate); try (destruct s''; cbn; try discriminate);
    auto; try (destruct f, g, h; cbn; intros; left; congruence).
  all: qsplit; q2r; cbn; try discriminate; auto; try lra; intros; left; destruct f, g, h; cbn in *; congruence.
Qed.
Lemma b_eq_lt b c : b_eq b c = true -> b_lt b c = false /\ b_lt c b = false.
Proof. intros H. destruct (eq_ngt_nlt b c H) as [H1 H2]. split; [exact H2|]. rewrite b_lt_gt. exact H1. Qed.

Definition ind (b : bool) : nat := if b then 1%nat else 0%nat.
Fixpoint below_count (cs : list bnd) (l : bnd) : nat := match cs with nil => 0 | c :: t => ind (b_lt c l) + below_count t l end.
Lemma count_le cs l l' : bv l <> NaN -> b_lt l l' = false -> (below_count cs l' <= below_count cs l)%nat.
Proof.
  intros N H. induction cs as [|c cs IH]; cbn; [lia|]. destruct (b_lt c l') eqn:E; cbn; [|lia]. rewrite (b_lt_le c l' l N E H). cbn. lia.
Qed.
Lemma count_lt cs l l' c : In c cs -> b_eq c l' = true -> bv l <> NaN -> b_lt l' l = true -> (below_count cs l' < below_count cs l)%nat.
Proof.
  intros IN E N H. destruct (b_eq_lt _ _ E) as [E1 E2]. assert (NL : b_lt l l' = false). { destruct (b_lt l l') eqn:K; [|reflexivity]. pose proof (b_lt_trans _ _ _ K H) as X. rewrite b_lt_irrefl in X. discriminate. }
  assert (CL : b_lt c l = true). { assert (NN : bv l' <> NaN) by (unfold b_lt in H; intros Q; rewrite Q in H; discriminate).
    destruct (b_le_lt c l' l NN E2 H) as [K|K]; [exact K|]. unfold b_eq in E. rewrite K in E. discriminate. }
  clear E. induction cs as [|d cs IH]; [destruct IN|]. cbn [below_count]. pose proof (count_le cs l l' N NL). destruct IN as [IN|IN]; [rewrite IN in *|].
  - rewrite E1, CL. cbn. lia.
  - specialize (IH IN). destruct (b_lt d l') eqn:D; cbn [ind]; [rewrite (b_lt_le d l' l N D NL)|]; cbn; lia.
Qed.
Fixpoint above_count (cs : list bnd) (u : bnd) : nat := match cs with nil => 0 | c :: t => ind (b_lt u c) + above_count t u end.
Lemma acount_le cs u u' : bv u <> NaN -> bv u' <> NaN -> b_lt u' u = false -> (above_count cs u' <= above_count cs u)%nat.
Proof.
  intros N N' H. induction cs as [|c cs IH]; cbn; [lia|]. destruct (b_lt u' c) eqn:E; cbn; [|lia]. destruct (b_le_lt u u' c N' H E) as [-> |K]; [cbn; lia|congruence].
Qed.
Lemma acount_lt cs u u' c : In c cs -> b_eq c u' = true -> bv u <> NaN -> b_lt u u' = true -> (above_count cs u' < above_count cs u)%nat.
Proof.
  intros IN E N H. destruct (b_eq_lt _ _ E) as [E1 E2]. assert (NL : b_lt u' u = false). { destruct (b_lt u' u) eqn:K; [|reflexivity]. pose proof (b_lt_trans _ _ _ K H) as X. rewrite b_lt_irrefl in X. discriminate. }
  assert (NN : bv u' <> NaN) by (unfold b_lt in H; intros Q; rewrite Q in H; destruct (bv u) as [|[]|]; discriminate).
  assert (CL : b_lt u c = true). { assert (NC : bv c <> NaN) by (unfold b_eq in E; intros Q; rewrite Q in E; destruct (bv u') as [|[]|]; discriminate). exact (b_lt_le u u' c NC H E1). }
  clear E. induction cs as [|d cs IH]; [destruct IN|]. cbn [above_count]. pose proof (acount_le cs u u' N NN NL). destruct IN as [IN|IN]; [rewrite IN in *|].
  - rewrite E2, CL. cbn. lia.
  - specialize (IH IN). destruct (b_lt u' d) eqn:D; cbn [ind]; [destruct (b_le_lt u u' d NN NL D) as [-> |K]; [|congruence]|]; cbn; lia.
Qed.

(** * Widening *)
Definition lows (ks : list Z) : list bnd := flat_map (fun k => mkB (num k) POS :: mkB (num k) ZERO :: nil) ks ++ b_min :: nil.
Definition ups (ks : list Z) : list bnd := flat_map (fun k => mkB (num k) NEG :: mkB (num k) ZERO :: nil) ks ++ b_max :: nil.
Lemma b_eq_refl b : bv b <> NaN -> b_eq b b = true.
Proof. intros H. unfold b_eq. rewrite Z.eqb_refl, Bool.andb_true_r. destruct (bv b) as [|i|s p]; [congruence|apply Bool.eqb_reflx|]. cbn. apply qeq_iff. reflexivity. Qed.
Lemma widen_low_cand (A : arith) ks l : (bv l = Inf false \/ bf l <> NEG) -> lower_inf l -> bv l <> NaN -> 
  b_lt l (widen_lower A false l (map num ks)) = false /\ (exists c, In c (lows ks) /\ b_eq c (widen_lower A false l (map num ks)) = true) /\ bv (widen_lower A false l (map num ks)) <> NaN.
Proof.
  intros F FI N. induction ks as [|k ks (IH1 & (c & IH2 & IH3) & IH4)]; cbn [map widen_lower].
  - split; [|split; [|discriminate]].
    + unfold b_lt, lower_inf in *. destruct (bv l) as [|[]|s q]; try congruence; try reflexivity. cbn. rewrite (FI eq_refl). reflexivity.
    + exists b_min. split; [left; reflexivity|reflexivity].
  - destruct (lv_ge l (num k)) eqn:G; [destruct (bv_gt l (num k)) eqn:G'|].
    + cbn [set_gt andb]. split; [|split; [|discriminate]].
      * unfold bv_gt, vgt, num in G'. unfold b_lt. destruct l as [v f]. cbn [bv bf] in *. destruct v as [|[]|s q]; cbn in *; try discriminate; try reflexivity.
        qsplit; q2r; cbn in *; try discriminate; try lra; try reflexivity. destruct f; cbn in *; try discriminate; reflexivity.
      * exists (mkB (num k) POS). split; [left; reflexivity|apply b_eq_refl; discriminate].
    + split; [apply b_lt_irrefl|split; [|exact N]]. exists (mkB (num k) ZERO). split; [right; left; reflexivity|].
      unfold bv_gt, vgt, num, lv_ge, b_eq in *. destruct l as [v f]. cbn [bv bf] in *. destruct v as [|[]|s q]; cbn in *; try discriminate; try congruence.
      destruct F as [F|F]; [discriminate|]. qsplit; q2r; cbn in *; try discriminate; try lra. destruct f; cbn in *; try discriminate; congruence.
    + split; [exact IH1|split; [|exact IH4]]. exists c. split; [right; right; exact IH2|exact IH3].
Qed.
Lemma widen_up_cand (A : arith) ks u : (bv u = Inf true \/ bf u <> POS) -> upper_inf u -> bv u <> NaN -> 
  b_lt (widen_upper A false u (map num ks)) u = false /\ (exists c, In c (ups ks) /\ b_eq c (widen_upper A false u (map num ks)) = true) /\ bv (widen_upper A false u (map num ks)) <> NaN.
Proof.
  intros F FI N. induction ks as [|k ks (IH1 & (c & IH2 & IH3) & IH4)]; cbn [map widen_upper].
  - split; [|split; [|discriminate]].
    + unfold b_lt, upper_inf in *. destruct (bv u) as [|[]|s q]; try congruence; try reflexivity. cbn. rewrite (FI eq_refl). reflexivity.
    + exists b_max. split; [left; reflexivity|reflexivity].
  - destruct (uv_le u (num k)) eqn:G; [destruct (bv_lt u (num k)) eqn:G'|].
    + cbn [set_lt andb]. split; [|split; [|discriminate]].
      * unfold bv_lt, num in G'. unfold b_lt. destruct u as [v f]. cbn [bv bf] in *. destruct v as [|[]|s q]; cbn in *; try discriminate; try reflexivity.
        qsplit; q2r; cbn in *; try discriminate; try lra; try reflexivity. destruct f; cbn in *; try discriminate; reflexivity.
      * exists (mkB (num k) NEG). split; [left; reflexivity|apply b_eq_refl; discriminate].
    + split; [apply b_lt_irrefl|split; [|exact N]]. exists (mkB (num k) ZERO). split; [right; left; reflexivity|].
      unfold bv_lt, vgt, num, uv_le, b_eq, vgt in *. destruct u as [v f]. cbn [bv bf] in *. destruct v as [|[]|s q]; cbn in *; try discriminate; try congruence.
      destruct F as [F|F]; [discriminate|]. qsplit; q2r; cbn in *; try discriminate; try lra. destruct f; cbn in *; try discriminate; congruence.
    + split; [exact IH1|split; [|exact IH4]]. exists c. split; [right; right; exact IH2|exact IH3].
Qed.
Lemma stop_or_less (P : nat -> bool) (M : nat -> nat) : (forall n, P n = true \/ (M (S n) < M n)%nat) -> exists k, (k <= M 0)%nat /\ P k = true.
Proof.
  intros H. assert (G : forall m n, (M n <= m)%nat -> exists k, (k <= m)%nat /\ P (n + k)%nat = true).
  { induction m as [|m IH]; intros n L.
    - destruct (H n) as [K|K]; [|lia]. exists 0%nat. rewrite Nat.add_0_r. auto.
    - destruct (H n) as [K|K]; [exists 0%nat; rewrite Nat.add_0_r; split; [lia|exact K]|]. destruct (IH (S n)) as (k & K1 & K2); [lia|]. exists (S k). split; [lia|]. rewrite <- Nat.add_succ_comm. exact K2. }
  destruct (G (M 0%nat) 0%nat (le_n _)) as (k & K1 & K2). exists k. auto.
Qed.
Definition stops : list Z := (1 :: 0 :: -1 :: nil)%Z.
Definition stops' : list Z := (-1 :: 0 :: 1 :: nil)%Z.
Lemma count_bound cs l : (below_count cs l <= List.length cs)%nat.
Proof. induction cs as [|c cs IH]; cbn; [lia|]. destruct (b_lt c l); cbn; lia. Qed.
Lemma acount_bound cs l : (above_count cs l <= List.length cs)%nat.
Proof. induction cs as [|c cs IH]; cbn; [lia|]. destruct (b_lt l c); cbn; lia. Qed.
Lemma subset_eq_bounds x z : subset_eq x z = true -> b_lt (lo x) (lo z) = false /\ b_lt (up z) (up x) = false.
Proof.
  unfold subset_eq, b_le, b_ge. intros H. assert (K : negb (b_gt (up x) (up z)) && negb (b_lt (lo x) (lo z)) = true) by (destruct (fl x), (fl z); auto; discriminate).
  apply Bool.andb_true_iff in K. destruct K as [K1 K2]. apply Bool.negb_true_iff in K1, K2. split; [exact K2|]. rewrite b_lt_gt. exact K1.
Qed.
Lemma widen_step (A : arith) z x : typed z -> lower_inf (lo z) /\ upper_inf (up z) -> no_nan z -> no_nan x -> fl z = REAL -> subset_eq x z = true ->
  let M y := (below_count (lows stops) (lo y) + above_count (ups stops') (up y))%nat in
  no_nan (i_widen A z x) /\ fl (i_widen A z x) = REAL /\ ((fl x = REAL -> i_eq (i_widen A z x) x = true) \/ (M (i_widen A z x) < M x)%nat) /\ (M (i_widen A z x) <= M x)%nat.
Proof.
  intros [WL WU] [IL IU] [NL NU] [XL XU] F S M. destruct (subset_eq_bounds _ _ S) as [S1 S2].
  destruct (widen_low_cand A stops (lo z)) as (C1 & (c & C2 & C3) & C4); [exact WL|exact IL|exact NL|].
  destruct (widen_up_cand A stops' (up z)) as (D1 & (d & D2 & D3) & D4); [exact WU|exact IU|exact NU|].
  assert (LL : exists l, lo (i_widen A z x) = l /\ bv l <> NaN /\ (b_eq l (lo x) = true \/ (below_count (lows stops) l < below_count (lows stops) (lo x))%nat) /\ (below_count (lows stops) l <= below_count (lows stops) (lo x))%nat).
  { eexists. split; [reflexivity|]. unfold i_widen. cbn [lo]. rewrite F. cbn [is_int]. change (num 1 :: num 0 :: num (-1) :: nil)%list with (map num stops). destruct (b_lt (lo z) (lo x)) eqn:B.
    - assert (W : b_lt (widen_lower A false (lo z) (map num stops)) (lo x) = true).
      { destruct (b_le_lt _ _ _ NL C1 B) as [K|K]; [exact K|congruence]. }
      pose proof (count_lt (lows stops) (lo x) _ c C2 C3 XL W). split; [exact C4|]. split; [right; lia|lia].
    - split; [exact NL|]. split; [left; apply ngt_nlt_eq; auto; rewrite <- b_lt_gt; exact S1|]. apply count_le; assumption. }
  assert (UU : exists u, up (i_widen A z x) = u /\ bv u <> NaN /\ (b_eq u (up x) = true \/ (above_count (ups stops') u < above_count (ups stops') (up x))%nat) /\ (above_count (ups stops') u <= above_count (ups stops') (up x))%nat).
  { eexists. split; [reflexivity|]. unfold i_widen. cbn [up]. rewrite F. cbn [is_int]. change (num (-1) :: num 0 :: num 1 :: nil)%list with (map num stops'). rewrite <- b_lt_gt. destruct (b_lt (up x) (up z)) eqn:B.
    - assert (W : b_lt (up x) (widen_upper A false (up z) (map num stops')) = true) by (apply (b_lt_le _ (up z)); assumption).
      pose proof (acount_lt (ups stops') (up x) _ d D2 D3 XU W). split; [exact D4|]. split; [right; lia|lia].
    - split; [exact NU|]. split; [left; apply ngt_nlt_eq; auto; rewrite <- b_lt_gt; exact B|]. apply acount_le; assumption. }
  destruct LL as (l & EL & L1 & L2 & L3), UU as (u & EU & U1 & U2 & U3). unfold M, no_nan. rewrite EL, EU.
  split; [split; assumption|]. split; [exact F|]. split; [|lia].
  destruct L2 as [L2|L2]; [|right; lia]. destruct U2 as [U2|U2]; [|right; lia]. left. intros FX. unfold i_eq. rewrite EL, EU, L2, U2, FX. cbn [i_widen fl]. rewrite F. reflexivity.
Qed.
Lemma widen_stops (A : arith) (z x : nat -> ivl) :
  (forall n, typed (z n)) -> (forall n, lower_inf (lo (z n)) /\ upper_inf (up (z n))) -> (forall n, no_nan (z n)) -> no_nan (x 0%nat) -> (forall n, fl (z n) = REAL) ->
  (forall n, subset_eq (x n) (z n) = true) -> (forall n, x (S n) = i_widen A (z n) (x n)) -> exists k, (k <= 15)%nat /\ i_eq (x (S k)) (x k) = true.
Proof.
  intros W WI N N0 F S E. set (M := fun y => (below_count (lows stops) (lo y) + above_count (ups stops') (up y))%nat).
  assert (NX : forall n, no_nan (x n)) by (induction n as [|n IH]; [exact N0|rewrite E; apply (widen_step A); auto]).
  set (M' := fun y => (M y + ind (is_int (fl y)))%nat).
  destruct (stop_or_less (fun n => i_eq (x (Datatypes.S n)) (x n)) (fun n => M' (x n))) as (k & K1 & K2).
  - intros n. rewrite E. destruct (widen_step A (z n) (x n) (W n) (WI n) (N n) (NX n) (F n) (S n)) as (_ & Q1 & Q2 & Q3). unfold M', M. rewrite Q1. cbn [is_int ind].
    destruct (fl (x n)); cbn [is_int ind]; [destruct Q2 as [Q2|Q2]; [left; apply Q2; reflexivity|right; lia]|right; lia].
  - exists k. split; [|exact K2]. unfold M', M in K1. pose proof (count_bound (lows stops) (lo (x 0%nat))) as B1. pose proof (acount_bound (ups stops') (up (x 0%nat))) as B2. change (List.length (lows stops)) with 7%nat in B1. change (List.length (ups stops')) with 7%nat in B2.
    destruct (fl (x 0%nat)); cbn [is_int ind] in K1; lia.
Qed.

(** * Narrowing *)
Lemma narrow_low x old : exists l, (l = lo x /\ b_gt (lo x) (lo old) = true \/ l = lo old) /\ exists u, (u = up x /\ b_lt (up x) (up old) = true \/ u = up old) /\ i_narrow x old = if b_gt l u then i_empty else mkI l u (fl x).
Proof.
  unfold i_narrow. eexists. split; [|eexists; split; [|reflexivity]].
  - destruct (b_gt (lo x) (lo old)); [|right; reflexivity]. destruct (_ || _); [left; split; reflexivity|right; reflexivity].
  - destruct (b_lt (up x) (up old)); [|right; reflexivity]. destruct (_ || _); [left; split; reflexivity|right; reflexivity].
Qed.
Lemma narrow_keeps rep x old r : formed rep x -> formed rep old -> member r x -> member r old -> member r (i_narrow x old).
Proof.
  intros [WL WU] [OL OU] [[H1 H2] I] [[H3 H4] _]. destruct (narrow_low x old) as (l & L & u & U & ->).
  assert (HL : above l r /\ lower_bound rep l) by (destruct L as [[-> _]| ->]; auto). assert (HU : below u r /\ upper_bound rep u) by (destruct U as [[-> _]| ->]; auto).
  rewrite (hull_ne rep l u r); try tauto. split; [split; cbn; tauto|exact I].
Qed.
Lemma narrow_within rep x old r : formed rep x -> formed rep old -> (fl old = INTEGER -> fl x = INTEGER) -> member r (i_narrow x old) -> member r old.
Proof.
  intros [WL WU] [OL OU] F H. destruct (narrow_low x old) as (l & L & u & U & E). rewrite E in H. destruct (b_gt l u); [destruct (empty_no_hull r (proj1 H))|].
  destruct H as [[H1 H2] I]. cbn in *. split; [split|intros K; apply I, F, K].
  - destruct L as [[-> L]| ->]; [apply (above_gt rep (lo x)); auto|exact H1].
  - destruct U as [[-> U]| ->]; [apply (below_lt rep (up x)); auto|exact H2].
Qed.
Lemma acount_strict cs u u' c : In c cs -> bv u <> NaN -> bv u' <> NaN -> b_lt u' u = false -> b_lt u c = true -> b_lt u' c = false -> (above_count cs u' < above_count cs u)%nat.
Proof.
  intros IN N N' H C C'. induction cs as [|d cs IH]; [destruct IN|]. cbn [above_count]. pose proof (acount_le cs u u' N N' H). destruct IN as [IN|IN]; [rewrite IN in *|].
  - rewrite C, C'. cbn. lia.
  - specialize (IH IN). destruct (b_lt u' d) eqn:D; cbn [ind]; [destruct (b_le_lt u u' d N' H D) as [-> |K]; [|congruence]|]; cbn; lia.
Qed.
Lemma count_strict cs l l' c : In c cs -> bv l <> NaN -> b_lt l l' = false -> b_lt c l' = false -> b_lt c l = true -> (below_count cs l' < below_count cs l)%nat.
Proof.
  intros IN N H C C'. induction cs as [|d cs IH]; [destruct IN|]. cbn [below_count]. pose proof (count_le cs l l' N H). destruct IN as [IN|IN]; [rewrite IN in *|].
  - rewrite C, C'. cbn. lia.
  - specialize (IH IN). destruct (b_lt d l') eqn:D; cbn [ind]; [rewrite (b_lt_le d l' l N D H)|]; cbn; lia.
Qed.
Definition marks : list bnd := mkB (num (-1)) ZERO :: mkB (num 0) ZERO :: mkB (num 1) ZERO :: nil.
Definition low_rank (l : bnd) : nat := above_count marks l + (3 - below_count marks l) + ind (is_min l).
Definition up_rank (u : bnd) : nat := below_count marks u + (3 - above_count marks u) + ind (is_max u).
Lemma lt_asym b c : b_lt b c = true -> b_lt c b = false.
Proof. intros H. destruct (b_lt c b) eqn:K; [|reflexivity]. pose proof (b_lt_trans _ _ _ H K) as X. rewrite b_lt_irrefl in X. discriminate. Qed.
Lemma below_marks l : (below_count marks l <= 3)%nat.
Proof. apply (count_bound marks). Qed.
Lemma above_marks l : (above_count marks l <= 3)%nat.
Proof. apply (acount_bound marks). Qed.
Lemma lower_crosses l old k : In (mkB (num k) ZERO) marks -> bv l <> NaN -> bv old <> NaN -> (bv l = Inf false \/ bf l <> NEG) -> b_lt old l = true -> bv_le old (num k) && lv_ge l (num k) = true ->
  (above_count marks l + (3 - below_count marks l) < above_count marks old + (3 - below_count marks old))%nat.
Proof.
  intros IN N N' F G C. apply Bool.andb_true_iff in C. destruct C as [C1 C2]. unfold bv_le in C1. apply Bool.negb_true_iff in C1. set (c := mkB (num k) ZERO) in *.
  assert (C1' : b_lt c old = false). { rewrite <- C1. rewrite b_lt_gt. unfold bv_gt, b_gt, c. cbn [bv bf flag_z]. reflexivity. }
  assert (C2' : b_lt l c = false). { unfold lv_ge in C2. apply Bool.negb_true_iff in C2. unfold b_lt, c. cbn [bv bf flag_z]. rewrite C2. cbn [orb]. destruct F as [F|F]; [rewrite F; reflexivity|]. destruct (bf l); try congruence; apply Bool.andb_false_r. }
  pose proof (lt_asym _ _ G) as G'. pose proof (acount_le marks old l N' N G') as A1. pose proof (count_le marks l old N G') as A2.
  pose proof (below_marks l). pose proof (below_marks old).
  destruct (b_lt old c) eqn:D.
  - pose proof (acount_strict marks old l c IN N' N G' D C2'). lia.
  - assert (K : b_lt c l = true). { destruct (b_le_lt c old l N' D G) as [K|K]; [exact K|discriminate]. }
    pose proof (count_strict marks l old c IN N G' C1' K). lia.
Qed.
Lemma upper_crosses u old k : In (mkB (num k) ZERO) marks -> bv u <> NaN -> bv old <> NaN -> (bv u = Inf true \/ bf u <> POS) -> b_lt u old = true -> bv_ge old (num k) && uv_le u (num k) = true ->
  (below_count marks u + (3 - above_count marks u) < below_count marks old + (3 - above_count marks old))%nat.
Proof.
  intros IN N N' F G C. apply Bool.andb_true_iff in C. destruct C as [C1 C2]. unfold bv_ge in C1. apply Bool.negb_true_iff in C1. set (c := mkB (num k) ZERO) in *.
  assert (C1' : b_lt old c = false). { rewrite <- C1. reflexivity. }
  assert (C2' : b_lt c u = false). { unfold uv_le in C2. apply Bool.negb_true_iff in C2. rewrite b_lt_gt. unfold b_gt, c. cbn [bv bf flag_z]. rewrite C2. cbn [orb]. destruct F as [F|F]; [rewrite F; reflexivity|]. destruct (bf u); try congruence; apply Bool.andb_false_r. }
  pose proof (lt_asym _ _ G) as G'. pose proof (count_le marks old u N' G') as A1. pose proof (acount_le marks u old N N' G') as A2.
  pose proof (above_marks u). pose proof (above_marks old).
  destruct (b_lt c old) eqn:D.
  - pose proof (count_strict marks old u c IN N' G' C2' D). lia.
  - assert (K : b_lt u c = true) by (apply (b_lt_le u old c); [discriminate|exact G|exact D]).
    pose proof (acount_strict marks u old c IN N N' G' K C1'). lia.
Qed.
Lemma min_rises l old : is_min old = true -> lower_inf old -> lower_inf l -> (bv l = Inf false \/ bf l <> NEG) -> b_lt old l = true -> is_min l = false.
Proof.
  unfold is_min, lower_inf, b_lt. intros M I I' F G. destruct (bv old) as [|[]|s q]; try discriminate. destruct (bv l) as [|[]|s q]; try reflexivity. exfalso. rewrite (I eq_refl), (I' eq_refl) in G. discriminate.
Qed.
Lemma max_falls u old : is_max old = true -> upper_inf old -> upper_inf u -> b_lt u old = true -> is_max u = false.
Proof.
  unfold is_max, upper_inf, b_lt. intros M I I' G. destruct (bv old) as [|[]|s q]; try discriminate. destruct (bv u) as [|[]|s q]; try reflexivity. exfalso. rewrite (I eq_refl), (I' eq_refl) in G. discriminate.
Qed.
Lemma lower_monotone l old : bv l <> NaN -> bv old <> NaN -> b_lt old l = true -> 
  (above_count marks l + (3 - below_count marks l) <= above_count marks old + (3 - below_count marks old))%nat /\ (ind (is_min l) <= ind (is_min old) \/ (is_min l = true /\ is_min old = false))%nat.
Proof.
  intros N N' G. pose proof (lt_asym _ _ G) as G'. pose proof (acount_le marks old l N' N G') as A1. pose proof (count_le marks l old N G') as A2. split; [lia|].
  destruct (is_min l), (is_min old); cbn; auto.
Qed.
(** What one of the two boundaries does in a step. *)
Lemma narrow_lower_step x old : typed x -> lower_inf (lo x) -> lower_inf (lo old) -> bv (lo x) <> NaN -> bv (lo old) <> NaN ->
  let l := (let cross_l (z : Z) := bv_le (lo old) (num z) && lv_ge (lo x) (num z) in
    if b_gt (lo x) (lo old) then if is_min (lo old) || cross_l (-1)%Z || cross_l 0%Z || cross_l 1%Z then lo x else lo old else lo old) in
  l = lo old \/ (l = lo x /\ (low_rank l < low_rank (lo old))%nat).
Proof.
  intros [T _] I I' N N'. cbv zeta. rewrite <- b_lt_gt. destruct (b_lt (lo old) (lo x)) eqn:G; [|left; reflexivity].
  match goal with |- context [if ?c then _ else _] => destruct c eqn:C end; [|left; reflexivity]. right. split; [reflexivity|].
  assert (MM : (ind (is_min (lo x)) <= ind (is_min (lo old)))%nat).
  { destruct (is_min (lo x)) eqn:M; [|cbn; lia]. unfold b_lt in G. unfold is_min in *. destruct (bv (lo x)) as [|[]|s q] eqn:E; try discriminate. destruct (bv (lo old)) as [|[]|s q]; try discriminate; try congruence. cbn. lia. }
  destruct (lower_monotone _ _ N N' G) as [L1 _]. unfold low_rank.
  rewrite !Bool.orb_true_iff in C. destruct C as [[[C|C]|C]|C].
  - rewrite (min_rises (lo x) (lo old) C I' I T G), C. cbn [ind]. lia.
  - pose proof (lower_crosses (lo x) (lo old) (-1) (or_introl eq_refl) N N' T G C). lia.
  - pose proof (lower_crosses (lo x) (lo old) 0 (or_intror (or_introl eq_refl)) N N' T G C). lia.
  - pose proof (lower_crosses (lo x) (lo old) 1 (or_intror (or_intror (or_introl eq_refl))) N N' T G C). lia.
Qed.
Lemma narrow_upper_step x old : typed x -> upper_inf (up x) -> upper_inf (up old) -> bv (up x) <> NaN -> bv (up old) <> NaN ->
  let u := (let cross_u (z : Z) := bv_ge (up old) (num z) && uv_le (up x) (num z) in
    if b_lt (up x) (up old) then if is_max (up old) || cross_u (-1)%Z || cross_u 0%Z || cross_u 1%Z then up x else up old else up old) in
  u = up old \/ (u = up x /\ (up_rank u < up_rank (up old))%nat).
Proof.
  intros [_ T] I I' N N'. cbv zeta. destruct (b_lt (up x) (up old)) eqn:G; [|left; reflexivity].
  match goal with |- context [if ?c then _ else _] => destruct c eqn:C end; [|left; reflexivity]. right. split; [reflexivity|].
  assert (MM : (ind (is_max (up x)) <= ind (is_max (up old)))%nat).
  { destruct (is_max (up x)) eqn:M; [|cbn; lia]. unfold b_lt in G. unfold is_max in *. destruct (bv (up x)) as [|[]|s q] eqn:E; try discriminate. destruct (bv (up old)) as [|[]|s q]; try discriminate; try congruence. cbn. lia. }
  pose proof (lt_asym _ _ G) as G'. pose proof (count_le marks (up old) (up x) N' G') as A1. pose proof (acount_le marks (up x) (up old) N N' G') as A2.
  unfold up_rank. rewrite !Bool.orb_true_iff in C. destruct C as [[[C|C]|C]|C].
  - rewrite (max_falls (up x) (up old) C I' I G), C. cbn [ind]. lia.
  - pose proof (upper_crosses (up x) (up old) (-1) (or_introl eq_refl) N N' T G C). lia.
  - pose proof (upper_crosses (up x) (up old) 0 (or_intror (or_introl eq_refl)) N N' T G C). lia.
  - pose proof (upper_crosses (up x) (up old) 1 (or_intror (or_intror (or_introl eq_refl))) N N' T G C). lia.
Qed.
Lemma narrow_stops (t : ty) (z x : nat -> ivl) :
  (forall n, typed (z n)) -> (forall n, infinities_open (z n)) -> infinities_open (x 0%nat) -> (forall n, no_nan (z n)) -> no_nan (x 0%nat) ->
  (forall n, fl (z n) = t) -> (forall n, x (S n) = i_narrow (z n) (x n)) ->
  exists k, (k <= 15)%nat /\ (i_eq (x (S k)) (x k) = true \/ is_empty (x (S k)) = true).
Proof.
  intros T I I0 N N0 F E.
  assert (KEEP : forall n, no_nan (x n) /\ infinities_open (x n)).
  { induction n as [|n [IH1 IH2]]; [auto|]. rewrite E. destruct (narrow_low (z n) (x n)) as (l & L & u & U & ->). destruct (N n) as [N1 N2]. destruct (I n) as [I1 I2]. destruct IH1 as [X1 X2], IH2 as [J1 J2].
    destruct (b_gt l u); [repeat split; discriminate|]. destruct L as [[-> _]| ->], U as [[-> _]| ->]; repeat split; assumption. }
  set (M := fun y => (low_rank (lo y) + up_rank (up y) + ind (negb (Bool.eqb (is_int (fl y)) (is_int t))))%nat).
  destruct (stop_or_less (fun n => i_eq (x (Datatypes.S n)) (x n) || is_empty (x (Datatypes.S n))) (fun n => M (x n))) as (k & K1 & K2).
  - intros n. destruct (KEEP n) as [[X1 X2] [J1 J2]]. destruct (N n) as [N1 N2]. destruct (I n) as [I1 I2].
    pose proof (narrow_lower_step (z n) (x n) (T n) I1 J1 N1 X1) as LS. pose proof (narrow_upper_step (z n) (x n) (T n) I2 J2 N2 X2) as US. cbv zeta in LS, US. rewrite E. unfold i_narrow.
    match type of LS with ?l = _ \/ _ => set (l' := l) in * end. match type of US with ?u = _ \/ _ => set (u' := u) in * end. clearbody l' u'.
    destruct (b_gt l' u') eqn:G.
    { left. apply Bool.orb_true_iff. right. reflexivity. }
    unfold M. cbn [lo up fl]. rewrite (F n). rewrite Bool.eqb_reflx. cbn [negb ind].
    destruct LS as [-> |[_ LS]]; [|right; destruct US as [-> |[_ US]]; lia].
    destruct US as [-> |[_ US]]; [|right; lia].
    destruct (Bool.eqb (is_int (fl (x n))) (is_int t)) eqn:Q; [left|right; cbn [negb ind]; lia]. apply Bool.orb_true_iff. left. unfold i_eq. cbn [lo up fl]. rewrite (b_eq_refl _ X1), (b_eq_refl _ X2). cbn [andb]. rewrite ?F. destruct (is_int (fl (x n))), (is_int t); try discriminate; reflexivity.
  - exists k. split; [|apply Bool.orb_true_iff; exact K2]. cbv beta delta [M low_rank up_rank] in K1.
    pose proof (above_marks (lo (x 0%nat))). pose proof (below_marks (lo (x 0%nat))). pose proof (above_marks (up (x 0%nat))). pose proof (below_marks (up (x 0%nat))).
    destruct (is_min (lo (x 0%nat))), (is_max (up (x 0%nat))), (negb (Bool.eqb (is_int (fl (x 0%nat))) (is_int t))); cbn [ind] in K1; lia.
Qed.
