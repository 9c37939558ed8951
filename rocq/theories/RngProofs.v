From Coq Require Import ZArith QArith Qcanon Qround List Bool Arith Lia Lqa.
From Verif Require Import Ast ExprModel ExprCases RecModel RecSpec RecProofs3 RngModel RngSpec.
Import ListNotations.
Local Open Scope list_scope.
Local Open Scope nat_scope.
Set Bullet Behavior "Strict Subproofs".

Lemma qlt_spec a b : q_lt a b = true <-> (a < b)%Qc.
Proof. unfold q_lt. destruct (Qclt_le_dec a b) as [H|H]; split; auto; try discriminate. intros H'. exfalso. exact (Qclt_not_le _ _ H' H). Qed.
Lemma qlt_false a b : q_lt a b = false <-> (b <= a)%Qc.
Proof. unfold q_lt. destruct (Qclt_le_dec a b) as [H|H]; split; auto; try discriminate. intros H'. exfalso. exact (Qclt_not_le _ _ H H'). Qed.
Lemma number_at_0 b : number_at b 0 = b.
Proof. unfold number_at. change (zq (Z.of_nat 0)) with 0%Qc. ring. Qed.
Lemma zq_S k : zq (Z.of_nat (S k)) = (1 + zq (Z.of_nat k))%Qc.
Proof. apply Qc_is_canon. unfold zq, Qcplus, Q2Qc. cbn [this]. rewrite !Qred_correct. rewrite Nat2Z.inj_succ. unfold Z.succ. rewrite inject_Z_plus. change (inject_Z 1) with 1%Q. change (1 + inject_Z (Z.of_nat k) == 1 + inject_Z (Z.of_nat k))%Q || idtac. ring. Qed.
Lemma number_at_S b j : number_at (b + 1) j = number_at b (S j).
Proof. unfold number_at. rewrite zq_S. ring. Qed.
Lemma steps_S a b : (a < b)%Qc -> steps a b = S (steps (a + 1) b).
Proof.
  intros H. unfold steps. assert (E : (this (b - a)%Qc == this (b - (a + 1))%Qc + 1)%Q).
  { unfold Qcminus, Qcplus, Qcopp, Q2Qc. cbn [this]. rewrite !Qred_correct. ring. }
  assert (P : (0 < this (b - a)%Qc)%Q). { unfold Qcminus, Qcplus, Qcopp, Q2Qc. cbn [this]. rewrite !Qred_correct. unfold Qclt in H. lra. }
  rewrite (Qceiling_comp _ _ E). set (q := this (b - (a + 1))%Qc) in *.
  assert (C : Qceiling (q + 1) = (Qceiling q + 1)%Z).
  { unfold Qceiling. assert (E2 : (- (q + 1) == - q + inject_Z (-1))%Q) by (change (inject_Z (-1)) with (-(1))%Q; ring). rewrite (Qfloor_comp _ _ E2).
    pose proof (Qfloor_le (- q)) as A1. pose proof (Qlt_floor (- q)) as A2. set (f := Qfloor (- q)) in *.
    pose proof (Qfloor_le (- q + inject_Z (-1))) as B1. pose proof (Qlt_floor (- q + inject_Z (-1))) as B2. set (g := Qfloor (- q + inject_Z (-1))) in *.
    assert (X1 : (inject_Z (g + 1) < inject_Z (f + 1))%Q) by (rewrite !inject_Z_plus in *; change (inject_Z 1) with 1%Q in *; change (inject_Z (-1)) with (-(1))%Q in *; lra).
    assert (X2 : (inject_Z f < inject_Z (g + 1 + 1))%Q) by (rewrite !inject_Z_plus in *; change (inject_Z 1) with 1%Q in *; change (inject_Z (-1)) with (-(1))%Q in *; lra).
    rewrite <- Zlt_Qlt in X1, X2. lia. }
  rewrite C. assert (0 < Qceiling (q + 1))%Z. { rewrite Zlt_Qlt. change (inject_Z 0) with 0%Q. apply Qlt_le_trans with (q + 1)%Q; [|apply Qle_ceiling]. lra. }
  lia.
Qed.
Lemma steps_0 a b : (b <= a)%Qc -> steps a b = 0.
Proof.
  intros H. unfold steps. assert (P : (this (b - a)%Qc <= 0)%Q). { unfold Qcminus, Qcplus, Qcopp, Q2Qc. cbn [this]. rewrite !Qred_correct. unfold Qcle in H. lra. }
  apply Qceiling_resp_le in P. change (Qceiling 0) with 0%Z in P. lia.
Qed.
Lemma covers_steps : forall n a b, steps a b = n -> covers a b n.
Proof.
  induction n as [|n IH]; intros a b H.
  - intros j. destruct (Qclt_le_dec a b) as [L|L]; [rewrite (steps_S _ _ L) in H; discriminate|]. split; [|lia]. intros X. exfalso. revert X. apply Qcle_not_lt.
    unfold number_at, zq, Qcplus, Q2Qc, Qcle in *. cbn [this]. rewrite !Qred_correct. assert (0 <= inject_Z (Z.of_nat j))%Q by (change 0%Q with (inject_Z 0); rewrite <- Zle_Qle; lia). lra.
  - destruct (Qclt_le_dec a b) as [L|L]; [|rewrite (steps_0 _ _ L) in H; discriminate]. rewrite (steps_S _ _ L) in H. injection H as H. specialize (IH _ _ H).
    intros [|j]; [rewrite number_at_0; split; [lia|auto]|]. rewrite <- number_at_S. rewrite (IH j). lia.
Qed.
Lemma covers_unique a b n m : covers a b n -> covers a b m -> n = m.
Proof. intros H1 H2. destruct (lt_eq_lt_dec n m) as [[L|L]|L]; auto; exfalso. - apply H2, H1 in L. lia. - apply H1, H2 in L. lia. Qed.

Section G.
Context (G : engine).
Implicit Types s : state G.

Lemma one_nil kind b s : one_by_one G kind b s [] s.
Proof. exists (fun _ => s). split; [|split]; auto. intros [|j] v X; discriminate. Qed.
Lemma one_cons kind b s s1 s' v out : evaluate G kind b s = (s1, Ok v) -> one_by_one G kind (b + 1) s1 out s' -> one_by_one G kind b s (v :: out) s'.
Proof.
  intros H (st & S0 & S1 & S2). exists (fun j => match j with 0 => s | S j => st j end). split; [auto|]. split; [auto|].
  intros [|j] w X; cbn in X. - injection X as <-. rewrite number_at_0. congruence. - rewrite <- number_at_S. now apply S2.
Qed.
Lemma loop_spec kind : forall fuel b e s acc, steps b e <= fuel -> exists s' out r, range_loop G fuel kind b e s acc = Some (s', rev acc ++ out, r) /\
  match r with
  | Ok tt => covers b e (length out) /\ one_by_one G kind b s out s'
  | Exc => exists s1, (number_at b (length out) < e)%Qc /\ one_by_one G kind b s out s1 /\ evaluate G kind (number_at b (length out)) s1 = (s', Exc)
  | UB => exists s1, (number_at b (length out) < e)%Qc /\ one_by_one G kind b s out s1 /\ evaluate G kind (number_at b (length out)) s1 = (s', UB)
  end.
Proof.
  induction fuel as [|fuel IH]; intros b e s acc F; cbn [range_loop].
  - destruct (q_lt b e) eqn:L.
    + apply qlt_spec in L. rewrite (steps_S _ _ L) in F. lia.
    + exists s, [], (Ok tt). cbn. rewrite app_nil_r. split; auto. split; [|apply one_nil]. apply covers_steps. lia.
  - destruct (q_lt b e) eqn:L; cbn [negb].
    + apply qlt_spec in L. rewrite (steps_S _ _ L) in F. destruct (evaluate G kind b s) as [s1 [v| |]] eqn:EV.
      * destruct (IH (b + 1)%Qc e s1 (v :: acc) ltac:(lia)) as (s' & out & r & H1 & H2). exists s', (v :: out), r. split. { rewrite H1. cbn. now rewrite <- app_assoc. }
        destruct r as [[]| |].
        -- destruct H2 as [H2 H3]. split; [|now apply one_cons with s1]. intros [|j]; [rewrite number_at_0; cbn; split; [lia|auto]|]. rewrite <- number_at_S. cbn. rewrite (H2 j). lia.
        -- destruct H2 as (s2 & H2 & H3 & H4). exists s2. cbn [length]. rewrite <- number_at_S. split; [auto|]. split; [now apply one_cons with s1|auto].
        -- destruct H2 as (s2 & H2 & H3 & H4). exists s2. cbn [length]. rewrite <- number_at_S. split; [auto|]. split; [now apply one_cons with s1|auto].
      * exists s1, [], Exc. cbn. rewrite app_nil_r. split; auto. exists s. rewrite number_at_0. split; auto. split; [apply one_nil|auto].
      * exists s1, [], UB. cbn. rewrite app_nil_r. split; auto. exists s. rewrite number_at_0. split; auto. split; [apply one_nil|auto].
    + apply qlt_false in L. exists s, [], (Ok tt). cbn. rewrite app_nil_r. split; auto. split; [|apply one_nil]. apply covers_steps. now apply steps_0.
Qed.
Lemma range_spec kind b e s : (b <= e)%Qc -> exists s' out r, evaluate_range G kind b e s = Some (s', out, r) /\
  match r with
  | Ok tt => covers b e (length out) /\ one_by_one G kind b s out s'
  | Exc => exists s1, (number_at b (length out) < e)%Qc /\ one_by_one G kind b s out s1 /\ evaluate G kind (number_at b (length out)) s1 = (s', Exc)
  | UB => exists s1, (number_at b (length out) < e)%Qc /\ one_by_one G kind b s out s1 /\ evaluate G kind (number_at b (length out)) s1 = (s', UB)
  end.
Proof. intros H. unfold evaluate_range. apply qlt_false in H. rewrite H. exact (loop_spec kind _ b e s [] (le_n _)). Qed.
Lemma range_backwards kind b e s : (e < b)%Qc -> evaluate_range G kind b e s = Some (s, [], Exc).
Proof. intros H. unfold evaluate_range. apply qlt_spec in H. now rewrite H. Qed.

(** Reading again gives the same. *)
Hypothesis Hre : forall e, e_rename G (e_rename G e) = e_rename G e.
Lemma finish_ok e s s' v : finish G e s = (s', Ok v) -> v = e /\ exists k, s' = set_fvis G k s /\ cls G s <> NOT_CLASSIFIED /\ first_for_solution G (inf G s) (ics G s) = Ok k.
Proof. unfold finish. intros H. destruct (cls G s) eqn:C; try discriminate H; (destruct (first_for_solution G (inf G s) (ics G s)) as [k| |] eqn:K; [|discriminate H|discriminate H]); injection H as <- <-; (split; [auto|]); exists k; repeat split; congruence. Qed.
Lemma finish_again e s s' : finish G e s = (s', Ok e) -> forall s2, cls G s2 = cls G s -> inf G s2 = inf G s -> ics G s2 = ics G s -> finish G e s2 = (set_fvis G (fvis G s') s2, Ok e).
Proof. intros H s2 C I M. apply finish_ok in H as (_ & k & -> & C' & K). unfold finish. rewrite C, I, M, K. destruct (cls G s) eqn:CC; auto. congruence. Qed.
Lemma set_same s k : set_fvis G (fvis G (set_fvis G k s)) (set_fvis G k s) = set_fvis G k s.
Proof. destruct s. reflexivity. Qed.
Lemma read_again kind s s' e : read_kind G kind s = (s', Ok e) -> read_kind G kind s' = (s', Ok e).
Proof.
  unfold read_kind. destruct kind as [|[|kind]].
  - unfold exact_solution. destruct (exact G s) as [e0|] eqn:X; [|discriminate]. destruct (has_ics G s) eqn:HI.
    + destruct (ev_exact G s) as [e1|] eqn:V; intros H; pose proof H as H0; apply finish_ok in H as (-> & k & Es & C & K); subst s'.
      * cbn [exact set_fvis]. rewrite X. change (has_ics G (set_fvis G k s)) with (has_ics G s). rewrite HI. cbn [ev_exact set_fvis]. rewrite V. rewrite (finish_again _ _ _ H0) by reflexivity. now rewrite set_same.
      * set (w := e_rename G (on_ic G e0 s)) in *. cbn [exact set_fvis ev_three set_ev]. rewrite X. change (has_ics G _) with (has_ics G s). rewrite HI. cbn [ev_exact set_fvis ev_three set_ev].
        rewrite (finish_again _ _ _ H0) by reflexivity. now rewrite set_same.
    + intros H; pose proof H as H0; apply finish_ok in H as (-> & k & Es & C & K); subst s'. cbn [exact set_fvis set_exact]. change (has_ics G _) with (has_ics G s). rewrite HI. rewrite Hre.
      assert (Q : forall t, set_exact G (Some (e_rename G e0)) (set_fvis G k (set_exact G (Some (e_rename G e0)) t)) = set_fvis G k (set_exact G (Some (e_rename G e0)) t)) by (intros []; reflexivity).
      rewrite Q. rewrite (finish_again _ _ _ H0) by reflexivity. now rewrite set_same.
  - apply (fun P : forall b, read_bound G b s = (s', Ok e) -> read_bound G b s' = (s', Ok e) => P LOWER). intros b. unfold read_bound.
    destruct (bound_of G b s) as [e0|] eqn:X; [|discriminate]. destruct (has_ics G s) eqn:HI.
    + destruct (ev_bound_of G b s) as [e1|] eqn:V; intros H; pose proof H as H0; apply finish_ok in H as (-> & k & Es & C & K); subst s'.
      * change (bound_of G b (set_fvis G k s)) with (bound_of G b s). rewrite X. change (has_ics G (set_fvis G k s)) with (has_ics G s). rewrite HI. change (ev_bound_of G b (set_fvis G k s)) with (ev_bound_of G b s). rewrite V. rewrite (finish_again _ _ _ H0) by reflexivity. now rewrite set_same.
      * set (w := e_rename G (on_ic G e0 s)) in *.
        assert (Q1 : bound_of G b (set_fvis G k (set_ev_bound G b w s)) = Some e0) by (destruct b; exact X). rewrite Q1.
        assert (Q2 : has_ics G (set_fvis G k (set_ev_bound G b w s)) = true) by (destruct b; exact HI). rewrite Q2.
        assert (Q3 : ev_bound_of G b (set_fvis G k (set_ev_bound G b w s)) = Some w) by (destruct b; reflexivity). rewrite Q3.
        rewrite (finish_again _ _ _ H0) by (destruct b; reflexivity). now rewrite set_same.
    + intros H; pose proof H as H0; apply finish_ok in H as (-> & k & Es & C & K); subst s'.
      assert (Q1 : bound_of G b (set_fvis G k (set_bound G b (e_rename G e0) s)) = Some (e_rename G e0)) by (destruct b; reflexivity). rewrite Q1.
      assert (Q2 : has_ics G (set_fvis G k (set_bound G b (e_rename G e0) s)) = false) by (destruct b; exact HI). rewrite Q2. rewrite Hre.
      assert (Q : set_bound G b (e_rename G e0) (set_fvis G k (set_bound G b (e_rename G e0) s)) = set_fvis G k (set_bound G b (e_rename G e0) s)) by (destruct s, b; reflexivity).
      rewrite Q. rewrite (finish_again _ _ _ H0) by (destruct b; reflexivity). now rewrite set_same.
  - unfold read_bound. cbn [bound_of ev_bound_of set_bound set_ev_bound].
    destruct (upper G s) as [e0|] eqn:X; [|discriminate]. destruct (has_ics G s) eqn:HI.
    + destruct (ev_upper G s) as [e1|] eqn:V; intros H; pose proof H as H0; apply finish_ok in H as (-> & k & Es & C & K); subst s'.
      * cbn [upper set_fvis]. rewrite X. change (has_ics G (set_fvis G k s)) with (has_ics G s). rewrite HI. cbn [ev_upper set_fvis]. rewrite V. rewrite (finish_again _ _ _ H0) by reflexivity. now rewrite set_same.
      * set (w := e_rename G (on_ic G e0 s)) in *. cbn [upper set_fvis set_ev]. rewrite X. change (has_ics G _) with (has_ics G s). rewrite HI. cbn [ev_upper set_fvis set_ev].
        rewrite (finish_again _ _ _ H0) by reflexivity. now rewrite set_same.
    + intros H; pose proof H as H0; apply finish_ok in H as (-> & k & Es & C & K); subst s'. cbn [upper set_fvis set_upper]. change (has_ics G _) with (has_ics G s). rewrite HI. rewrite Hre.
      assert (Q : forall t, set_upper G (Some (e_rename G e0)) (set_fvis G k (set_upper G (Some (e_rename G e0)) t)) = set_fvis G k (set_upper G (Some (e_rename G e0)) t)) by (intros []; reflexivity).
      rewrite Q. rewrite (finish_again _ _ _ H0) by reflexivity. now rewrite set_same.
Qed.
Lemma evaluate_same kind x s s' e : read_kind G kind s = (s', Ok e) -> evaluate G kind x s = evaluate G kind x s'.
Proof. intros H. unfold evaluate. rewrite H, (read_again _ _ _ _ H). reflexivity. Qed.
Lemma evaluate_state kind x s s' e : read_kind G kind s = (s', Ok e) -> fst (evaluate G kind x s) = s'.
Proof. intros H. unfold evaluate. rewrite H. destruct (check_number G x s') as [[|]| |]; auto. destruct (i_type (inf G s')); auto; destruct (q_le x _); auto; destruct (q_is_int x); auto. Qed.
Lemma one_reads kind b s s' e out s1 : read_kind G kind s = (s', Ok e) -> one_by_one G kind b s out s1 ->
  (out = [] -> s1 = s) /\ (out <> [] -> s1 = s') /\ forall j v, nth_error out j = Some v -> evaluate G kind (number_at b j) s = (s', Ok v).
Proof.
  intros H (st & S0 & S1 & S2).
  assert (A : forall j, j <= length out -> st j = s \/ st j = s').
  { induction j as [|j IH]; intros L; auto. destruct (nth_error out j) as [v|] eqn:N; [|apply nth_error_None in N; lia]. pose proof (S2 j v N) as Q. right.
    destruct (IH ltac:(lia)) as [-> | ->] in Q.
    - pose proof (evaluate_state kind (number_at b j) _ _ _ H) as Y. rewrite Q in Y. exact Y.
    - pose proof (evaluate_state kind (number_at b j) _ _ _ (read_again _ _ _ _ H)) as Y. rewrite Q in Y. exact Y. }
  assert (B : forall j, j < length out -> st (S j) = s').
  { intros j L. destruct (nth_error out j) as [v|] eqn:N; [|apply nth_error_None in N; lia]. pose proof (S2 j v N) as Q.
    destruct (A j ltac:(lia)) as [X|X]; rewrite X in Q.
    - pose proof (evaluate_state kind (number_at b j) _ _ _ H) as Y. rewrite Q in Y. exact Y.
    - pose proof (evaluate_state kind (number_at b j) _ _ _ (read_again _ _ _ _ H)) as Y. rewrite Q in Y. exact Y. }
  split; [|split].
  - intros ->. cbn in S1. congruence.
  - intros N. destruct out as [|v out]; [congruence|]. rewrite <- S1. apply (B (length out)). cbn [length]. apply Nat.lt_succ_diag_r.
  - intros j v N. pose proof (S2 j v N) as Q. assert (L : j < length out) by (apply nth_error_Some; congruence). rewrite (B j L) in Q.
    destruct (A j ltac:(lia)) as [X|X]; rewrite X in Q; auto. now rewrite (evaluate_same _ _ _ _ _ H).
Qed.
Lemma number_nat a j : number_at (zq (Z.of_nat a)) j = zq (Z.of_nat (a + j)).
Proof. unfold number_at. apply Qc_is_canon. unfold zq, Qcplus, Q2Qc. cbn [this]. rewrite !Qred_correct. rewrite Nat2Z.inj_add, inject_Z_plus. reflexivity. Qed.
Lemma zq_lt a b : (zq (Z.of_nat a) < zq (Z.of_nat b))%Qc <-> a < b.
Proof. unfold Qclt, zq, Q2Qc. cbn [this]. rewrite !Qred_correct. rewrite <- Zlt_Qlt. lia. Qed.
Lemma covers_nat a b : a <= b -> covers (zq (Z.of_nat a)) (zq (Z.of_nat b)) (b - a).
Proof. intros H j. rewrite number_nat, zq_lt. lia. Qed.
Theorem range_values kind a b s s' e : read_kind G kind s = (s', Ok e) -> is_map (ics G s') -> evaluated (inf G s') -> a < b ->
  (forall k, a <= k < b -> given (ics G s') k \/ first_index (inf G s') <= k /\ 0 < k /\ (forall i, given (ics G s') i -> i < k)) ->
  exists out, evaluate_range G kind (zq (Z.of_nat a)) (zq (Z.of_nat b)) s = Some (s', out, Ok tt) /\ length out = b - a /\
  forall j v, nth_error out j = Some v -> value_at (ics G s') e (a + j) v.
Proof.
  intros HR HM HE HL HK. assert (LE : (zq (Z.of_nat a) <= zq (Z.of_nat b))%Qc) by (apply Qclt_le_weak, zq_lt; lia).
  destruct (range_spec kind _ _ s LE) as (s1 & out & r & H1 & H2).
  assert (V : forall k, a <= k < b -> exists v, evaluate G kind (zq (Z.of_nat k)) s = (s', Ok v) /\ value_at (ics G s') e k v).
  { intros k Hk. destruct (evaluate_nat G kind k s s' e HR HM HE) as (A & _ & _). destruct (HK k Hk) as [X|(X & P & Y)]; apply A; auto. left.
    destruct (ics G s') as [|p t] eqn:M; [cbn; lia|]. apply Y. rewrite <- M. apply max_index_given. rewrite M. discriminate. }
  assert (NO : forall s2, (number_at (zq (Z.of_nat a)) (length out) < zq (Z.of_nat b))%Qc -> one_by_one G kind (zq (Z.of_nat a)) s out s2 -> exists v, evaluate G kind (number_at (zq (Z.of_nat a)) (length out)) s2 = (s', Ok v)).
  { intros s2 L O. rewrite number_nat in *. apply zq_lt in L. destruct (V (a + length out) ltac:(lia)) as (v & Q & _). exists v.
    destruct (one_reads _ _ _ _ _ _ _ HR O) as (P1 & P2 & _). destruct out as [|w out]; [rewrite P1 by auto; auto|]. rewrite P2 by discriminate. now rewrite <- (evaluate_same _ _ _ _ _ HR). }
  destruct r as [[]| |].
  - destruct H2 as [H2 H3]. assert (L : length out = b - a) by (apply (covers_unique _ _ _ _ H2), covers_nat; lia).
    destruct (one_reads _ _ _ _ _ _ _ HR H3) as (_ & P2 & P3). assert (s1 = s') as -> by (apply P2; intros ->; cbn in L; lia).
    exists out. split; [auto|]. split; [auto|]. intros j v N. assert (j < length out) by (apply nth_error_Some; congruence).
    destruct (V (a + j) ltac:(lia)) as (w & Q1 & Q2). specialize (P3 j v N). rewrite number_nat in P3. assert (w = v) as <- by congruence. exact Q2.
  - exfalso. destruct H2 as (s2 & L & O & X). destruct (NO s2 L O). congruence.
  - exfalso. destruct H2 as (s2 & L & O & X). destruct (NO s2 L O). congruence.
Qed.
End G.
Section Bad.
Context (G : engine).
Theorem range_rejected kind a b s s' (e : E G) : read_kind G kind s = (s', Ok e) -> is_map (ics G s') -> evaluated (inf G s') -> a < b ->
  a < first_index (inf G s') -> ~ given (ics G s') a -> evaluate_range G kind (zq (Z.of_nat a)) (zq (Z.of_nat b)) s = Some (s', [], Exc).
Proof.
  intros HR HM HE HL H1 H2. unfold evaluate_range. assert (Q : q_lt (zq (Z.of_nat b)) (zq (Z.of_nat a)) = false) by (apply qlt_false, Qclt_le_weak, zq_lt; lia). rewrite Q.
  assert (L : (zq (Z.of_nat a) < zq (Z.of_nat b))%Qc) by (apply zq_lt; lia). rewrite (steps_S _ _ L). cbn [range_loop]. apply qlt_spec in L. rewrite L. cbn [negb].
  destruct (evaluate_nat G kind a s s' e HR HM HE) as (_ & B & _). unfold q_of_nat in B. rewrite B; auto.
Qed.
Theorem range_no_solution kind a b s : (a < b)%Qc -> match kind with 0 => exact G s | 1 => lower G s | _ => upper G s end = None -> evaluate_range G kind a b s = Some (s, [], Exc).
Proof.
  intros L N. unfold evaluate_range. assert (Q : q_lt b a = false) by (apply qlt_false; now apply Qclt_le_weak). rewrite Q.
  rewrite (steps_S _ _ L). cbn [range_loop]. apply qlt_spec in L. rewrite L. cbn [negb]. unfold evaluate, read_kind, exact_solution, read_bound, bound_of.
  destruct kind as [|[|kind]]; rewrite N; reflexivity.
Qed.
Theorem range_empty kind a s : evaluate_range G kind a a s = Some (s, [], Ok tt).
Proof.
  assert (Q : q_lt a a = false) by (apply qlt_false; apply Qcle_refl). unfold evaluate_range. rewrite Q. destruct (steps a a); cbn; rewrite Q; reflexivity.
Qed.
End Bad.
