(** Every solution of a homogeneous recurrence whose characteristic polynomial splits is an
    exponential polynomial. *)
From Coq Require Import ZArith List Lia Field Arith.
From Verif Require Import Fld FPoly SeqSpec SeqLemmas ShiftOp.
Import ListNotations.

Section S.
Context {K : Fld}.
Add Field KFgs : (fth K).
Local Open Scope fld_scope.

Definition epsum (ds : list K) (qs : nat -> list K) (n : Z) : K :=
  bsum (length ds) (fun i => ep (nth i ds 0) (qs i) n).

Lemma act_epsum P ds (qs : nat -> list K) n :
  act P (epsum ds qs) n = bsum (length ds) (fun i => act P (ep (nth i ds 0) (qs i)) n).
Proof. unfold epsum. apply act_bsum. Qed.

Lemma geom_solution r (z : Z -> K) f : r <> 0 ->
  (forall n, (f <= n)%Z -> act [- r; 1] z n = 0) ->
  forall n, (f <= n)%Z -> z n = z f * zpow r (- f) * zpow r n.
Proof.
  intros Hr H n Hn. 
  assert (A : forall m : nat, z (f + Z.of_nat m)%Z = z f * zpow r (Z.of_nat m)).
  { intros m. induction m as [|m IH].
    - replace (f + Z.of_nat 0)%Z with f by lia. change (zpow r (Z.of_nat 0)) with (1 : K). ring.
    - replace (f + Z.of_nat (S m))%Z with (f + Z.of_nat m + 1)%Z by lia.
      specialize (H (f + Z.of_nat m)%Z ltac:(lia)). cbn [act] in H.
      replace (Z.of_nat (S m)) with (Z.of_nat m + 1)%Z by lia. rewrite zpow_succ by auto.
      transitivity (- r * z (f + Z.of_nat m)%Z + (1 * z (f + Z.of_nat m + 1)%Z + 0) + r * z (f + Z.of_nat m)%Z); [ring|].
      rewrite H, IH. ring. }
  specialize (A (Z.to_nat (n - f))). replace (f + Z.of_nat (Z.to_nat (n - f)))%Z with n in A by lia.
  rewrite A. replace (Z.of_nat (Z.to_nat (n - f))) with (- f + n)%Z by lia.
  rewrite zpow_add by auto. ring.
Qed.

Lemma hom_solution ds : NoDup ds -> (forall d, In d ds -> d <> 0) ->
  forall rs, (forall r, In r rs -> In r ds) ->
  forall (x : Z -> K) f, (forall n, (f <= n)%Z -> act (rootpoly rs) x n = 0) ->
  exists qs, (forall i, (i < length ds)%nat -> length (qs i) = cnt (nth i ds 0) rs) /\
    forall n, (f <= n)%Z -> x n = epsum ds qs n.
Proof.
  intros ND NZ rs. induction rs as [|r rs IH]; intros Hrs x f Hx.
  - exists (fun _ => []). split; [intros; reflexivity|]. intros n Hn. specialize (Hx n Hn).
    cbn [rootpoly act] in Hx. unfold epsum. rewrite bsum_0 by (intros; apply ep_nil).
    rewrite <- Hx. ring.
  - destruct (IH ltac:(intros; apply Hrs; right; auto) (act [- r; 1] x) f) as (qs & Lq & Hq).
    { intros n Hn. rewrite act_comm. rewrite <- act_pmul. apply Hx; auto. }
    assert (HR : In r ds) by (apply Hrs; left; auto).
    destruct (In_nth _ _ 0 HR) as (j & Hj & Ej).
    assert (C : exists q2, forall i, (i < length ds)%nat ->
       length (q2 i) = cnt (nth i ds 0) (r :: rs) /\
       forall n, act [- r; 1] (ep (nth i ds 0) (q2 i)) n = ep (nth i ds 0) (qs i) n).
    { assert (G : forall m, (m <= length ds)%nat -> exists q2, forall i, (i < m)%nat ->
        length (q2 i) = cnt (nth i ds 0) (r :: rs) /\
        forall n, act [- r; 1] (ep (nth i ds 0) (q2 i)) n = ep (nth i ds 0) (qs i) n).
      { induction m as [|m IHm]; intros Hm; [exists (fun _ => []); intros; lia|].
        destruct (IHm ltac:(lia)) as (q2 & H2).
        destruct (rootpoly_onto (nth m ds 0) [r] (qs m)) as (q & L & H).
        { apply NZ, nth_In; lia. }
        exists (fun i => if Nat.eqb i m then q else q2 i). intros i Hi.
        destruct (Nat.eqb_spec i m) as [->|Ne].
        - split.
          + rewrite L, Lq by lia. unfold cnt. cbn [filter].
            destruct (feqb (nth m ds 0) r); cbn [length]; lia.
          + intros n. rewrite <- H. apply act_peval_eq. intros y. cbn [rootpoly].
            rewrite peval_pmul. cbn [peval]. ring.
        - apply H2. lia. }
      apply (G (length ds)); auto. }
    destruct C as (q2 & H2).
    pose (z := fun n => x n - epsum ds q2 n).
    assert (Hz : forall n, (f <= n)%Z -> act [- r; 1] z n = 0).
    { intros n Hn. unfold z. rewrite act_sub, Hq by auto. rewrite act_epsum. unfold epsum.
      rewrite (bsum_ext (length ds) (fun i => act [- r; 1] (ep (nth i ds 0) (q2 i)) n) (fun i => ep (nth i ds 0) (qs i) n)).
      - ring.
      - intros i Hi. apply (H2 i Hi). }
    assert (Rnz : r <> 0) by auto.
    pose proof (geom_solution r z f Rnz Hz) as Gz.
    exists (fun i => if Nat.eqb i j then padd (q2 i) [z f * zpow r (- f)] else q2 i). split.
    + intros i Hi. destruct (Nat.eqb_spec i j) as [->|Ne]; [|apply H2; auto].
      rewrite length_padd. destruct (H2 j Hi) as [-> _]. rewrite Ej. unfold cnt. cbn [filter].
      rewrite feqb_refl. cbn [length]. lia.
    + intros n Hn. transitivity (epsum ds q2 n + z n); [unfold z; ring|].
      rewrite (Gz n Hn). unfold epsum.
      rewrite (bsum_ext (length ds) (fun i => ep (nth i ds 0) (if Nat.eqb i j then padd (q2 i) [z f * zpow r (- f)] else q2 i) n)
        (fun i => ep (nth i ds 0) (q2 i) n + (if Nat.eqb i j then z f * zpow r (- f) * zpow r n else 0))).
      * rewrite bsum_add. f_equal. rewrite (bsum_single _ j); auto.
        -- now rewrite Nat.eqb_refl.
        -- intros i Hi Ne. apply Nat.eqb_neq in Ne. now rewrite Ne.
      * intros i Hi. destruct (Nat.eqb_spec i j) as [->|Ne]; [|ring].
        rewrite ep_padd. f_equal. unfold ep. cbn [peval]. rewrite Ej. ring.
Qed.

(** Independence: an exponential polynomial vanishing on a half line is zero. *)
Lemma epsum_zero ds (qs : nat -> list K) f : NoDup ds -> (forall d, In d ds -> d <> 0) ->
  (forall n, (f <= n)%Z -> epsum ds qs n = 0) ->
  forall i, (i < length ds)%nat -> allzero (qs i).
Proof.
  intros ND NZ H i Hi.
  (* kill all the other bases, [d_i] is only scaled *)
  pose (M := fold_right Nat.max 0%nat (map (fun j => length (qs j)) (seq 0 (length ds)))).
  assert (HM : forall j, (j < length ds)%nat -> (length (qs j) <= M)%nat).
  { intros j Hj. unfold M. assert (In j (seq 0 (length ds))) by (apply in_seq; lia).
    clear - H0. induction (seq 0 (length ds)) as [|a l IH]; cbn in *; [tauto|].
    destruct H0 as [->|H0]; [lia|]. specialize (IH H0). lia. }
  clearbody M.
  pose (rs := concat (map (fun j => if Nat.eqb j i then [] else repeat (nth j ds 0) M) (seq 0 (length ds)))).
  assert (Hc : forall j, (j < length ds)%nat -> j <> i -> (M <= cnt (nth j ds f0) rs)%nat).
  { intros j Hj Ne. unfold rs. assert (In j (seq 0 (length ds))) by (apply in_seq; lia).
    clear - H0 Ne. induction (seq 0 (length ds)) as [|a l IH]; cbn [map concat] in *; [cbn in H0; tauto|].
    unfold cnt in *. rewrite filter_app, app_length.
    destruct H0 as [->|H0].
    - apply Nat.eqb_neq in Ne. rewrite Ne.
      assert (E : length (filter (feqb (nth j ds 0)) (repeat (nth j ds 0) M)) = M).
      { clear. induction M as [|m IH]; cbn [repeat filter]; auto. rewrite feqb_refl. cbn [length]. now rewrite IH. }
      lia.
    - specialize (IH H0). etransitivity; [exact IH|apply Nat.le_add_l]. }
  assert (Hi0 : ~ In (nth i ds 0) rs).
  { unfold rs. intros C. apply in_concat in C. destruct C as (l & L1 & L2).
    apply in_map_iff in L1. destruct L1 as (j & <- & Hj). apply in_seq in Hj.
    destruct (Nat.eqb_spec j i) as [->|Ne]; [contradiction|].
    apply repeat_spec in L2. apply NoDup_nth with (d := 0) (i := j) (j := i) in ND; try lia; auto. }
  (* apply the operator *)
  assert (A : forall n, (f <= n)%Z -> act (rootpoly rs) (ep (nth i ds 0) (qs i)) n = 0).
  { intros n Hn.
    assert (E : act (rootpoly rs) (epsum ds qs) n = 0).
    { rewrite (act_ext _ _ (fun _ => 0)); [apply act_zero|]. intros m Hm. apply H. lia. }
    rewrite act_epsum in E. rewrite (bsum_single _ i) in E; auto.
    intros j Hj Ne. apply rootpoly_kill; [apply NZ, nth_In; auto|].
    specialize (HM j Hj). specialize (Hc j Hj Ne). lia. }
  (* the operator without d_i is injective on q b^n *)
  assert (NB : nth i ds 0 <> 0) by (apply NZ, nth_In; auto).
  remember (nth i ds 0) as b. clear - A Hi0 NB.
  generalize dependent (qs i). induction rs as [|r rs IH]; intros q A.
  - (* identity *)
    assert (V : forall m : nat, peval q (ofz f + ofn m) = 0).
    { intros m. specialize (A (f + Z.of_nat m)%Z ltac:(lia)). cbn [rootpoly act] in A.
      unfold ep in A. rewrite ofz_add, ofz_ofnat in A.
      assert (B : peval q (ofz f + ofn m) * zpow b (f + Z.of_nat m) = 0) by (rewrite <- A; ring).
      apply mul_eq0 in B. destruct B as [B|B]; auto. now apply zpow_neq0 in B. }
    apply (too_many_roots (map (fun m => ofz f + ofn m) (seq 0 (length q)))).
    + apply FinFun.Injective_map_NoDup; [|apply seq_NoDup]. intros u v E.
      apply (ofn_inj (K := K)). transitivity (ofz f + ofn u - ofz f : K); [ring|]. rewrite E. ring.
    + rewrite map_length, seq_length. auto.
    + intros y Hy. apply in_map_iff in Hy. destruct Hy as (m & <- & _). apply V.
  - assert (Hne : b <> r) by (intros ->; apply Hi0; left; auto).
    assert (B : allzero (estep b r q)).
    { apply IH; [intros C; apply Hi0; right; auto|]. intros n Hn. rewrite <- (A n Hn).
      cbn [rootpoly]. rewrite act_pmul, act_comm. apply act_ext. intros m _. now rewrite act_estep. }
    (* estep injective *)
    clear - B Hne NB. 
    induction q as [|c q IHq] using rev_ind; [constructor|].
    assert (Hc : c = 0).
    { pose proof (allzero_nth' _ (length q) B) as E. unfold estep in E. rewrite nth_padd in E.
      assert (E2 : nth (length q) (pscal b (fdiff (q ++ [c]))) 0 = 0).
      { apply nth_overflow. rewrite length_pscal, fdiff_length, app_length. cbn [length]. lia. }
      rewrite E2 in E. unfold pscal in E. rewrite map_app, app_nth2 in E by (rewrite map_length; auto).
      rewrite map_length, Nat.sub_diag in E. cbn [map nth] in E.
      assert (E3 : (b - r) * c = 0) by (rewrite <- E; ring).
      apply mul_eq0 in E3. destruct E3 as [E3|E3]; auto. now apply sub_neq0 in Hne. }
    subst c. apply Forall_app. split; [|repeat constructor]. apply IHq.
    apply pevals_zero_allzero. intros y.
    assert (E := peval_allzero _ y B). unfold estep in *.
    rewrite peval_padd, !peval_pscal, peval_fdiff in *. rewrite !peval_app in E. cbn [peval] in E.
    rewrite <- E. ring.
Qed.
End S.
