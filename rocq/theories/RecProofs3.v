(** Initial conditions and evaluation. *)
From Coq Require Import ZArith QArith Qcanon List Bool Arith Lia.
From Verif Require Import Ast ExprModel ExprProofs1 ExprCases RecModel RecSpec.
Import ListNotations.
Local Open Scope list_scope.
Local Open Scope nat_scope.

Section IC.
Context (G : engine).
Notation E := (RecModel.E G).
Implicit Types (m l : list (nat * E)).

Fixpoint descending (b : nat) (l : list (nat * E)) : Prop := match l with [] => True | (i, _) :: l => i < b /\ descending i l end.
Lemma descending_app b l1 l2 : descending b (l1 ++ l2) <-> descending b l1 /\ descending (match rev l1 with [] => b | (i, _) :: _ => i end) l2.
Proof.
  revert b. induction l1 as [|[i e] l1 IH]; intros b; cbn [descending app rev]; [tauto|]. rewrite IH.
  destruct (rev l1) as [|[i' e'] t] eqn:R; cbn [app]; tauto.
Qed.
Lemma map_rev_desc m b : is_map m -> Forall (fun p => fst p < b) m -> descending b (rev m).
Proof.
  revert b. induction m as [|[i e] m IH]; intros b; cbn [is_map rev]; auto. intros [H1 H2] H3. apply descending_app. split.
  - apply IH; auto. now inversion H3.
  - rewrite rev_involutive. destruct m as [|[i' e'] m]; cbn; [split; auto; now inversion H3|]. inversion H1; subst. cbn in *. auto.
Qed.
Lemma desc_lt b l i e : descending b l -> In (i, e) l -> i < b.
Proof. revert b. induction l as [|[j f] l IH]; intros b; cbn; [tauto|]. intros [H1 H2] [[= <- <-]|H3]; auto. specialize (IH _ H2 H3). lia. Qed.
Lemma consecutive_iff l : forall largest j c, j <= S largest -> descending (S largest - j) l ->
  (consecutive G l largest j c = true <-> forall t, t < c -> j + t <= largest /\ given l (largest - (j + t))).
Proof.
  induction l as [|[i e] l IH]; intros largest j c Hj Hd; destruct c as [|c]; cbn [consecutive].
  - split; auto. intros _ t Ht. lia.
  - split; [discriminate|]. intros H. destruct (H 0 ltac:(lia)) as [_ [e He]]. destruct He.
  - split; auto. intros _ t Ht. lia.
  - cbn [descending] in Hd. destruct Hd as [Hi Hd]. rewrite andb_true_iff, Z.eqb_eq. split.
    + intros [Hz Hc]. assert (Ei : i = largest - j) by lia. assert (Hjl : j <= largest) by lia.
      assert (Hd' : descending (S largest - S j) l) by (replace (S largest - S j) with i by lia; auto).
      rewrite (IH largest (S j) c) in Hc by (auto; lia).
      intros [|t] Ht.
      * split; [lia|]. exists e. left. f_equal. lia.
      * destruct (Hc t ltac:(lia)) as [A [e' B]]. split; [lia|]. exists e'. right. replace (largest - (j + S t)) with (largest - (S j + t)) by lia. auto.
    + intros H. destruct (H 0 ltac:(lia)) as [Hjl [e0 H0]]. rewrite Nat.add_0_r in *.
      assert (Ei : i = largest - j). { destruct H0 as [[= <- <-]|H0]; auto. apply (desc_lt _ _ _ _ Hd) in H0. lia. }
      split; [lia|]. assert (Hd' : descending (S largest - S j) l) by (replace (S largest - S j) with i by lia; auto).
      apply IH; auto; [lia|]. intros t Ht. destruct (H (S t) ltac:(lia)) as [A [e' B]]. split; [lia|]. exists e'. replace (largest - (S j + t)) with (largest - (j + S t)) by lia.
      destruct B as [[= B1 B2]|B]; auto. lia.
Qed.
Lemma desc_length l : forall L k, descending (S L) l -> (forall j, j < k -> j <= L /\ given l (L - j)) -> k <= length l.
Proof.
  induction l as [|[i e] l IH]; intros L k Hd H.
  - destruct k; auto. destruct (H 0 ltac:(lia)) as [_ [e He]]. destruct He.
  - destruct k as [|k]; cbn; [lia|]. cbn in Hd. destruct Hd as [Hi Hd]. apply le_n_S.
    destruct (H 0 ltac:(lia)) as [_ [e0 H0]]. assert (Ei : i = L). { rewrite Nat.sub_0_r in H0. destruct H0 as [[= <- <-]|H0]; auto. apply (desc_lt _ _ _ _ Hd) in H0. lia. }
    subst i. destruct L as [|L].
    + destruct k; [lia|]. destruct (H 1 ltac:(lia)) as [X _]. lia.
    + apply (IH L); auto. intros j Hj. destruct (H (S j) ltac:(lia)) as [A [e' B]]. split; [lia|]. exists e'. cbn in B. destruct B as [[= B1 B2]|B]; auto. lia.
Qed.
Lemma given_rev m k : given (rev m) k <-> given m k.
Proof. unfold given. split; intros [e H]; exists e; [apply in_rev; auto|now apply in_rev in H]. Qed.
(** The checks shared by the recurrences of finite order. *)
Lemma order_check m k first : is_map m -> 1 <= k -> (exists L e rest, rev m = (L, e) :: rest /\ k <= length m /\ first <= L /\ consecutive G rest L 1 (k - 1) = true) <-> last_consecutive m k first.
Proof.
  intros Hm Hk. split.
  - intros (L & e & rest & R & Hl & Hf & Hc).
    assert (Hd : descending (S L) (rev m)).
    { rewrite R. cbn. split; [lia|]. assert (X : exists b, descending b (rev m)).
      { exists (S (fold_right (fun p => Nat.max (fst p)) 0 m)). apply map_rev_desc; auto. clear. induction m as [|p m IH]; constructor; cbn; [lia|]. eapply Forall_impl; [|exact IH]. intros q; cbn; lia. }
      destruct X as [b X]. rewrite R in X. now destruct X. }
    rewrite R in Hd. cbn in Hd. destruct Hd as [_ Hd].
    rewrite consecutive_iff in Hc; [|lia|cbn; now rewrite Nat.sub_0_r].
    assert (GR : forall i, given m i <-> i = L \/ given rest i).
    { intros i. rewrite <- given_rev, R. unfold given. split; intros H.
      - destruct H as [e' [[= <- <-]|H]]; eauto.
      - destruct H as [->|[e' H]]; [exists e; now left|exists e'; now right]. }
    exists L. split; auto. split; [apply GR; auto|]. split.
    + intros i Hi. apply GR in Hi as [->|[e' Hi]]; auto. apply (desc_lt _ _ _ _ Hd) in Hi. lia.
    + intros j Hj. destruct j as [|j]; [split; [lia|]; apply GR; left; lia|]. destruct (Hc j ltac:(lia)) as [A B]. split; [lia|]. apply GR. right. replace (L - S j) with (L - (1 + j)) by lia. auto.
  - intros (L & Hf & HL & Hmax & Hj).
    assert (Hd : descending (S L) (rev m)).
    { apply map_rev_desc; auto. apply Forall_forall. intros [i e] Hi. cbn. assert (given m i) by (exists e; auto). specialize (Hmax i H). lia. }
    destruct (rev m) as [|[L' e] rest] eqn:R.
    { destruct HL as [e He]. apply in_rev in He. rewrite R in He. destruct He. }
    assert (L' = L).
    { cbn in Hd. destruct Hd as [H1 H2]. assert (Hin : given (rev m) L) by (now apply given_rev). rewrite R in Hin. destruct Hin as [e' [[= <- <-]|Hin]]; auto. apply (desc_lt _ _ _ _ H2) in Hin. lia. }
    subst L'. exists L, e, rest. split; auto.
    assert (Hr : forall j, j < k -> j <= L /\ given (rev m) (L - j)) by (intros j X; destruct (Hj j X); split; auto; now apply given_rev).
    split. { rewrite <- rev_length. apply (desc_length (rev m) L); auto. now rewrite R. }
    split; auto. cbn in Hd. destruct Hd as [_ Hd]. apply consecutive_iff; [lia|cbn; now rewrite Nat.sub_0_r|].
    intros t Ht. destruct (Hr (1 + t) ltac:(lia)) as [A [e' B]]. split; auto. exists e'. rewrite R in B. destruct B as [[= B1 B2]|B]; auto. lia.
Qed.
Lemma q_lt_spec a b : q_lt a b = true <-> (a < b)%Qc.
Proof. unfold q_lt. destruct (Qclt_le_dec a b) as [L|L]; split; auto; try discriminate. intros H. exfalso. apply Qcle_not_lt in L. auto. Qed.
Lemma q_lt_false a b : q_lt a b = false <-> (b <= a)%Qc.
Proof. unfold q_lt. destruct (Qclt_le_dec a b) as [L|L]; split; auto; try discriminate. intros H. exfalso. apply Qcle_not_lt in H. auto. Qed.
Lemma negative_false e : negative G e = false <-> forall q, e_number G e = Some q -> (0 <= q)%Qc.
Proof.
  unfold negative. destruct (e_number G e) as [q|]; [rewrite q_lt_false|]; split; auto; try congruence.
  all: intros H q' [= <-]; auto.
Qed.
Lemma fe_check m k : is_map m -> length m = k ->
  (forallb (fun p : nat * (nat * E) => (fst (snd p) =? fst p) && is_number G (snd (snd p)) && negb (negative G (snd (snd p)))) (combine (seq 1 k) m) = true <->
   (forall i, given m i <-> 1 <= i <= k) /\ forall i e, In (i, e) m -> exists q, e_number G e = Some q /\ (0 <= q)%Qc).
Proof.
  intros Hm Hl.
  assert (VAL : forall e, is_number G e && negb (negative G e) = true <-> exists q, e_number G e = Some q /\ (0 <= q)%Qc).
  { intros e. unfold is_number, negative. destruct (e_number G e) as [q|]; cbn; [rewrite negb_true_iff, q_lt_false|]; split.
    - intros H. eauto. - intros (q' & [= <-] & H); auto. - discriminate. - intros (q' & H & _); discriminate. }
  assert (GEN : forall m k a, is_map m -> length m = k ->
    (forallb (fun p : nat * (nat * E) => (fst (snd p) =? fst p) && is_number G (snd (snd p)) && negb (negative G (snd (snd p)))) (combine (seq a k) m) = true <->
     map fst m = seq a k /\ forall i e, In (i, e) m -> exists q, e_number G e = Some q /\ (0 <= q)%Qc)).
  { clear - VAL. intros m. induction m as [|[i e] m IH]; intros k a Hm Hl; cbn in Hl; subst k; cbn [seq combine forallb map].
    - split; auto. intros _. split; auto. intros i e [].
    - cbn [is_map] in Hm. destruct Hm as [_ Hm]. rewrite andb_true_iff, (IH (length m) (S a) Hm eq_refl). cbn [fst snd]. rewrite <- andb_assoc, andb_true_iff, VAL, Nat.eqb_eq. split.
      + intros ((-> & V) & Em & Vm). split; [now rewrite Em|]. intros i' e' [[= <- <-]|H]; eauto.
      + intros ([= -> Em] & V). split; [split; auto; apply (V a); now left|]. split; auto. intros i' e' H. apply (V i'). now right. }
  rewrite (GEN m k 1 Hm Hl). split; intros [H1 H2]; split; auto.
  - intros i. transitivity (In i (map fst m)).
    + unfold given. rewrite in_map_iff. split; [intros [e He]; exists (i, e); auto|intros [[i' e] [<- He]]; exists e; auto].
    + rewrite H1, in_seq. lia.
  - assert (SRT : forall m a, is_map m -> (forall i, In i (map fst m) -> a <= i) -> (forall i, In i (map fst m) <-> a <= i < a + length m) -> map fst m = seq a (length m)).
    { clear. induction m as [|[i e] m IH]; intros a Hm Hge H; [reflexivity|]. cbn [map fst length seq] in *. destruct Hm as [Hi Hm].
      assert (Ea : i = a). { assert (Ha : In a (i :: map fst m)) by (apply H; cbn; lia). destruct Ha as [|Ha]; auto. apply in_map_iff in Ha as [[a' e'] [<- Hin]]. cbn in *.
        specialize (Hge i (or_introl eq_refl)). apply (proj1 (Forall_forall _ _) Hi) in Hin. cbn in Hin. lia. }
      subst i. f_equal. assert (GT : forall i, In i (map fst m) -> a < i).
      { intros i Hin. apply in_map_iff in Hin as [[i' e'] [<- Hin]]. now apply (proj1 (Forall_forall _ _) Hi) in Hin. }
      apply IH; auto. intros i. split.
      - intros Hin. pose proof (GT i Hin). assert (X : In i (a :: map fst m)) by now right. apply H in X. cbn in X. lia.
      - intros Hi'. assert (X : In i (a :: map fst m)) by (apply H; cbn; lia). destruct X as [X|X]; auto. lia. }
    rewrite <- Hl. apply SRT; auto.
    + intros i Hin. apply in_map_iff in Hin as [[i' e] [<- Hin]]. cbn. assert (X : given m i') by (exists e; auto). apply H1 in X. lia.
    + intros i. rewrite Hl. transitivity (given m i); [|rewrite H1; lia].
      unfold given. rewrite in_map_iff. split; [intros [[i' e] [<- He]]; exists e; auto|intros [e He]; exists (i, e); auto].
Qed.
Lemma fe_length m k : is_map m -> (forall i, given m i <-> 1 <= i <= k) -> length m = k.
Proof.
  intros Hm H. assert (ND : NoDup (map fst m)).
  { clear H. induction m as [|[i e] m IH]; cbn; constructor.
    - intros Hin. apply in_map_iff in Hin as [[i' e'] [E1 Hin]]. cbn in E1. destruct Hm as [Hi _]. apply (proj1 (Forall_forall _ _) Hi) in Hin. cbn in Hin. lia.
    - apply IH. now destruct Hm. }
  assert (EQ : forall i, In i (map fst m) <-> In i (seq 1 k)).
  { intros i. rewrite in_seq. transitivity (given m i); [|rewrite H; lia]. unfold given. rewrite in_map_iff. split; [intros [[i' e] [<- He]]; exists e; auto|intros [e He]; exists (i, e); auto]. }
  pose proof (NoDup_incl_length ND (fun i Hi => proj1 (EQ i) Hi)) as L1. pose proof (NoDup_incl_length (seq_NoDup k 1) (fun i Hi => proj2 (EQ i) Hi)) as L2.
  rewrite map_length, seq_length in *. lia.
Qed.
Theorem check_iff i m : is_map m -> type_ok i -> (check_ic G i m = Ok true <-> usable G i m) /\ (check_ic G i m = Ok true \/ check_ic G i m = Ok false).
Proof.
  intros Hm Ht. unfold check_ic, usable, type_ok in *.
  assert (ORD : forall k (more : bool), 1 <= k ->
    let r := if length m <? k then Ok false else match rev m with [] => UB | (largest, _) :: rest => if largest <? i_first i then Ok false else if negb (consecutive G rest largest 1 (k - 1)) then Ok false else if more then Ok false else Ok true end in
    (r = Ok true <-> last_consecutive m k (i_first i) /\ more = false) /\ (r = Ok true \/ r = Ok false)).
  { intros k more Hk r. unfold r. clear r. rewrite <- (order_check m k (i_first i) Hm Hk).
    destruct (Nat.ltb_spec (length m) k); [split; auto; split; [discriminate|intros [(L & e & rest & _ & X & _) _]; lia]|].
    destruct (rev m) as [|[L e] rest] eqn:R; [apply (f_equal (@length _)) in R; rewrite rev_length in R; cbn in R; lia|].
    destruct (Nat.ltb_spec L (i_first i)); [split; auto; split; [discriminate|intros [(L' & e' & rest' & [= <- <- <-] & _ & X & _) _]; lia]|].
    destruct (consecutive G rest L 1 (k - 1)) eqn:C; cbn [negb]; [|split; auto; split; [discriminate|intros [(L' & e' & rest' & [= <- <- <-] & _ & _ & X) _]; congruence]].
    destruct more; split; auto; split; try discriminate; intros H1; try (destruct H1; discriminate); auto. split; auto. exists L, e, rest. auto. }
  destruct (i_type i); try tauto.
  - cbn [andb]. destruct (ORD (i_order i) false Ht) as [A B]. split; auto. rewrite A. tauto.
  - cbn [andb]. destruct (ORD (i_order i) false Ht) as [A B]. split; auto. rewrite A. tauto.
  - cbn [andb]. destruct (ORD (if i_linear_zero i then 1 else i_order i) (existsb (fun p => negative G (snd p)) m)) as [A B]; [destruct (i_linear_zero i); lia|]. split; auto. rewrite A.
    assert (X : existsb (fun p => negative G (snd p)) m = false <-> forall (k : nat) e q, In (k, e) m -> e_number G e = Some q -> (0 <= q)%Qc).
    { clear. split.
      - intros H k e q Hin. apply negative_false. destruct (negative G e) eqn:N; auto. assert (X : existsb (fun p => negative G (snd p)) m = true) by (apply existsb_exists; exists (k, e); auto). congruence.
      - intros H. destruct (existsb _ m) eqn:X; auto. apply existsb_exists in X as [[k e] [Hin N]]. cbn in N. assert (Y : negative G e = false) by (apply negative_false; intros q; apply (H k); auto). congruence. }
    rewrite X. tauto.
  - destruct (rev m) as [|[L e] rest] eqn:R.
    + split; auto. split; [discriminate|]. intros (k & _ & e & He). apply in_rev in He. rewrite R in He. destruct He.
    + split; [|destruct (negb _); auto]. assert (GL : given m L) by (exists e; apply in_rev; rewrite R; now left).
      assert (MX : forall k, given m k -> k <= L).
      { assert (Hd : descending (S (fold_right (fun p => Nat.max (fst p)) 0 m)) (rev m)).
        { apply map_rev_desc; auto. clear. induction m as [|p m IH]; constructor; cbn; [lia|]. eapply Forall_impl; [|exact IH]. intros q; cbn; lia. }
        rewrite R in Hd. cbn in Hd. destruct Hd as [_ Hd]. intros k [e' He]. apply in_rev in He. rewrite R in He. destruct He as [[= <- <-]|He]; auto. apply (desc_lt _ _ _ _ Hd) in He. lia. }
      destruct (Nat.ltb_spec L (i_first i)); cbn; split; try discriminate; auto.
      * intros (k & Hk & Hg). apply MX in Hg. lia.
      * intros _. exists L. auto.
  - destruct (Nat.eqb_spec (length m) (i_conditions i)) as [L|L]; cbn [negb].
    + split; [|destruct (forallb _ _); auto]. rewrite <- (fe_check m (i_conditions i) Hm L). split; [intros [= H]; auto|intros ->; auto].
    + split; auto. split; [discriminate|]. intros [H _]. exfalso. apply L. now apply fe_length.
Qed.
Theorem set_initial_conditions_iff m s c r i : is_map m -> cls G s = CL_SUCCESS -> inf G s = i -> type_ok i -> set_initial_conditions G m s = (c, r) ->
  (r = Ok tt <-> usable G i m) /\ (r = Ok tt \/ r = Exc) /\ (r = Ok tt -> ics G c = m) /\ (r = Exc -> ics G c = []).
Proof.
  intros Hm C <- Ht. unfold set_initial_conditions. set (s1 := match ics G s with [] => s | _ => reset_initial_conditions G s end).
  assert (H1 : cls G s1 = CL_SUCCESS /\ inf G s1 = inf G s /\ ics G s1 = []) by (unfold s1; destruct (ics G s) eqn:X; cbn; auto).
  destruct H1 as (C1 & I1 & M1). assert (Cl : classify G s1 = s1) by (unfold classify; now rewrite C1). rewrite Cl, C1, I1.
  destruct (check_iff (inf G s) m Hm Ht) as [A B]. destruct B as [B|B]; rewrite B.
  - intros [= <- <-]. rewrite B in A. split; [tauto|]. split; auto. split; auto. discriminate.
  - intros [= <- <-]. rewrite B in A. split; [split; [discriminate|intros X; apply A in X; discriminate]|]. split; auto. split; auto. discriminate.
Qed.

(** * Evaluation *)
Lemma q_lt_nat a b : q_lt (q_of_nat a) (q_of_nat b) = (a <? b).
Proof.
  destruct (Nat.ltb_spec a b) as [L|L].
  - apply q_lt_spec. apply rv_lt. unfold q_of_nat. rewrite !rv_zq. apply RIneq.IZR_lt. lia.
  - apply q_lt_false. apply rv_le. unfold q_of_nat. rewrite !rv_zq. apply RIneq.IZR_le. lia.
Qed.
Lemma q_le_nat a b : q_le (q_of_nat a) (q_of_nat b) = (a <=? b).
Proof.
  unfold q_le. rewrite q_lt_nat. destruct (Nat.ltb_spec b a), (Nat.leb_spec a b); auto; lia.
Qed.
Lemma q_lt_nat0 a : q_lt (q_of_nat a) 0 = false.
Proof. change 0%Qc with (q_of_nat 0). rewrite q_lt_nat. destruct a; auto. Qed.
Lemma find_ic_in m k v : is_map m -> (find_ic G k m = Some v <-> In (k, v) m).
Proof.
  induction m as [|[i e] m IH]; cbn [find_ic In is_map]; [split; [discriminate|tauto]|]. intros [H1 H2]. destruct (Nat.eqb_spec i k) as [->|N].
  - split; [intros [= ->]; auto|]. intros [[= ->]|H]; auto. apply (proj1 (Forall_forall _ _) H1) in H. cbn in H. lia.
  - rewrite (IH H2). split; auto. intros [[= -> ->]|H]; auto. lia.
Qed.
Lemma find_ic_none m k : is_map m -> (find_ic G k m = None <-> ~ given m k).
Proof.
  intros Hm. split.
  - intros H [e He]. apply (find_ic_in m k e Hm) in He. congruence.
  - intros H. destruct (find_ic G k m) as [e|] eqn:F; auto. exfalso. apply H. exists e. now apply (find_ic_in m k e Hm).
Qed.
Lemma max_index_ge m k : is_map m -> given m k -> k <= max_index G m.
Proof.
  intros Hm [e He]. unfold max_index. destruct (rev m) as [|[i f] r] eqn:R; [apply in_rev in He; rewrite R in He; destruct He|].
  assert (Hd : descending (S (fold_right (fun p => Nat.max (fst p)) 0 m)) (rev m)).
  { apply map_rev_desc; auto. clear. induction m as [|p m IH]; constructor; cbn; [lia|]. eapply Forall_impl; [|exact IH]. intros q; cbn; lia. }
  rewrite R in Hd. destruct Hd as [_ Hd]. apply in_rev in He. rewrite R in He. destruct He as [[= -> ->]|He]; auto. apply (desc_lt _ _ _ _ Hd) in He. lia.
Qed.
Lemma max_index_given m : m <> [] -> given m (max_index G m).
Proof.
  intros H. unfold max_index. destruct (rev m) as [|[i f] r] eqn:R; [destruct m; [congruence|]; apply (f_equal (@length _)) in R; rewrite rev_length in R; discriminate|].
  exists f. apply in_rev. rewrite R. now left.
Qed.
Lemma check_number_nat k s : is_map (ics G s) -> evaluated (inf G s) ->
  check_number G (q_of_nat k) s = Ok (if k <? first_index (inf G s) then match find_ic G k (ics G s) with Some _ => true | None => false end else true).
Proof.
  intros Hm He. unfold check_number, must_have_ic, find_at, first_index, evaluated in *. rewrite q_lt_nat0.
  assert (QI : q_is_int (q_of_nat k) = true /\ Z.to_nat (q_int (q_of_nat k)) = k).
  { destruct (zq_int (Z.of_nat k)) as [A B]. unfold q_of_nat. rewrite A, B, Nat2Z.id. auto. }
  destruct QI as [QI QK]. rewrite QI, QK.
  destruct (i_type (inf G s)); try tauto.
  1,2: destruct (Nat.leb_spec (i_order (inf G s)) (S (i_first (inf G s)))); rewrite q_lt_nat;
    [replace (i_first (inf G s) + 1 - i_order (inf G s)) with (S (i_first (inf G s)) - i_order (inf G s)) by lia
    |replace (S (i_first (inf G s)) - i_order (inf G s)) with 0 by lia]; destruct (k <? _); auto; destruct (find_ic G k (ics G s)); auto.
  rewrite q_le_nat. change (k <=? i_first (inf G s)) with (k <? S (i_first (inf G s))). destruct (k <? _); auto; destruct (find_ic G k (ics G s)); auto.
Qed.
Theorem evaluate_nat kind k s s' e : read_kind G kind s = (s', Ok e) -> is_map (ics G s') -> evaluated (inf G s') ->
  (first_index (inf G s') <= k \/ given (ics G s') k ->
   k > max_index G (ics G s') \/ given (ics G s') k -> exists v, evaluate G kind (q_of_nat k) s = (s', Ok v) /\ value_at (ics G s') e k v) /\
  (k < first_index (inf G s') -> ~ given (ics G s') k -> evaluate G kind (q_of_nat k) s = (s', Exc)) /\
  (first_index (inf G s') <= k <= max_index G (ics G s') -> ~ given (ics G s') k -> evaluate G kind (q_of_nat k) s = (s', Ok (e_x G k))).
Proof.
  intros HR Hm He. unfold evaluate. rewrite HR, (check_number_nat k s' Hm He), q_le_nat.
  assert (QI : q_is_int (q_of_nat k) = true /\ Z.to_nat (q_int (q_of_nat k)) = k).
  { destruct (zq_int (Z.of_nat k)) as [A B]. unfold q_of_nat. rewrite A, B, Nat2Z.id. auto. }
  destruct QI as [QI QK]. rewrite QI, QK. unfold get_initial_condition. split; [|split].
  - intros H1 H2. destruct (find_ic G k (ics G s')) as [v|] eqn:F.
    + assert (B : (if k <? first_index (inf G s') then true else true) = true) by (destruct (k <? _); auto). rewrite B.
      assert (IN : In (k, v) (ics G s')) by now apply find_ic_in. assert (MX : k <= max_index G (ics G s')) by (apply max_index_ge; auto; exists v; auto).
      exists v. split; [|now left]. unfold evaluated in He. destruct (Nat.leb_spec k (max_index G (ics G s'))) as [L|L]; [|lia]. destruct (i_type (inf G s')); auto; tauto.
    + assert (NG : ~ given (ics G s') k) by now apply find_ic_none. destruct H1 as [H1|H1]; [|tauto]. destruct H2 as [H2|H2]; [|tauto].
      destruct (Nat.ltb_spec k (first_index (inf G s'))); [lia|]. destruct (Nat.leb_spec k (max_index G (ics G s'))) as [L|L]; [lia|].
      exists (e_subst G e (q_of_nat k)). split; [|right; auto]. unfold evaluated in He. destruct (i_type (inf G s')); auto; tauto.
  - intros H1 NG. apply find_ic_none in NG; auto. rewrite NG. destruct (Nat.ltb_spec k (first_index (inf G s'))); [auto|lia].
  - intros H1 NG. apply find_ic_none in NG; auto. rewrite NG. destruct (Nat.ltb_spec k (first_index (inf G s'))); [lia|].
    destruct (Nat.leb_spec k (max_index G (ics G s'))) as [L|L]; [|lia]. unfold evaluated in He. destruct (i_type (inf G s')); auto; tauto.
Qed.
Theorem evaluate_negative kind x s s' e : read_kind G kind s = (s', Ok e) -> (x < 0)%Qc -> evaluate G kind x s = (s', Exc).
Proof. intros HR Hx. unfold evaluate. rewrite HR. unfold check_number. apply q_lt_spec in Hx. now rewrite Hx. Qed.
Theorem evaluate_other kind x s s' e : read_kind G kind s = (s', Ok e) -> match i_type (inf G s') with NON_LINEAR | FUNCTIONAL_EQUATION | MAX_FUNCTION | UNKNOWN => True | _ => False end -> evaluate G kind x s = (s', Exc).
Proof. intros HR Hx. unfold evaluate. rewrite HR. unfold check_number. destruct (q_lt x 0); auto. destruct (i_type (inf G s')); tauto || auto. Qed.
Theorem evaluate_zero kind k s s' e : read_kind G kind s = (s', Ok e) -> i_type (inf G s') = ORDER_ZERO -> is_map (ics G s') ->
  (i_first (inf G s') < k \/ given (ics G s') k -> evaluate G kind (q_of_nat k) s = (s', Ok (e_subst G e (q_of_nat k)))) /\
  (k <= i_first (inf G s') -> ~ given (ics G s') k -> evaluate G kind (q_of_nat k) s = (s', Exc)).
Proof.
  intros HR Ht Hm. unfold evaluate. rewrite HR. unfold check_number, must_have_ic, find_at. rewrite Ht, q_lt_nat0, q_le_nat.
  assert (QI : q_is_int (q_of_nat k) = true /\ Z.to_nat (q_int (q_of_nat k)) = k).
  { destruct (zq_int (Z.of_nat k)) as [A B]. unfold q_of_nat. rewrite A, B, Nat2Z.id. auto. }
  destruct QI as [QI QK]. rewrite QI, QK. split.
  - intros H. destruct (Nat.leb_spec k (i_first (inf G s'))); auto. destruct H as [H|[v H]]; [lia|]. apply (find_ic_in _ k v Hm) in H. now rewrite H.
  - intros H NG. apply find_ic_none in NG; auto. rewrite NG. destruct (Nat.leb_spec k (i_first (inf G s'))); auto. lia.
Qed.
End IC.
