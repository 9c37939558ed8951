(** Proofs about NamesModel.v. *)
From Coq Require Import ZArith QArith Qcanon List String Ascii Bool Reals DecimalString DecimalNat Decimal FinFun Lia.
From Verif Require Import Ast ExprModel ExprSpec ExprProofs1 BlackboardModel BlackboardSpec BlackboardProofs BlackboardProofs2 NamesModel NamesSpec.
Import ListNotations.
Local Open Scope string_scope.
Local Open Scope list_scope.
Local Open Scope nat_scope.

(** * Names *)
Lemma ne_inj a b : NilEmpty.string_of_uint a = NilEmpty.string_of_uint b -> a = b.
Proof. intros H. pose proof (NilEmpty.usu a) as A. rewrite H, NilEmpty.usu in A. congruence. Qed.
Lemma to_uint_nonnil n : Nat.to_uint n <> Nil.
Proof. intros H. pose proof (DecimalNat.Unsigned.to_of (Nat.to_uint n)) as U. rewrite DecimalNat.Unsigned.of_to, H in U. discriminate. Qed.
Lemma decimal_ne n : decimal n = NilEmpty.string_of_uint (Nat.to_uint n).
Proof. unfold decimal, NilZero.string_of_uint. pose proof (to_uint_nonnil n). destruct (Nat.to_uint n); congruence. Qed.
Lemma decimal_inj n m : decimal n = decimal m -> n = m.
Proof. rewrite !decimal_ne. intros H. apply ne_inj in H. now apply DecimalNat.Unsigned.to_uint_inj. Qed.
Lemma decimal_nonempty n : decimal n <> "".
Proof. rewrite decimal_ne. pose proof (to_uint_nonnil n). destruct (Nat.to_uint n); cbn; congruence. Qed.
Lemma digits_uint d : all_digits (NilEmpty.string_of_uint d) = true.
Proof. induction d; cbn; auto. Qed.
Lemma decimal_digits n : all_digits (decimal n) = true.
Proof. rewrite decimal_ne. apply digits_uint. Qed.
Definition letter_of (m : nat) : ascii := match String.get m symbol_names with Some c => c | None => "000"%char end.
Lemma letters_distinct : NoDup (map letter_of (seq 0 num_names)).
Proof. repeat (constructor; [cbn; intuition discriminate|]). constructor. Qed.
Lemma letter_inj a b : a < num_names -> b < num_names -> letter_of a = letter_of b -> a = b.
Proof.
  intros A B H. pose proof letters_distinct as N. rewrite (NoDup_nth (map letter_of (seq 0 num_names)) (letter_of 0)) in N.
  rewrite map_length, seq_length in N. apply N; auto. rewrite !(map_nth letter_of), !seq_nth by auto. exact H.
Qed.
Theorem name_inj i j : new_symbol_name i = new_symbol_name j -> i = j.
Proof.
  unfold new_symbol_name. fold (letter_of (i mod num_names)). fold (letter_of (j mod num_names)).
  assert (N : num_names <> 0) by discriminate.
  pose proof (Nat.mod_upper_bound i _ N) as Bi. pose proof (Nat.mod_upper_bound j _ N) as Bj.
  pose proof (Nat.div_mod i _ N) as Di. pose proof (Nat.div_mod j _ N) as Dj.
  set (mi := i mod num_names) in *. set (mj := j mod num_names) in *. set (di := i / num_names) in *. set (dj := j / num_names) in *. clearbody mi mj di dj.
  assert (X : letter_of mi = letter_of mj -> di = dj -> i = j).
  { intros L D. apply letter_inj in L; auto. subst mj dj. congruence. }
  destruct (Nat.eqb di 0) eqn:Ei, (Nat.eqb dj 0) eqn:Ej; intros H; injection H; clear H.
  - intros H1. apply Nat.eqb_eq in Ei, Ej. apply X; congruence.
  - intros H2 H1. exfalso. eapply decimal_nonempty; eauto.
  - intros H2 H1. exfalso. eapply decimal_nonempty; eauto.
  - intros H2 H1. apply X; auto. now apply decimal_inj.
Qed.
Theorem name_not_system i : is_system_generated (new_symbol_name i) = false.
Proof.
  unfold is_system_generated. destruct (Nat.ltb (String.length (new_symbol_name i)) 7) eqn:L; auto.
  unfold new_symbol_name in *. fold (letter_of (i mod num_names)) in *. set (c := letter_of _) in *. clearbody c.
  destruct (Nat.eqb (i / num_names) 0); [discriminate|]. pose proof (decimal_digits (i / num_names)) as D. set (t := decimal _) in *. clearbody t.
  destruct t as [|d t]; [discriminate|]. cbn [all_digits] in D. apply andb_true_iff in D as [D _].
  assert (P : String.prefix "symbol" (String c (String d t)) = false).
  { cbn [String.prefix]. destruct (ascii_dec "s" c); auto. destruct (ascii_dec "y" d); auto. subst d. discriminate. }
  now rewrite P.
Qed.

(** * Sets *)
Lemma mem_in z m : set_mem z m = true <-> In z m.
Proof. unfold set_mem. rewrite existsb_exists. split; [intros (x & H & E); apply String.eqb_eq in E; now subst|intros H; exists z; split; auto; apply String.eqb_refl]. Qed.
Lemma set_in z m y : In y (set_insert z m) <-> y = z \/ In y m.
Proof.
  induction m as [|k m IH]; cbn [set_insert In]; [intuition congruence|].
  destruct (String.eqb z k) eqn:E; [apply String.eqb_eq in E; subst; cbn; intuition congruence|].
  destruct (String.ltb z k); cbn [In]; rewrite ?IH; intuition congruence.
Qed.
Lemma set_sorted z m : increasing m -> increasing (set_insert z m).
Proof.
  induction m as [|k m IH]; cbn [set_insert increasing]; [auto|].
  intros [S1 S2]. destruct (String.eqb z k) eqn:E; [cbn; auto|]. destruct (String.ltb z k) eqn:L; cbn [increasing].
  - split; [constructor; auto|split; auto]. eapply Forall_impl; [|exact S1]. intros b Hb. eapply ltb_trans; eauto.
  - split; auto. apply Forall_forall. intros y Hy. apply set_in in Hy as [->|Hy].
    + apply ltb_total; auto. now apply String.eqb_neq.
    + eapply Forall_forall in S1; eauto.
Qed.
Lemma increasing_nodup m : increasing m -> NoDup m.
Proof.
  induction m as [|a m IH]; intros H; [constructor|]. destruct H as [H1 H2]. constructor; auto. intros X.
  eapply Forall_forall in H1; eauto. rewrite ltb_irrefl in H1. discriminate.
Qed.
Lemma set_length z m : List.length (set_insert z m) <= S (List.length m).
Proof. induction m as [|k m IH]; cbn; auto. destruct (String.eqb z k); cbn; [lia|]. destruct (String.ltb z k); cbn; lia. Qed.

(** * collect_symbols *)
Definition cin (p : list string * list string) (z : string) : Prop := if is_system_generated z then In z (fst p) else In z (snd p).
Definition Cwf (p : list string * list string) : Prop :=
  increasing (fst p) /\ increasing (snd p) /\ (forall z, In z (fst p) -> is_system_generated z = true) /\ (forall z, In z (snd p) -> is_system_generated z = false).
Lemma collect_sym_ok s p : Cwf p -> Cwf (collect_sym s p) /\ forall z, cin (collect_sym s p) z <-> z = s \/ cin p z.
Proof.
  intros (A & B & C & D). unfold collect_sym, cin, Cwf. destruct (is_system_generated s) eqn:E; cbn [fst snd].
  - split.
    + split; [now apply set_sorted|split; [auto|split]]; [|auto]. intros z Hz. apply set_in in Hz as [->|Hz]; auto.
    + intros z. destruct (is_system_generated z) eqn:Ez; [apply set_in|]. split; auto. intros [->|H]; congruence.
  - split.
    + split; [auto|split; [now apply set_sorted|split]]; [auto|]. intros z Hz. apply set_in in Hz as [->|Hz]; auto.
    + intros z. destruct (is_system_generated z) eqn:Ez; [|apply set_in]. split; auto. intros [->|H]; congruence.
Qed.
Lemma collect_ok e : forall p, Cwf p -> Cwf (collect_symbols e p) /\ forall z, cin (collect_symbols e p) z <-> has z e = true \/ cin p z.
Proof.
  assert (FL : forall l, Forall (fun e => forall p, Cwf p -> Cwf (collect_symbols e p) /\ forall z, cin (collect_symbols e p) z <-> has z e = true \/ cin p z) l ->
    forall p, Cwf p -> Cwf (fold_right collect_symbols p l) /\ forall z, cin (fold_right collect_symbols p l) z <-> existsb (has z) l = true \/ cin p z).
  { induction 1 as [|a l Ha Hl IH]; intros p W; cbn; [split; [auto|intros z; intuition discriminate]|].
    destruct (IH p W) as [W1 I1]. destruct (Ha _ W1) as [W2 I2]. split; auto. intros z. rewrite I2, I1, orb_true_iff. tauto. }
  induction e using expr_ind'; intros p W; cbn [collect_symbols has].
  - split; auto. intros z. intuition discriminate.
  - split; auto. intros z. intuition discriminate.
  - destruct (collect_sym_ok s p W) as [W1 I1]. split; auto. intros z. now rewrite I1, String.eqb_eq.
  - now apply FL.
  - now apply FL.
  - destruct (IHe1 p W) as [W1 I1]. destruct (IHe2 _ W1) as [W2 I2]. split; auto. intros z. rewrite I2, I1, orb_true_iff. tauto.
  - now apply FL.
  - destruct (IHe3 p W) as [W1 I1]. destruct (IHe2 _ W1) as [W2 I2]. destruct (IHe1 _ W2) as [W3 I3].
    destruct (collect_sym_ok k _ W3) as [W4 I4]. split; auto. intros z. rewrite I4, I3, I2, I1, !orb_true_iff, String.eqb_eq. tauto.
  - destruct (IHe3 p W) as [W1 I1]. destruct (IHe2 _ W1) as [W2 I2]. destruct (IHe1 _ W2) as [W3 I3].
    destruct (collect_sym_ok k _ W3) as [W4 I4]. split; auto. intros z. rewrite I4, I3, I2, I1, !orb_true_iff, String.eqb_eq. tauto.
Qed.

(** * The search for a free name *)
Lemma try_spec fuel : forall i taken, match try_names fuel i taken with
   | Done n => ~ In n taken /\ exists j, i <= j /\ n = new_symbol_name j /\ forall h, i <= h < j -> In (new_symbol_name h) taken
   | Undefined => False
   | Deeper => forall h, i <= h <= i + fuel -> In (new_symbol_name h) taken end.
Proof.
  induction fuel as [|fuel IH]; intros i taken; cbn [try_names].
  - destruct (set_mem (new_symbol_name i) taken) eqn:E.
    + apply mem_in in E. intros h Hh. replace h with i by lia. auto.
    + split; [rewrite <- mem_in; congruence|]. exists i. repeat split; auto; lia.
  - destruct (set_mem (new_symbol_name i) taken) eqn:E.
    + apply mem_in in E. specialize (IH (S i) taken). destruct (try_names fuel (S i) taken); auto.
      * destruct IH as (A & j & B & C & D). split; auto. exists j. repeat split; auto; [lia|]. intros h Hh.
        destruct (Nat.eq_dec h i); [now subst|]. apply D. lia.
      * intros h Hh. destruct (Nat.eq_dec h i); [now subst|]. apply IH. lia.
    + split; [rewrite <- mem_in; congruence|]. exists i. repeat split; auto; lia.
Qed.
Lemma try_terminates fuel i taken : List.length taken <= fuel -> try_names fuel i taken <> Deeper.
Proof.
  intros L H. pose proof (try_spec fuel i taken) as SS. rewrite H in SS.
  assert (N : NoDup (map new_symbol_name (seq i (S fuel)))).
  { apply FinFun.Injective_map_NoDup; [exact name_inj|apply seq_NoDup]. }
  assert (I : incl (map new_symbol_name (seq i (S fuel))) taken).
  { intros x Hx. apply in_map_iff in Hx as (h & <- & Hh). apply in_seq in Hh. apply SS. lia. }
  pose proof (NoDup_incl_length N I) as Q. rewrite map_length, seq_length in Q. lia.
Qed.

(** * Renaming one symbol everywhere in an expression *)
Section V.
Variable I : interp.
Variable G : ginac.
Hypothesis HG : ginac_ok I G.
Lemma rename_value e : forall s n rho rho' v, has n e = false -> rho' s = rho n -> (forall t, t <> s -> t <> n -> rho' t = rho t) ->
  eval I rho' e = Some v -> eval I rho (substitute G (Sym s) (Sym n) e) = Some v.
Proof.
  assert (FA : forall l s n rho rho', Forall (fun e => forall s n rho rho' v, has n e = false -> rho' s = rho n -> (forall t, t <> s -> t <> n -> rho' t = rho t) ->
      eval I rho' e = Some v -> eval I rho (substitute G (Sym s) (Sym n) e) = Some v) l ->
    existsb (has n) l = false -> rho' s = rho n -> (forall t, t <> s -> t <> n -> rho' t = rho t) ->
    (forall v, esum I rho' l = Some v -> esum I rho (map (substitute G (Sym s) (Sym n)) l) = Some v) /\
    (forall v, eprod I rho' l = Some v -> eprod I rho (map (substitute G (Sym s) (Sym n)) l) = Some v) /\
    (forall v, omap (eval I rho') l = Some v -> omap (eval I rho) (map (substitute G (Sym s) (Sym n)) l) = Some v)).
  { intros l s n rho rho' F. induction F as [|a l Ha Hl IH]; intros Hn E1 E2; [cbn; auto|].
    cbn in Hn. apply orb_false_iff in Hn as [Hn1 Hn2]. destruct (IH Hn2 E1 E2) as (I1 & I2 & I3). cbn [map]. split; [|split].
    - intros v. rewrite !esum_cons, !olift2_some. intros (x & y & Hx & Hy & ->). exists x, y. repeat split; eauto.
    - intros v. rewrite !eprod_cons, !olift2_some. intros (x & y & Hx & Hy & ->). exists x, y. repeat split; eauto.
    - intros v. rewrite !omap_cons. destruct (eval I rho' a) as [x|] eqn:Ea; [|discriminate]. rewrite (Ha s n rho rho' x Hn1 E1 E2 Ea).
      destruct (omap (eval I rho') l) as [ys|] eqn:El; [|discriminate]. rewrite (I3 ys eq_refl). auto. }
  assert (UP : forall s n rho rho' k u, k <> n -> rho' s = rho n -> (forall t, t <> s -> t <> n -> rho' t = rho t) -> s <> n ->
     let k' := if String.eqb k s then n else k in
     upd rho' k u s = upd rho k' u n /\ (forall t, t <> s -> t <> n -> upd rho' k u t = upd rho k' u t)).
  { intros s n rho rho' k u Hk E1 E2 Hs. cbv zeta. unfold upd. destruct (String.eqb k s) eqn:Eks.
    - apply String.eqb_eq in Eks. subst k. rewrite !String.eqb_refl. split; auto. intros t A B.
      rewrite (proj2 (String.eqb_neq t s) A), (proj2 (String.eqb_neq t n) B). auto.
    - assert (String.eqb s k = false) by (rewrite String.eqb_sym; auto). rewrite H. assert (String.eqb n k = false) by (apply String.eqb_neq; congruence). rewrite H0.
      split; auto. intros t A B. destruct (String.eqb t k); auto. }
  induction e using expr_ind'; intros s' n rho rho' v Hn E1 E2 Ev.
  - exact Ev.
  - exact Ev.
  - cbn [substitute expr_eqb]. cbn [has] in Hn. destruct (String.eqb s s') eqn:E.
    + apply String.eqb_eq in E. subst s. cbn in *. now rewrite <- E1.
    + cbn in *. rewrite <- E2; auto; apply String.eqb_neq; auto. rewrite String.eqb_sym. auto.
  - cbn [substitute expr_eqb]. apply add_all_ok; auto. rewrite eval_Add in *. eapply FA; eauto.
  - cbn [substitute expr_eqb]. apply mul_all_ok; auto. rewrite eval_Mul in *. eapply FA; eauto.
  - cbn [substitute expr_eqb]. cbn [has] in Hn. apply orb_false_iff in Hn as [Hn1 Hn2]. apply (gpow_ok _ _ HG). cbn [eval] in *.
    destruct (eval I rho' e1) as [x|] eqn:F1; [|discriminate]. destruct (eval I rho' e2) as [y|] eqn:F2; [|discriminate].
    rewrite (IHe1 _ _ _ _ _ Hn1 E1 E2 F1), (IHe2 _ _ _ _ _ Hn2 E1 E2 F2). exact Ev.
  - cbn [substitute expr_eqb]. apply (gfun_ok _ _ HG). cbn [eval] in *.
    destruct (omap (eval I rho') l) as [xs|] eqn:F1; [|discriminate]. apply (FA l s' n rho rho' H Hn E1 E2) in F1. rewrite F1. exact Ev.
  - cbn [substitute expr_eqb]. cbn [has] in Hn. rewrite !orb_false_iff in Hn. destruct Hn as [[[Hk Hn1] Hn2] Hn3].
    assert (Kn : k <> n) by (intros ->; rewrite String.eqb_refl in Hk; discriminate).
    destruct (string_dec s' n) as [->|Hs].
    { assert (Ek : String.eqb k n = false) by now apply String.eqb_neq. rewrite Ek. cbn [apply_sum]. apply (gsum_ok _ _ HG). apply eval_sum_inv in Ev as (a & b & Ea & Eb & Es).
      apply (eval_sum_intro _ _ _ _ _ _ _ a b); eauto. eapply osum_mono; [|exact Es]. intros i Hi u Hu. cbv beta in *.
      eapply IHe3; [exact Hn3| | |exact Hu]; unfold upd; [rewrite (proj2 (String.eqb_neq n k)) by congruence; auto|]. intros t A B. destruct (String.eqb t k); auto. }
    apply eval_sum_inv in Ev as (a & b & Ea & Eb & Es).
    replace (if String.eqb k s' then Sym n else Sym k) with (Sym (if String.eqb k s' then n else k)) by (destruct (String.eqb k s'); auto).
    cbn [apply_sum]. apply (gsum_ok _ _ HG). apply (eval_sum_intro _ _ _ _ _ _ _ a b); eauto. eapply osum_mono; [|exact Es]. intros i Hi u Hu. cbv beta in *.
    destruct (UP s' n rho rho' k (IZR (a + Z.of_nat i)) Kn E1 E2 Hs) as [U1 U2]. eapply IHe3; eauto.
  - cbn [substitute expr_eqb]. cbn [has] in Hn. rewrite !orb_false_iff in Hn. destruct Hn as [[[Hk Hn1] Hn2] Hn3].
    assert (Kn : k <> n) by (intros ->; rewrite String.eqb_refl in Hk; discriminate).
    destruct (string_dec s' n) as [->|Hs].
    { assert (Ek : String.eqb k n = false) by now apply String.eqb_neq. rewrite Ek. cbn [apply_prod]. apply (gprod_ok _ _ HG). apply eval_prod_inv in Ev as (a & b & Ea & Eb & Es).
      apply (eval_prod_intro _ _ _ _ _ _ _ a b); eauto. eapply oprod_mono; [|exact Es]. intros i Hi u Hu. cbv beta in *.
      eapply IHe3; [exact Hn3| | |exact Hu]; unfold upd; [rewrite (proj2 (String.eqb_neq n k)) by congruence; auto|]. intros t A B. destruct (String.eqb t k); auto. }
    apply eval_prod_inv in Ev as (a & b & Ea & Eb & Es).
    replace (if String.eqb k s' then Sym n else Sym k) with (Sym (if String.eqb k s' then n else k)) by (destruct (String.eqb k s'); auto).
    cbn [apply_prod]. apply (gprod_ok _ _ HG). apply (eval_prod_intro _ _ _ _ _ _ _ a b); eauto. eapply oprod_mono; [|exact Es]. intros i Hi u Hu. cbv beta in *.
    destruct (UP s' n rho rho' k (IZR (a + Z.of_nat i)) Kn E1 E2 Hs) as [U1 U2]. eapply IHe3; eauto.
Qed.
(** Symbols of the result. *)
Hypothesis NS : no_new_symbols G.
Lemma has_fold_add z l : has z (add_all G l) = true -> existsb (has z) l = true.
Proof.
  destruct NS as (A & _). induction l as [|a l IH]; cbn; [discriminate|]. intros H. apply A in H. cbn in H. rewrite orb_false_r in H. apply orb_true_iff in H as [H|H].
  - rewrite IH by auto. apply orb_true_r.
  - rewrite H. auto.
Qed.
Lemma has_fold_mul z l : has z (mul_all G l) = true -> existsb (has z) l = true.
Proof.
  destruct NS as (_ & A & _). induction l as [|a l IH]; cbn; [discriminate|]. intros H. apply A in H. cbn in H. rewrite orb_false_r in H. apply orb_true_iff in H as [H|H].
  - rewrite IH by auto. apply orb_true_r.
  - rewrite H. auto.
Qed.
Lemma rename_symbols e z s n : has z (substitute G (Sym s) (Sym n) e) = true -> (z = n /\ has s e = true) \/ (z <> s /\ has z e = true) \/ (z = n /\ s = n).
Proof.
  set (Q := fun e z => (z = n /\ has s e = true) \/ (z <> s /\ has z e = true) \/ (z = n /\ s = n)).
  assert (FA : forall l, Forall (fun e => has z (substitute G (Sym s) (Sym n) e) = true -> Q e z) l -> existsb (has z) (map (substitute G (Sym s) (Sym n)) l) = true ->
     (z = n /\ existsb (has s) l = true) \/ (z <> s /\ existsb (has z) l = true) \/ (z = n /\ s = n)).
  { unfold Q. induction 1 as [|a l Ha Hl IH]; cbn; [discriminate|]. rewrite !orb_true_iff. intros [H|H]; [apply Ha in H|apply IH in H]; tauto. }
  assert (KK : forall k, has z (if expr_eqb (Sym k) (Sym s) then Sym n else Sym k) = true -> (z = n /\ k = s) \/ (z <> s /\ z = k)).
  { intros k. cbn. destruct (String.eqb k s) eqn:E; cbn; intros H; apply String.eqb_eq in H; [apply String.eqb_eq in E; tauto|]. subst k. apply String.eqb_neq in E. tauto. }
  destruct NS as (N1 & N2 & N3 & N4 & N5 & N6).
  assert (AS : forall i lo up b, has z (apply_sum G i lo up b) = true -> (exists k, i = Sym k) -> has z i || has z lo || has z up || has z b = true).
  { intros i lo up b H [k ->]. apply N5 in H. exact H. }
  assert (AP : forall i lo up b, has z (apply_prod G i lo up b) = true -> (exists k, i = Sym k) -> has z i || has z lo || has z up || has z b = true).
  { intros i lo up b H [k ->]. apply N6 in H. exact H. }
  assert (IK : forall k, exists k', (if expr_eqb (Sym k) (Sym s) then Sym n else Sym k) = Sym k') by (intros k; destruct (expr_eqb (Sym k) (Sym s)); eauto).
  change (has z (substitute G (Sym s) (Sym n) e) = true -> Q e z).
  induction e using expr_ind'; unfold Q in *; cbn [substitute expr_eqb].
  - discriminate.
  - discriminate.
  - cbn [has]. destruct (String.eqb s0 s) eqn:E; cbn; intros H; apply String.eqb_eq in H.
    + apply String.eqb_eq in E. subst. left. split; auto. apply String.eqb_refl.
    + subst z. apply String.eqb_neq in E. right. left. split; auto. apply String.eqb_refl.
  - intros X. apply has_fold_add in X. now apply FA.
  - intros X. apply has_fold_mul in X. now apply FA.
  - intros X. apply N3 in X. cbn in *. rewrite !orb_true_iff in *. destruct X as [X|X]; [apply IHe1 in X|apply IHe2 in X]; tauto.
  - intros X. apply N4 in X. now apply FA.
  - intros X. apply AS in X; [|apply IK]. rewrite !orb_true_iff in X. cbn [has]. rewrite !orb_true_iff, !String.eqb_eq. destruct X as [[[X|X]|X]|X].
    + apply KK in X as [[-> ->]|[? ->]]; tauto.
    + apply IHe1 in X. tauto.
    + apply IHe2 in X. tauto.
    + apply IHe3 in X. tauto.
  - intros X. apply AP in X; [|apply IK]. rewrite !orb_true_iff in X. cbn [has]. rewrite !orb_true_iff, !String.eqb_eq. destruct X as [[[X|X]|X]|X].
    + apply KK in X as [[-> ->]|[? ->]]; tauto.
    + apply IHe1 in X. tauto.
    + apply IHe2 in X. tauto.
    + apply IHe3 in X. tauto.
Qed.

(** * The whole loop *)
Lemma subst_symbol_defined b D old new : BInv G b D -> exists b', substitute_symbol b old new = Done b' /\ BInv G b' (d_rename D old new).
Proof.
  intros B. pose proof (subst_inv G b D old new B) as P. unfold substitute_symbol in *.
  destruct (map_find old (index b)) as [i|]; [|eauto]. destruct (nth_error (defs b) i); [eauto|destruct P].
Qed.
Definition apart (sys taken : list string) (ren : list (string * string)) : Prop :=
  map fst ren = sys /\ NoDup (map snd ren) /\ (forall n, In n (map snd ren) -> ~ In n taken /\ exists j, n = new_symbol_name j).
Lemma loop_ok fuel : forall sys i taken e b D,
  BInv G b D -> NoDup sys -> (forall s, In s sys -> is_system_generated s = true) ->
  (forall z, has z e = true -> In z sys \/ In z taken) -> (forall z, In z taken -> is_system_generated z = false) -> List.length taken + List.length sys <= fuel ->
  exists e' b' ren, rename_loop G fuel i sys taken e b = Done (e', b', ren) /\ apart sys taken ren /\
   (forall z, has z e' = true -> In z taken \/ In z (map snd ren)) /\
   BInv G b' (fold_left (fun D p => d_rename D (fst p) (snd p)) ren D) /\
   forall rho v, eval I (fun s => rho (renamed ren s)) e = Some v -> eval I rho e' = Some v.
Proof.
  induction sys as [|s sys IH]; intros i taken e b D B N Sy Hs Ht Hf; cbn [rename_loop].
  - exists e, b, []. split; [auto|]. split; [|split; [|split]].
    + split; [auto|split; [constructor|intros n []]].
    + intros z Hz. apply Hs in Hz as [[]|Hz]; auto.
    + exact B.
    + intros rho v. auto.
  - pose proof (try_spec fuel i taken) as T. pose proof (try_terminates fuel i taken) as TT. cbn [List.length] in Hf.
    destruct (try_names fuel i taken) as [n| |] eqn:Et; [|destruct T|exfalso; apply TT; auto; lia]. cbn [cbind].
    destruct T as (Tn & j & _ & Tj & _).
    destruct (subst_symbol_defined b D s n B) as (b1 & E1 & B1). rewrite E1. cbn [cbind].
    assert (Sn : is_system_generated n = false) by (subst n; apply name_not_system).
    assert (Hne : has n e = false).
    { destruct (has n e) eqn:E; auto. apply Hs in E as [E|E]; [apply Sy in E; congruence|contradiction]. }
    assert (Ssn : s <> n) by (intros ->; rewrite (Sy n) in Sn; [discriminate|left; auto]).
    inversion N; subst.
    destruct (IH (S i) (set_insert (new_symbol_name j) taken) (substitute G (Sym s) (Sym (new_symbol_name j)) e) b1 (d_rename D s (new_symbol_name j)) B1) as (e' & b' & ren & E & (P1 & P2 & P3) & P4 & P5 & P6); auto.
    + intros z Hz. apply Sy. right. auto.
    + intros z Hz. apply rename_symbols in Hz as [[-> _]|[[A Hz]|[_ C]]]; [right; apply set_in; auto| |congruence].
      apply Hs in Hz as [[->|Hz]|Hz]; [congruence|auto|right; apply set_in; auto].
    + intros z Hz. apply set_in in Hz as [->|Hz]; auto.
    + pose proof (set_length (new_symbol_name j) taken). lia.
    + rewrite E. cbn [cbind fst snd]. exists e', b', ((s, new_symbol_name j) :: ren). split; [auto|]. split; [|split; [|split]].
      * split; [cbn; congruence|]. split.
        -- cbn. constructor; auto. intros X. apply P3 in X as [X _]. apply X. apply set_in. auto.
        -- intros n [<-|Hn]; [cbn; eauto|]. apply P3 in Hn as [A C]. split; auto. intros X. apply A. apply set_in. auto.
      * intros z Hz. apply P4 in Hz as [Hz|Hz]; [apply set_in in Hz as [->|Hz]|]; cbn; auto.
      * exact P5.
      * intros rho v Ev. apply P6. eapply rename_value; [exact Hne| | |exact Ev]; cbv beta.
        -- cbn [renamed]. rewrite String.eqb_refl. f_equal. symmetry. apply renamed_fresh. rewrite P1. intros X.
           assert (is_system_generated (new_symbol_name j) = true) by (apply Sy; right; auto). congruence.
        -- intros t A C. cbn [renamed]. apply String.eqb_neq in A. now rewrite A.
Qed.
End V.

(** * Which symbols are taken for generated ones *)
Lemma is_digit_spec c : is_digit c = true <-> In c (list_ascii_of_string "0123456789").
Proof.
  split.
  - unfold is_digit. intros H. apply andb_true_iff in H as [A B]. apply Nat.leb_le in A, B. rewrite <- (ascii_nat_embedding c). remember (nat_of_ascii c) as n. clear Heqn.
    do 58 (destruct n as [|n]; [try lia; cbn; tauto|]). lia.
  - cbn. intuition; subst; reflexivity.
Qed.
Lemma all_digits_spec t : all_digits t = true <-> digits t.
Proof.
  induction t as [|c t IH]; cbn; [split; constructor|]. rewrite andb_true_iff, IH, is_digit_spec.
  split; [intros [? ?]; now constructor|inversion 1; auto].
Qed.
Lemma substring_all t : substring 0 (String.length t) t = t.
Proof. induction t; cbn; congruence. Qed.
Theorem system_generated_spec s : is_system_generated s = true <-> looks_generated s.
Proof.
  unfold looks_generated. split.
  - unfold is_system_generated. destruct (Nat.ltb (String.length s) 7) eqn:L; [discriminate|]. apply Nat.ltb_ge in L.
    destruct (String.prefix "symbol" s) eqn:P; [|discriminate]. intros D.
    destruct s as [|c1 [|c2 [|c3 [|c4 [|c5 [|c6 t]]]]]]; cbn in L; try lia. cbn [String.prefix] in P.
    repeat match type of P with (if ascii_dec ?a ?b then _ else _) = true => destruct (ascii_dec a b); [subst|discriminate] end.
    cbn [String.length Nat.sub substring] in D. rewrite Nat.sub_0_r, substring_all in D. exists t. split; [intros ->; cbn in L; lia|]. split; [now apply all_digits_spec|reflexivity].
  - intros (t & N & D & ->). unfold is_system_generated. apply all_digits_spec in D. destruct t as [|c t]; [congruence|].
    change (Nat.ltb (String.length ("symbol" ++ String c t)) 7) with false. change (String.prefix "symbol" ("symbol" ++ String c t)) with true.
    cbn [String.append String.length Nat.sub substring]. rewrite substring_all. exact D.
Qed.

Theorem replace_ok I G : ginac_ok I G -> no_new_symbols G -> forall h b e, bb_run G empty_blackboard h = Done b -> exists f0, forall f, f0 <= f ->
  exists e' b' ren, replace_system_generated_symbols G f e b = Done (e', b', ren) /\
  NoDup (map fst ren) /\ (forall s, In s (map fst ren) <-> has s e = true /\ looks_generated s) /\
  NoDup (map snd ren) /\ (forall n, In n (map snd ren) -> has n e = false /\ ~ looks_generated n) /\
  (forall s, has s e' = true -> ~ looks_generated s) /\
  (forall rho v, eval I (fun s => rho (renamed ren s)) e = Some v -> eval I rho e' = Some v).
Proof.
  intros HG NS h b e R. destruct (run_inv G h b R) as (D & _ & B).
  assert (W0 : Cwf ([], [])) by (repeat split; cbn; tauto).
  destruct (collect_ok e ([], []) W0) as [(C1 & C2 & C3 & C4) CI]. unfold replace_system_generated_symbols.
  destruct (collect_symbols e ([], [])) as [sys taken] eqn:E. cbn [fst snd] in *.
  assert (C : forall z, (if is_system_generated z then In z sys else In z taken) <-> has z e = true).
  { intros z. specialize (CI z). unfold cin in CI. cbn [fst snd] in CI. rewrite CI. destruct (is_system_generated z); cbn; tauto. }
  assert (Cin : forall z, has z e = true -> In z sys \/ In z taken) by (intros z Hz; apply C in Hz; destruct (is_system_generated z); auto).
  exists (List.length taken + List.length sys). intros f Hf.
  destruct (loop_ok I G HG NS f sys 0 taken e b D B (increasing_nodup _ C1) C3 Cin C4 Hf) as (e' & b' & ren & E1 & (P1 & P2 & P3) & P4 & _ & P6).
  exists e', b', ren. split; [exact E1|]. rewrite P1. split; [now apply increasing_nodup|]. split; [|split; [auto|split; [|split]]]; auto.
  - intros s. rewrite <- system_generated_spec, <- C. split; [intros Hs; rewrite (C3 s Hs); auto|]. intros [A1 A2]. now rewrite A2 in A1.
  - intros n Hn. apply P3 in Hn as [A (j & ->)]. rewrite <- system_generated_spec, name_not_system. split; [|discriminate].
    destruct (has (new_symbol_name j) e) eqn:X; auto. apply C in X. rewrite name_not_system in X. contradiction.
  - intros s Hs. rewrite <- system_generated_spec. apply P4 in Hs as [Hs|Hs]; [rewrite (C4 s Hs); discriminate|].
    apply P3 in Hs as [_ (j & ->)]. rewrite name_not_system. discriminate.
Qed.
Lemma G0_no_new_symbols : no_new_symbols G0.
Proof.
  assert (OA : forall z a, existsb (has z) (ops_add a) = has z a) by (intros z a; destruct a; cbn; auto; rewrite ?orb_false_r; auto).
  assert (OM : forall z a, existsb (has z) (ops_mul a) = has z a) by (intros z a; destruct a; cbn; auto; rewrite ?orb_false_r; auto).
  repeat split; auto; cbn [G0 gadd gmul gpow gfun gsum gprod].
  - intros z a b H. cbn. rewrite orb_false_r.
    assert (X : has z (if is_num 0%Qc a then b else if is_num 0%Qc b then a else Add (ops_add a ++ ops_add b)) = true -> has z a || has z b = true).
    { destruct (is_num 0%Qc a); [intros ->; apply orb_true_r|]. destruct (is_num 0%Qc b); [intros ->; auto|]. cbn [has]. rewrite existsb_app, OA, OA. auto. }
    destruct a; auto. destruct b; auto; discriminate.
  - intros z a b H. cbn. rewrite orb_false_r.
    assert (X : has z (if is_num 1%Qc a then b else if is_num 1%Qc b then a else Mul (ops_mul a ++ ops_mul b)) = true -> has z a || has z b = true).
    { destruct (is_num 1%Qc a); [intros ->; apply orb_true_r|]. destruct (is_num 1%Qc b); [intros ->; auto|]. cbn [has]. rewrite existsb_app, OM, OM. auto. }
    destruct a; auto. destruct b; auto; discriminate.
Qed.
