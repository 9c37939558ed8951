(** Histories of a blackboard, values, termination, renaming. *)
From Coq Require Import ZArith QArith Qcanon List String Bool Reals Lia OrderedTypeEx.
From Verif Require Import Ast ExprModel ExprProofs1 BlackboardModel BlackboardSpec BlackboardProofs.
Import ListNotations.
Local Open Scope nat_scope.

Lemma ltb_trans a b c : String.ltb a b = true -> String.ltb b c = true -> String.ltb a c = true.
Proof.
  unfold String.ltb. intros H1 H2.
  assert (A : String.compare a b = Lt) by (destruct (String.compare a b); congruence).
  assert (B : String.compare b c = Lt) by (destruct (String.compare b c); congruence).
  apply String_as_OT.cmp_lt in A. apply String_as_OT.cmp_lt in B. pose proof (String_as_OT.lt_trans _ _ _ A B) as C.
  apply String_as_OT.cmp_lt in C. unfold String_as_OT.cmp in C. now rewrite C.
Qed.
Lemma ltb_irrefl a : String.ltb a a = false.
Proof. unfold String.ltb. pose proof (String.compare_antisym a a) as H. destruct (String.compare a a) eqn:E; auto. discriminate. Qed.
Lemma ltb_total a b : a <> b -> String.ltb a b = false -> String.ltb b a = true.
Proof.
  unfold String.ltb. intros N H. rewrite (String.compare_antisym b a). destruct (String.compare a b) eqn:E; auto; try discriminate.
  exfalso. apply N. now apply String.compare_eq_iff.
Qed.
Lemma ltb_neq a b : String.ltb a b = true -> a <> b.
Proof. intros H ->. rewrite ltb_irrefl in H. discriminate. Qed.

Definition sorted (m : list (string * nat)) : Prop := increasing (map fst m).
Lemma find_lt z m : Forall (fun b => String.ltb z b = true) (map fst m) -> map_find z m = None.
Proof.
  induction m as [|[k i] m IH]; cbn; auto. intros H. inversion H; subst. rewrite IH; auto.
  apply ltb_neq in H2. apply String.eqb_neq in H2. now rewrite H2.
Qed.
Lemma find_insert z i m y : sorted m -> map_find y (map_insert z i m) =
  if String.eqb y z then match map_find z m with Some j => Some j | None => Some i end else map_find y m.
Proof.
  unfold sorted. induction m as [|[k j] m IH]; cbn [map_insert map_find map fst increasing].
  - intros _. destruct (String.eqb y z) eqn:E; auto.
  - intros [S1 S2]. destruct (String.eqb z k) eqn:Ezk.
    + apply String.eqb_eq in Ezk. subst k. cbn [map_find]. destruct (String.eqb y z) eqn:E; auto.
    + destruct (String.ltb z k) eqn:L; cbn [map_find].
      * destruct (String.eqb y z) eqn:E; auto.
        rewrite find_lt; auto. eapply Forall_impl; [|exact S1]. intros b Hb. eapply ltb_trans; eauto.
      * rewrite IH by auto. destruct (String.eqb y k) eqn:Eyk; auto.
        apply String.eqb_eq in Eyk. subst y. apply String.eqb_neq in Ezk.
        destruct (String.eqb k z) eqn:E; auto. apply String.eqb_eq in E. congruence.
Qed.
Lemma insert_keys z i m y : In y (map fst (map_insert z i m)) <-> y = z \/ In y (map fst m).
Proof.
  induction m as [|[k j] m IH]; cbn [map_insert map fst In]; [intuition congruence|].
  destruct (String.eqb z k) eqn:E; [apply String.eqb_eq in E; subst; cbn; intuition congruence|].
  destruct (String.ltb z k); cbn [map fst In]; rewrite ?IH; intuition congruence.
Qed.
Lemma insert_sorted z i m : sorted m -> sorted (map_insert z i m).
Proof.
  unfold sorted. induction m as [|[k j] m IH]; cbn [map_insert map fst increasing]; [auto|].
  intros [S1 S2]. destruct (String.eqb z k) eqn:E; [cbn; auto|]. destruct (String.ltb z k) eqn:L; cbn [map fst increasing].
  - split; [constructor; auto|split; auto]. eapply Forall_impl; [|exact S1]. intros b Hb. eapply ltb_trans; eauto.
  - split; auto. apply Forall_forall. intros y Hy. apply insert_keys in Hy as [->|Hy].
    + apply ltb_total; auto. now apply String.eqb_neq.
    + eapply Forall_forall in S1; eauto.
Qed.
Lemma erase_find z m y : map_find y (map_erase z m) = if String.eqb y z then None else map_find y m.
Proof.
  induction m as [|[k j] m IH]; cbn [map_erase filter map_find fst]; [destruct (String.eqb y z); auto|].
  fold (map_erase z m). destruct (String.eqb z k) eqn:E; cbn [negb].
  - apply String.eqb_eq in E. subst k. rewrite IH. destruct (String.eqb y z); auto.
  - cbn [map_find]. rewrite IH. destruct (String.eqb y k) eqn:E2; auto.
    apply String.eqb_eq in E2. subst y. rewrite String.eqb_sym, E. auto.
Qed.
Lemma erase_sorted z m : sorted m -> sorted (map_erase z m).
Proof.
  unfold sorted. induction m as [|[k j] m IH]; cbn [map_erase filter map fst increasing]; auto.
  fold (map_erase z m). intros [S1 S2]. destruct (String.eqb z k); cbn [negb]; auto. cbn [map fst increasing]. split; auto.
  clear - S1. induction m as [|[k' j'] m IH]; cbn [map_erase filter fst]; [constructor|]. fold (map_erase z m).
  cbn in S1. inversion S1; subst. destruct (String.eqb z k'); cbn [negb map fst]; auto.
Qed.

Section H.
Variable G : ginac.
Definition benv (b : blackboard) : dict := env (index b) (map rhs (defs b)).
Record BInv (b : blackboard) (D : dict) : Prop := MkBInv {
  b_sorted : sorted (index b);
  b_range : forall z i, map_find z (index b) = Some i -> i < List.length (map rhs (defs b));
  b_time : 0 < timestamp b;
  b_defs : Inv G (index b) (map rhs (defs b)) (timestamp b) (defs b);
  b_dict : forall z, benv b z = D z }.

(** Expansion only depends on the dictionary pointwise. *)
Lemma expands_ext D D' : (forall z, D z = D' z) ->
  (forall e v, expands G D e v -> expands G D' e v) /\ (forall l l', expands_all G D l l' -> expands_all G D' l l').
Proof.
  intros E. apply expands_ind2; intros; try (constructor; auto; congruence).
  eapply ex_def; eauto. congruence.
Qed.
Lemma unfolds_ext D D' : (forall z, D z = D' z) ->
  (forall e t, unfolds D e t -> unfolds D' e t) /\ (forall l tl, unfolds_all D l tl -> unfolds_all D' l tl).
Proof.
  intros E. apply unfolds_ind2; intros.
  - apply uf_leaf. destruct o as [|[|[z [-> Hz]]]]; auto. right. right. exists z. split; auto. congruence.
  - eapply uf_def; eauto. congruence.
  - apply uf_node; auto.
  - constructor.
  - constructor; auto.
Qed.

Lemma fresh_ok ix rhss ts e : 0 < ts -> okdef G ix rhss ts (new_definition e).
Proof. intros H. unfold okdef. cbn. repeat split; lia. Qed.
(** Every cached value is out of date after the timestamp is increased. *)
Lemma stale ix ix' rhss rhss' ts d : okdef G ix rhss ts d -> okdef G ix' rhss' (S ts) d.
Proof. unfold okdef. intros (A & _ & B & _). repeat split; try lia. Qed.
Lemma inv_push ix ix' ts ds e : Inv G ix (map rhs ds) ts ds -> Inv G ix' (map rhs (ds ++ [new_definition e])) (S ts) (ds ++ [new_definition e]).
Proof.
  intros [_ F]. split; auto. apply Forall_app. split; [|repeat constructor; cbn; lia].
  eapply Forall_impl; [|exact F]. intros d. apply stale.
Qed.
Lemma env_push ix ds e z i : sorted ix -> (forall z i, map_find z ix = Some i -> i < List.length (map rhs ds)) ->
  i = List.length ds ->
  env (map_insert z i ix) (map rhs (ds ++ [new_definition e])) z = match env ix (map rhs ds) z with Some d => Some d | None => Some e end /\
  forall y, y <> z -> env (map_insert z i ix) (map rhs (ds ++ [new_definition e])) y = env ix (map rhs ds) y.
Proof.
  intros S W ->. unfold env.
  assert (O : forall y j, map_find y ix = Some j -> nth_error (map rhs (ds ++ [new_definition e])) j = nth_error (map rhs ds) j).
  { intros y j H. rewrite map_app. apply nth_error_app1. eauto. }
  split.
  - rewrite find_insert, String.eqb_refl by auto. destruct (map_find z ix) as [j|] eqn:E.
    + rewrite (O z j E). destruct (nth_error (map rhs ds) j) eqn:N; auto. apply W in E. apply nth_error_None in N. lia.
    + rewrite map_app, nth_error_app2 by (rewrite map_length; lia). rewrite map_length, Nat.sub_diag. reflexivity.
  - intros y Hy. rewrite find_insert by auto. apply String.eqb_neq in Hy. rewrite Hy.
    destruct (map_find y ix) as [j|] eqn:E; auto. eauto.
Qed.
Lemma insert_inv b D z e : BInv b D -> BInv (fst (insert_definition b z e)) (d_insert D z e).
Proof.
  intros [S W T Iv E]. cbn. pose proof (env_push (index b) (defs b) e z _ S W eq_refl) as [P1 P2].
  split; cbn [index defs timestamp].
  - now apply insert_sorted.
  - intros y i H. rewrite find_insert in H by auto. rewrite map_app, app_length. cbn.
    destruct (String.eqb y z); [|apply W in H; lia]. destruct (map_find z (index b)) eqn:F; [apply W in F; injection H as <-; lia|].
    injection H as <-. rewrite map_length. lia.
  - lia.
  - eapply inv_push; eauto.
  - intros y. unfold benv. cbn [index defs]. unfold d_insert. rewrite <- (E z). unfold benv at 1.
    destruct (String.eqb y z) eqn:Ey.
    + apply String.eqb_eq in Ey. subst y. rewrite P1. destruct (env (index b) (map rhs (defs b)) z) eqn:X.
      * rewrite <- E. unfold benv. now rewrite X.
      * unfold dset. now rewrite String.eqb_refl.
    + assert (y <> z) by now apply String.eqb_neq. rewrite P2 by auto.
      destruct (env (index b) (map rhs (defs b)) z) eqn:X; [apply E|]. unfold dset. rewrite Ey. apply E.
Qed.
Lemma subst_inv b D old new : BInv b D -> post (fun b' => BInv b' (d_rename D old new)) (substitute_symbol b old new).
Proof.
  intros B. pose proof B as [S W T Iv E]. unfold substitute_symbol, d_rename. rewrite <- (E old). unfold benv, env.
  destruct (map_find old (index b)) as [i|] eqn:F; [|exact B].
  destruct (nth_error (defs b) i) as [d|] eqn:N; [|apply W in F; rewrite map_length in F; apply nth_error_None in N; lia].
  rewrite (map_nth_error rhs _ _ N). cbn [post].
  pose proof (insert_inv b D new (rhs d) B) as [S' W' T' Iv' E'].
  cbn [fst insert_definition index defs timestamp] in *. split; cbn [index defs timestamp].
  - now apply erase_sorted.
  - intros z j H. rewrite erase_find in H. destruct (String.eqb z old); [discriminate|]. eauto.
  - exact T'.
  - destruct Iv as [_ Fo]. split; auto. apply Forall_app. split; [|repeat constructor; cbn; lia].
    eapply Forall_impl; [|exact Fo]. intros d'. apply stale.
  - intros z. unfold benv, env. cbn [index defs]. rewrite erase_find. unfold dset. destruct (String.eqb z old); auto. apply E'.
Qed.
Lemma rewrite_inv b D f e : BInv b D -> post (fun p => BInv (fst p) D /\ expands G D e (snd p)) (rewrite_bb G f b e).
Proof.
  intros [S W T Iv E]. unfold rewrite_bb.
  eapply post_bind; [apply (rw_sound G (index b) (map rhs (defs b)) (timestamp b) W _ (rw_def_sound G _ _ _ W f) e _ Iv)|].
  intros p [I1 X]. split; cbn [fst snd].
  - split; cbn [index defs timestamp]; auto.
    + intros z i H. destruct I1 as [M _]. rewrite M. eauto.
    + destruct I1 as [M Fo]. split; auto. rewrite M. auto.
    + intros z. unfold benv. cbn [index defs]. destruct I1 as [M _]. rewrite M. apply E.
  - eapply expands_ext; eauto.
Qed.
Lemma size_inv b D f e : BInv b D -> post (fun p => BInv (fst p) D /\ exists t, unfolds D e t /\ nodes t = snd p) (size_norm_bb f b e).
Proof.
  intros [S W T Iv E]. unfold size_norm_bb.
  eapply post_bind; [apply (sz_sound G (index b) (map rhs (defs b)) (timestamp b) W _ (sz_def_sound G _ _ _ W f) e _ Iv)|].
  intros p [I1 (t & X & Y)]. split; cbn [fst snd].
  - split; cbn [index defs timestamp]; auto.
    + intros z i H. destruct I1 as [M _]. rewrite M. eauto.
    + destruct I1 as [M Fo]. split; auto. rewrite M. auto.
    + intros z. unfold benv. cbn [index defs]. destruct I1 as [M _]. rewrite M. apply E.
  - exists t. split; auto. eapply unfolds_ext; eauto.
Qed.
Lemma get_inv b D z : BInv b D -> get_definition b z = Done (match D z with Some e => e | None => Sym z end).
Proof.
  intros [S W T Iv E]. unfold get_definition. rewrite <- (E z). unfold benv, env. destruct (map_find z (index b)) as [i|] eqn:F; auto.
  destruct (nth_error (defs b) i) as [d|] eqn:N; [|apply W in F; rewrite map_length in F; apply nth_error_None in N; lia].
  now rewrite (map_nth_error rhs _ _ N).
Qed.
Lemma empty_inv : BInv empty_blackboard (fun _ => None).
Proof. split; cbn; auto; try discriminate. split; constructor. Qed.
Lemma run_app b h o : bb_run G b (h ++ [o]) = cbind (bb_run G b h) (fun b => bb_step G b o).
Proof. revert b. induction h as [|a h IH]; intros b; cbn; [destruct (bb_step G b o); auto|]. destruct (bb_step G b a); cbn; auto. Qed.
Theorem run_inv h b : bb_run G empty_blackboard h = Done b -> exists D, records h D /\ BInv b D.
Proof.
  revert b. induction h as [|o h IH] using rev_ind; intros b.
  - cbn. intros [= <-]. exists (fun _ => None). split; [constructor|apply empty_inv].
  - rewrite run_app. destruct (bb_run G empty_blackboard h) as [b0| |] eqn:E; try discriminate. cbn [cbind].
    destruct (IH b0 eq_refl) as (D & R & B). destruct o as [z e|z e|old new|f e|f e]; cbn [bb_step].
    + intros [= <-]. exists (d_insert D z e). split; [now constructor|]. apply (insert_inv b0 D z e B).
    + unfold find_symbol. destruct (find_loop (defs b0) (index b0) e) as [[k|]| |]; try discriminate; cbn [cbind fst]; intros [= <-].
      * exists D. split; auto. now constructor.
      * exists (d_insert D z e). split; [now constructor|]. apply (insert_inv b0 D z e B).
    + intros H. exists (d_rename D old new). split; [now constructor|]. pose proof (subst_inv b0 D old new B) as P. now rewrite H in P.
    + intros H. exists D. split; [now constructor|]. pose proof (rewrite_inv b0 D f e B) as P.
      destruct (rewrite_bb G f b0 e); try discriminate. injection H as <-. apply P.
    + intros H. exists D. split; [now constructor|]. pose proof (size_inv b0 D f e B) as P.
      destruct (size_norm_bb f b0 e); try discriminate. injection H as <-. apply P.
Qed.

(** C07 *)
Theorem transparent h b : bb_run G empty_blackboard h = Done b -> exists D, records h D /\
  (forall z, get_definition b z = Done (match D z with Some e => e | None => Sym z end)) /\
  (forall f e, match rewrite_bb G f b e with Done p => expands G D e (snd p) | Undefined => False | Deeper => True end) /\
  (forall e v, expands G D e v -> exists f0, forall f, f0 <= f -> exists b', rewrite_bb G f b e = Done (b', v)).
Proof.
  intros H. apply run_inv in H as (D & R & B). exists D. split; auto. split; [|split].
  - intros z. now apply get_inv.
  - intros f e. pose proof (rewrite_inv b D f e B) as P. destruct (rewrite_bb G f b e); auto. apply P.
  - intros e v X. destruct B as [S W T Iv E]. apply (proj1 (expands_ext D (benv b) (fun z => eq_sym (E z)))) in X.
    destruct (proj1 (rw_complete G (index b) (map rhs (defs b)) (timestamp b) W) e v X) as (f0 & Hf). exists f0. intros f Hle.
    destruct (Hf f Hle (defs b) Iv) as (ds' & _ & E1). unfold rewrite_bb. rewrite E1. cbn. eauto.
Qed.
Theorem size_transparent h b : bb_run G empty_blackboard h = Done b -> exists D, records h D /\
  (forall f e, match size_norm_bb f b e with Done p => exists t, unfolds D e t /\ nodes t = snd p | Undefined => False | Deeper => True end) /\
  (forall e t, unfolds D e t -> exists f0, forall f, f0 <= f -> exists b', size_norm_bb f b e = Done (b', nodes t)).
Proof.
  intros H. apply run_inv in H as (D & R & B). exists D. split; auto. split.
  - intros f e. pose proof (size_inv b D f e B) as P. destruct (size_norm_bb f b e); auto. apply P.
  - intros e t X. destruct B as [S W T Iv E]. apply (proj1 (unfolds_ext D (benv b) (fun z => eq_sym (E z)))) in X.
    destruct (proj1 (sz_complete G (index b) (map rhs (defs b)) (timestamp b) W) e t X) as (f0 & Hf). exists f0. intros f Hle.
    destruct (Hf f Hle (defs b) Iv) as (ds' & _ & E1). unfold size_norm_bb. rewrite E1. cbn. eauto.
Qed.

(** Acyclic dictionaries expand everything. *)
Theorem acyclic_expands D : acyclic D -> forall e, exists v, expands G D e v.
Proof.
  intros [rank HR].
  assert (ST : forall n, (forall z, (D z <> None -> rank z < n) -> exists v, expands G D (Sym z) v) ->
     forall e, (forall y, has y e = true -> D y <> None -> rank y < n) -> exists v, expands G D e v).
  { intros n SYM e.
    assert (LST : forall l, Forall (fun e => (forall y, has y e = true -> D y <> None -> rank y < n) -> exists v, expands G D e v) l ->
       (forall y, existsb (has y) l = true -> D y <> None -> rank y < n) -> exists l', expands_all G D l l').
    { induction 1 as [|a l Ha Hl IH]; intros Hr; [eexists; constructor|].
      destruct Ha as [v Hv]; [intros y Hy; apply Hr; cbn; rewrite Hy; auto|].
      destruct IH as [l' Hl']; [intros y Hy; apply Hr; cbn; rewrite Hy; apply orb_true_r|]. exists (v :: l'). now constructor. }
    induction e using expr_ind'; intros Hr; cbn [has] in Hr.
    - eexists; constructor.
    - eexists; constructor.
    - apply SYM. intros Hd. apply Hr; auto. apply String.eqb_refl.
    - destruct (LST l H Hr) as [l' Hl']. eexists; econstructor; eauto.
    - destruct (LST l H Hr) as [l' Hl']. eexists; econstructor; eauto.
    - destruct IHe1 as [a Ha]; [intros y Hy; apply Hr; rewrite Hy; auto|].
      destruct IHe2 as [c Hc]; [intros y Hy; apply Hr; rewrite Hy; apply orb_true_r|]. eexists; econstructor; eauto.
    - destruct (LST l H Hr) as [l' Hl']. eexists; econstructor; eauto.
    - destruct IHe1 as [a Ha]; [intros y Hy; apply Hr; rewrite Hy, ?orb_true_r; auto|].
      destruct IHe2 as [c Hc]; [intros y Hy; apply Hr; rewrite Hy, ?orb_true_r; auto|].
      destruct IHe3 as [d Hd]; [intros y Hy; apply Hr; rewrite Hy, ?orb_true_r; auto|].
      destruct (SYM k) as [i Hi]; [intros; apply Hr; auto; now rewrite String.eqb_refl|]. eexists; econstructor; eauto.
    - destruct IHe1 as [a Ha]; [intros y Hy; apply Hr; rewrite Hy, ?orb_true_r; auto|].
      destruct IHe2 as [c Hc]; [intros y Hy; apply Hr; rewrite Hy, ?orb_true_r; auto|].
      destruct IHe3 as [d Hd]; [intros y Hy; apply Hr; rewrite Hy, ?orb_true_r; auto|].
      destruct (SYM k) as [i Hi]; [intros; apply Hr; auto; now rewrite String.eqb_refl|]. eexists; econstructor; eauto. }
  assert (SY : forall n z, (D z <> None -> rank z < n) -> exists v, expands G D (Sym z) v).
  { induction n as [|n IHn]; intros z Hz; (destruct (D z) as [d|] eqn:Ez; [|eexists; now constructor]).
    - assert (rank z < 0) by (apply Hz; congruence). lia.
    - destruct (ST n IHn d) as [v Hv].
      + intros y Hy Dy. specialize (HR z d y Ez Hy Dy). assert (rank z < S n) by (apply Hz; congruence). lia.
      + exists v. eapply ex_def; eauto. }
  pose proof (fun n => ST n (SY n)) as L.
  intros e.
  assert (B : forall l : list string, exists n, forall y, In y l -> rank y < n).
  { induction l as [|a l [n Hn]]; [exists 0; intros ? []|]. exists (S (max n (rank a))). intros y [->|Hy]; [lia|]. specialize (Hn y Hy). lia. }
  assert (F : exists l, forall y, has y e = true -> In y l).
  { assert (FL : forall l, Forall (fun e => exists l, forall y, has y e = true -> In y l) l -> exists m, forall y, existsb (has y) l = true -> In y m).
    { induction 1 as [|a l [m1 H1] Hl [m2 H2]]; [exists []; discriminate|]. exists (m1 ++ m2). intros y Hy. cbn in Hy. apply in_or_app. apply orb_true_iff in Hy as [Hy|Hy]; auto. }
    clear - FL. induction e using expr_ind'; cbn [has].
    - exists []. discriminate.
    - exists []. discriminate.
    - exists [s]. intros y Hy. apply String.eqb_eq in Hy. subst. cbn. auto.
    - now apply FL.
    - now apply FL.
    - destruct IHe1 as [l1 H1], IHe2 as [l2 H2]. exists (l1 ++ l2). intros y Hy. apply in_or_app. apply orb_true_iff in Hy as [Hy|Hy]; auto.
    - now apply FL.
    - destruct IHe1 as [l1 H1], IHe2 as [l2 H2], IHe3 as [l3 H3]. exists (k :: l1 ++ l2 ++ l3). intros y Hy. rewrite !orb_true_iff, String.eqb_eq in Hy.
      cbn. rewrite !in_app_iff. intuition.
    - destruct IHe1 as [l1 H1], IHe2 as [l2 H2], IHe3 as [l3 H3]. exists (k :: l1 ++ l2 ++ l3). intros y Hy. rewrite !orb_true_iff, String.eqb_eq in Hy.
      cbn. rewrite !in_app_iff. intuition. }
  destruct F as [l Hl]. destruct (B l) as [n Hn]. apply (L n). auto.
Qed.

(** Values. *)
Section V.
Variable I : interp.
Hypothesis HG : ginac_ok I G.
Variable D : dict.
Hypothesis DA : forall z d, D z = Some d -> indices_apart D d.
Lemma sat_upd rho k t : satisfies I D rho -> D k = None -> (forall z d, D z = Some d -> has k d = false) -> satisfies I D (upd rho k t).
Proof.
  intros S N F z e Hz. rewrite eval_upd_fresh by eauto. rewrite (S z e Hz). f_equal. unfold upd.
  destruct (String.eqb z k) eqn:E; auto. apply String.eqb_eq in E. congruence.
Qed.
Lemma ia_all l : fold_right (fun a P => indices_apart D a /\ P) True l <-> Forall (indices_apart D) l.
Proof. induction l; cbn; split; intros H; auto; try (destruct H; constructor; tauto). inversion H; subst. split; tauto. Qed.
Theorem expands_value :
  (forall e e', expands G D e e' -> forall rho v, satisfies I D rho -> indices_apart D e -> eval I rho e = Some v -> eval I rho e' = Some v) /\
  (forall l l', expands_all G D l l' -> forall rho, satisfies I D rho -> Forall (indices_apart D) l -> 
     (forall v, esum I rho l = Some v -> esum I rho l' = Some v) /\ (forall v, eprod I rho l = Some v -> eprod I rho l' = Some v) /\
     (forall vs, omap (eval I rho) l = Some vs -> omap (eval I rho) l' = Some vs)).
Proof.
  apply expands_ind2; auto.
  - intros z e v Hz X IH rho w S A E. apply IH; eauto. rewrite (S z e Hz). exact E.
  - intros l l' X IH rho v S A E. apply add_all_ok; auto. cbn in A. rewrite ia_all in A. rewrite eval_Add in *. now apply IH.
  - intros l l' X IH rho v S A E. apply mul_all_ok; auto. cbn in A. rewrite ia_all in A. rewrite eval_Mul in *. now apply IH.
  - intros a b a' b' _ IH1 _ IH2 rho v S [A1 A2] E. apply (gpow_ok _ _ HG). cbn [eval] in *.
    destruct (eval I rho a) as [x|] eqn:E1; [|discriminate]. cbn [obind] in *. destruct (eval I rho b) as [y|] eqn:E2; [|discriminate].
    rewrite (IH1 rho x S A1 E1), (IH2 rho y S A2 E2). exact E.
  - intros f l l' X IH rho v S A E. apply (gfun_ok _ _ HG). cbn in A. rewrite ia_all in A. cbn [eval] in *.
    destruct (omap (eval I rho) l) as [vs|] eqn:E1; [|discriminate]. apply IH in E1; auto. rewrite E1. exact E.
  - intros k lo up e k' lo' up' e' X0 _ _ IH1 _ IH2 _ IH3 rho v S ((N & F) & A1 & A2 & A3) E.
    inversion X0; subst; [|congruence]. cbn [apply_sum]. apply (gsum_ok _ _ HG). apply eval_sum_inv in E as (a & b & Ea & Eb & Es).
    apply (eval_sum_intro _ _ _ _ _ _ _ a b); auto. eapply osum_mono; [|exact Es]. intros i Hi u Hu. cbv beta in *. apply IH3; auto. now apply sat_upd.
  - intros k lo up e k' lo' up' e' X0 _ _ IH1 _ IH2 _ IH3 rho v S ((N & F) & A1 & A2 & A3) E.
    inversion X0; subst; [|congruence]. cbn [apply_prod]. apply (gprod_ok _ _ HG). apply eval_prod_inv in E as (a & b & Ea & Eb & Es).
    apply (eval_prod_intro _ _ _ _ _ _ _ a b); auto. eapply oprod_mono; [|exact Es]. intros i Hi u Hu. cbv beta in *. apply IH3; auto. now apply sat_upd.
  - intros a l a' l' _ IH1 _ IH2 rho S A. inversion A; subst. destruct (IH2 rho S H2) as (B1 & B2 & B3). split; [|split].
    + intros v. rewrite !esum_cons, !olift2_some. intros (x & y & Hx & Hy & ->). exists x, y. repeat split; auto.
    + intros v. rewrite !eprod_cons, !olift2_some. intros (x & y & Hx & Hy & ->). exists x, y. repeat split; auto.
    + intros vs. rewrite !omap_cons. destruct (eval I rho a) as [x|] eqn:E1; [|discriminate]. rewrite (IH1 rho x S H1 E1).
      destruct (omap (eval I rho) l) as [ys|] eqn:E2; [|discriminate]. rewrite (B3 ys eq_refl). auto.
Qed.
End V.

(** Renaming one symbol. *)
Theorem rename_ok D old new : old <> new -> D old <> None -> D new = None ->
  (forall z d, D z = Some d -> has old d = false /\ has new d = false) ->
  (forall v, expands G D (Sym old) v <-> expands G (d_rename D old new) (Sym new) v) /\
  (forall e v, has old e = false -> has new e = false -> expands G D e v <-> expands G (d_rename D old new) e v).
Proof.
  intros N Do Dn F. destruct (D old) as [d0|] eqn:Ed; [|congruence].
  set (D' := d_rename D old new).
  assert (E : forall z, z <> old -> z <> new -> D' z = D z).
  { intros z H1 H2. unfold D', d_rename, d_insert, dset. rewrite Ed, Dn. apply String.eqb_neq in H1, H2. now rewrite H1, H2. }
  assert (En : D' new = Some d0).
  { unfold D', d_rename, d_insert, dset. rewrite Ed, Dn. rewrite String.eqb_refl. destruct (String.eqb new old) eqn:X; auto. apply String.eqb_eq in X. congruence. }
  assert (FW : forall D1 D2 : dict, (forall z, z <> old -> z <> new -> D1 z = D2 z) -> (forall z d, z <> old -> z <> new -> D1 z = Some d -> has old d = false /\ has new d = false) ->
     (forall e v, expands G D1 e v -> has old e = false -> has new e = false -> expands G D2 e v) /\
     (forall l l', expands_all G D1 l l' -> existsb (has old) l = false -> existsb (has new) l = false -> expands_all G D2 l l')).
  { intros D1 D2 H12 HF. apply expands_ind2; intros; cbn [has existsb] in *; try (constructor; auto; fail).
    - constructor. rewrite <- H12; auto; apply String.eqb_neq; auto. all: rewrite String.eqb_sym; auto. 
    - assert (z <> old) by (intros ->; rewrite String.eqb_refl in *; discriminate). assert (z <> new) by (intros ->; rewrite String.eqb_refl in *; discriminate).
      destruct (HF z e) as [A B]; auto. eapply ex_def; [rewrite <- H12; eauto|]. auto.
    - apply orb_false_iff in H1 as [? ?], H2 as [? ?]. constructor; auto.
    - rewrite !orb_false_iff in *. constructor; intuition.
    - rewrite !orb_false_iff in *. constructor; intuition.
    - apply orb_false_iff in H1 as [? ?], H2 as [? ?]. constructor; auto. }
  assert (F' : forall z d, z <> old -> z <> new -> D' z = Some d -> has old d = false /\ has new d = false).
  { intros z d H1 H2 H3. rewrite E in H3 by auto. eauto. }
  assert (F1 : forall z d, z <> old -> z <> new -> D z = Some d -> has old d = false /\ has new d = false) by eauto.
  assert (B : forall e v, has old e = false -> has new e = false -> expands G D e v <-> expands G D' e v).
  { intros e v H1 H2. split; intros X.
    - eapply (proj1 (FW D D' (fun z a b => eq_sym (E z a b)) F1)); eauto.
    - eapply (proj1 (FW D' D E F')); eauto. }
  split; auto. intros v. destruct (F old d0 Ed) as [A1 A2]. split; intros X.
  - inversion X; subst; [congruence|]. eapply ex_def; [exact En|]. apply B; congruence.
  - inversion X; subst; [congruence|]. eapply ex_def; [exact Ed|]. apply B; congruence.
Qed.
End H.
