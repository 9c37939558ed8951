(** Proofs about BlackboardModel.v: caches are transparent. *)
From Coq Require Import ZArith QArith Qcanon List String Bool Lia.
From Verif Require Import Ast ExprModel BlackboardModel BlackboardSpec.
Import ListNotations.
Local Open Scope nat_scope.

Scheme expands_mind := Induction for expands Sort Prop with expands_all_mind := Induction for expands_all Sort Prop.
Combined Scheme expands_ind2 from expands_mind, expands_all_mind.
Scheme unfolds_mind := Induction for unfolds Sort Prop with unfolds_all_mind := Induction for unfolds_all Sort Prop.
Combined Scheme unfolds_ind2 from unfolds_mind, unfolds_all_mind.

Definition post {A} (Q : A -> Prop) (c : call A) : Prop := match c with Done a => Q a | Undefined => False | Deeper => True end.
Lemma post_bind {A B} (Q : A -> Prop) (P : B -> Prop) (c : call A) (f : A -> call B) :
  post Q c -> (forall a, Q a -> post P (f a)) -> post P (cbind c f).
Proof. destruct c; cbn; auto. Qed.
Lemma post_mono {A} (Q P : A -> Prop) c : post Q c -> (forall a, Q a -> P a) -> post P c.
Proof. destruct c; cbn; auto. Qed.
Lemma post_done {A} (Q : A -> Prop) c a : post Q c -> c = Done a -> Q a.
Proof. intros H ->. exact H. Qed.

Lemma nth_replace {A} (l : list A) i j a : nth_error (replace_nth i a l) j = if Nat.eqb i j then match nth_error l i with Some _ => Some a | None => None end else nth_error l j.
Proof.
  revert i j. induction l as [|x l IH]; intros [|i] [|j]; cbn [replace_nth nth_error Nat.eqb]; auto.
  destruct (Nat.eqb i j); auto.
Qed.
Lemma map_replace {A B} (f : A -> B) (l : list A) i a b : nth_error l i = Some b -> f a = f b -> map f (replace_nth i a l) = map f l.
Proof.
  revert i. induction l as [|x l IH]; intros [|i]; cbn; try discriminate.
  - intros [= ->] ->. auto.
  - intros H E. f_equal. eauto.
Qed.
Lemma Forall_replace {A} (P : A -> Prop) (l : list A) i a : Forall P l -> P a -> Forall P (replace_nth i a l).
Proof. intros H Ha. revert i. induction H; intros [|i]; cbn; auto. Qed.

Lemma expands_det G D : (forall e a, expands G D e a -> forall b, expands G D e b -> a = b) /\
                    (forall l a, expands_all G D l a -> forall b, expands_all G D l b -> a = b).
Proof.
  apply expands_ind2.
  - intros q b Hb. now inversion Hb.
  - intros q b Hb. now inversion Hb.
  - intros z Hz b Hb. inversion Hb; subst; congruence.
  - intros z e v Hz _ IH b Hb. inversion Hb; subst; [congruence|]. apply IH. congruence.
  - intros l l' _ IH b Hb. inversion Hb; subst. f_equal. auto.
  - intros l l' _ IH b Hb. inversion Hb; subst. f_equal. auto.
  - intros x y x' y' _ IH1 _ IH2 b Hb. inversion Hb; subst. f_equal; auto.
  - intros f l l' _ IH b Hb. inversion Hb; subst. f_equal. auto.
  - intros k lo up e k' lo' up' e' _ IH0 _ IH1 _ IH2 _ IH3 b Hb. inversion Hb; subst. f_equal; auto.
  - intros k lo up e k' lo' up' e' _ IH0 _ IH1 _ IH2 _ IH3 b Hb. inversion Hb; subst. f_equal; auto.
  - intros b Hb. now inversion Hb.
  - intros x l x' l' _ IH1 _ IH2 b Hb. inversion Hb; subst. f_equal; auto.
Qed.

Section R.
Variable G : ginac.
Variable ix : list (string * nat).
Variable rhss : list expr.
Variable ts : nat.
Hypothesis WF : forall z i, map_find z ix = Some i -> i < List.length rhss.
Definition env : dict := fun z => match map_find z ix with Some i => nth_error rhss i | None => None end.
Definition sized (e : expr) (n : nat) : Prop := exists t, unfolds env e t /\ nodes t = n.
Definition okdef (d : definition) : Prop :=
  exp_ts d <= ts /\ (exp_ts d = ts -> expands G env (rhs d) (exp_val d)) /\
  size_ts d <= ts /\ (size_ts d = ts -> sized (rhs d) (size_val d)).
Definition Inv (ds : list definition) : Prop := map rhs ds = rhss /\ Forall okdef ds.

Lemma env_find z i e : map_find z ix = Some i -> nth_error rhss i = Some e -> env z = Some e.
Proof. unfold env. now intros ->. Qed.
Lemma inv_nth ds i d : Inv ds -> nth_error ds i = Some d -> okdef d /\ nth_error rhss i = Some (rhs d).
Proof.
  intros [E F] H. split; [eapply Forall_forall; eauto; eapply nth_error_In; eauto|]. rewrite <- E. now apply map_nth_error.
Qed.
Lemma inv_len ds i : Inv ds -> i < List.length rhss -> exists d, nth_error ds i = Some d.
Proof.
  intros [E _] H. rewrite <- E, map_length in H. destruct (nth_error ds i) eqn:N; eauto. apply nth_error_None in N. lia.
Qed.

(** * rewrite *)
Definition RQ (e : expr) (p : list definition * expr) : Prop := Inv (fst p) /\ expands G env e (snd p).
Definition rdef_ok (rdef : list definition -> nat -> call (list definition * expr)) : Prop :=
  forall ds i e, Inv ds -> nth_error rhss i = Some e -> post (RQ e) (rdef ds i).
Section S.
Variable rdef : list definition -> nat -> call (list definition * expr).
Hypothesis HR : rdef_ok rdef.
Lemma rw_sym_sound ds z : Inv ds -> post (RQ (Sym z)) (rw_sym ix rdef ds z).
Proof.
  intros H. unfold rw_sym. destruct (map_find z ix) as [i|] eqn:E.
  - destruct (nth_error rhss i) as [e|] eqn:N.
    + eapply post_mono; [apply HR; eauto|]. intros p [A B]. split; auto. eapply ex_def; eauto. eapply env_find; eauto.
    + apply WF in E. apply nth_error_None in N. lia.
  - cbn. split; auto. apply ex_free. unfold env. now rewrite E.
Qed.
Lemma rw_sound e : forall ds, Inv ds -> post (RQ e) (rw_expr G ix rdef ds e).
Proof.
  induction e using expr_ind'; intros ds Hd; cbn [rw_expr].
  - split; auto. constructor.
  - split; auto. constructor.
  - apply rw_sym_sound; auto.
  - assert (A : post (fun p => Inv (fst p) /\ exists l', expands_all G env l l' /\ snd p = fold_right (fun a acc => gadd G acc a) (Num 0%Qc) l')
                 (from_last (rw_expr G ix rdef) (gadd G) (Num 0%Qc) ds l)).
    { induction H as [|a l Ha Hl IH]; cbn [from_last].
      - split; auto. exists []. split; auto. constructor.
      - eapply post_bind; [exact IH|]. intros p (I1 & l' & X & E). eapply post_bind; [apply Ha; auto|]. intros q (I2 & Y).
        split; auto. exists (snd q :: l'). split; [constructor; auto|]. cbn. now rewrite E. }
    eapply post_mono; [exact A|]. intros p (I1 & l' & X & E). split; auto. rewrite E. now constructor.
  - assert (A : post (fun p => Inv (fst p) /\ exists l', expands_all G env l l' /\ snd p = fold_right (fun a acc => gmul G acc a) (Num 1%Qc) l')
                 (from_last (rw_expr G ix rdef) (gmul G) (Num 1%Qc) ds l)).
    { induction H as [|a l Ha Hl IH]; cbn [from_last].
      - split; auto. exists []. split; auto. constructor.
      - eapply post_bind; [exact IH|]. intros p (I1 & l' & X & E). eapply post_bind; [apply Ha; auto|]. intros q (I2 & Y).
        split; auto. exists (snd q :: l'). split; [constructor; auto|]. cbn. now rewrite E. }
    eapply post_mono; [exact A|]. intros p (I1 & l' & X & E). split; auto. rewrite E. now constructor.
  - eapply post_bind; [apply IHe1; auto|]. intros p [I1 X]. eapply post_bind; [apply IHe2; auto|]. intros q [I2 Y].
    split; auto. cbn. now constructor.
  - assert (A : forall ds, Inv ds -> post (fun p => Inv (fst p) /\ expands_all G env l (snd p)) (from_first (rw_expr G ix rdef) ds l)).
    { induction H as [|a l Ha Hl IH]; intros ds' Hd'; cbn [from_first].
      - split; auto. constructor.
      - eapply post_bind; [apply Ha; auto|]. intros p (I1 & X). eapply post_bind; [apply IH; auto|]. intros q (I2 & Y). split; auto. now constructor. }
    eapply post_bind; [apply A; auto|]. intros p (I1 & X). split; auto. now constructor.
  - eapply post_bind; [apply rw_sym_sound; auto|]. intros i [I0 W]. eapply post_bind; [apply IHe1; auto|]. intros p [I1 X].
    eapply post_bind; [apply IHe2; auto|]. intros q [I2 Y]. eapply post_bind; [apply IHe3; auto|]. intros r [I3 Z].
    split; auto. cbn. now constructor.
  - eapply post_bind; [apply rw_sym_sound; auto|]. intros i [I0 W]. eapply post_bind; [apply IHe1; auto|]. intros p [I1 X].
    eapply post_bind; [apply IHe2; auto|]. intros q [I2 Y]. eapply post_bind; [apply IHe3; auto|]. intros r [I3 Z].
    split; auto. cbn. now constructor.
Qed.
End S.
Lemma rw_def_sound fuel : rdef_ok (rw_def G ix ts fuel).
Proof.
  induction fuel as [|fuel IH]; intros ds i e Hd He; cbn [rw_def]; [exact Logic.I|].
  destruct (inv_len ds i Hd) as [d Ed]; [apply nth_error_Some; congruence|]. rewrite Ed.
  destruct (inv_nth _ _ _ Hd Ed) as [(O1 & O2 & O3 & O4) Er]. rewrite He in Er. injection Er as Er. subst e.
  destruct (Nat.ltb_spec (exp_ts d) ts).
  - eapply post_bind; [apply rw_sound; eauto|]. intros p [I1 X].
    destruct (inv_len (fst p) i I1) as [d' Ed']; [apply nth_error_Some; congruence|]. rewrite Ed'.
    destruct (inv_nth _ _ _ I1 Ed') as [(P1 & P2 & P3 & P4) Er']. rewrite He in Er'. injection Er' as Er'.
    split; [split|exact X].
    + cbn [fst]. rewrite (map_replace rhs _ _ _ d' Ed'); [apply I1|reflexivity].
    + cbn [fst]. apply Forall_replace; [apply I1|]. unfold okdef. cbn. rewrite <- Er'. repeat split; auto. now rewrite Er'.
  - split; auto. cbn. apply O2. lia.
Qed.

(** Completeness: enough fuel finds the expansion. *)
Lemma done_of_post {A} (Q : A -> Prop) c a : c = Done a -> post Q c -> Q a. Proof. now intros ->. Qed.
Lemma expands_find z i e : map_find z ix = Some i -> env z = Some e -> nth_error rhss i = Some e.
Proof. unfold env. now intros ->. Qed.
Definition finds (f : nat) (e v : expr) : Prop := forall ds, Inv ds -> exists ds', Inv ds' /\ rw_expr G ix (rw_def G ix ts f) ds e = Done (ds', v).
Lemma rw_complete :
  (forall e v, expands G env e v -> exists f0, forall f, f0 <= f -> finds f e v) /\
  (forall l l', expands_all G env l l' -> exists f0, forall f, f0 <= f ->
     (forall ds, Inv ds -> exists ds', Inv ds' /\ from_first (rw_expr G ix (rw_def G ix ts f)) ds l = Done (ds', l')) /\
     (forall op u ds, Inv ds -> exists ds', Inv ds' /\ from_last (rw_expr G ix (rw_def G ix ts f)) op u ds l = Done (ds', fold_right (fun a acc => op acc a) u l'))).
Proof.
  assert (SQ : forall f ds e ds' v, Inv ds -> rw_expr G ix (rw_def G ix ts f) ds e = Done (ds', v) -> Inv ds').
  { intros f ds e ds' v Hd E. pose proof (rw_sound _ (rw_def_sound f) e ds Hd) as P. rewrite E in P. apply P. }
  apply expands_ind2.
  - intros q. exists 0. intros f _ ds Hd. exists ds. split; auto.
  - intros c. exists 0. intros f _ ds Hd. exists ds. split; auto.
  - intros z Hz. exists 0. intros f _ ds Hd. exists ds. split; auto. cbn. unfold rw_sym. unfold env in Hz.
    destruct (map_find z ix) as [i|] eqn:E; auto. apply WF in E. apply nth_error_None in Hz. lia.
  - intros z e v Hz X (f0 & IH). exists (S f0). intros f Hf ds Hd. destruct f as [|f]; [lia|].
    cbn [rw_expr]. unfold rw_sym. destruct (map_find z ix) as [i|] eqn:E; [|unfold env in Hz; rewrite E in Hz; discriminate].
    pose proof (expands_find _ _ _ E Hz) as N. cbn [rw_def].
    destruct (inv_len ds i Hd) as [d Ed]; [apply nth_error_Some; congruence|].
    destruct (inv_nth _ _ _ Hd Ed) as [(O1 & O2 & O3 & O4) Er]. rewrite N in Er. injection Er as Er. subst e.
    pose proof (rw_def_sound (S f) ds i (rhs d) Hd N) as PS. cbn [rw_def] in PS.
    rewrite Ed in *. destruct (Nat.ltb_spec (exp_ts d) ts).
    + destruct (IH f ltac:(lia) ds Hd) as (ds1 & I1 & E1). rewrite E1 in *. cbn [cbind fst snd] in *.
      destruct (nth_error ds1 i); [|destruct PS]. eexists. split; [apply PS|reflexivity].
    + exists ds. split; auto. do 2 f_equal.
      eapply (proj1 (expands_det G env)); [apply O2; lia|exact X].
  - intros l l' X (f0 & IH). exists f0. intros f Hf ds Hd. destruct (IH f Hf) as [_ B]. apply (B (gadd G) (Num 0%Qc) ds Hd).
  - intros l l' X (f0 & IH). exists f0. intros f Hf ds Hd. destruct (IH f Hf) as [_ B]. apply (B (gmul G) (Num 1%Qc) ds Hd).
  - intros a b a' b' X (f1 & H1) Y (f2 & H2). exists (max f1 f2). intros f Hf ds Hd.
    destruct (H1 f ltac:(lia) ds Hd) as (d1 & I1 & E1). destruct (H2 f ltac:(lia) d1 I1) as (d2 & I2 & E2).
    exists d2. split; auto. cbn [rw_expr]. rewrite E1. cbn. rewrite E2. reflexivity.
  - intros f l l' X (f0 & IH). exists f0. intros f' Hf ds Hd. destruct (IH f' Hf) as [B _]. destruct (B ds Hd) as (d1 & I1 & E1).
    exists d1. split; auto. cbn [rw_expr]. rewrite E1. reflexivity.
  - intros k lo up e k' lo' up' e' X0 (f0 & H0) X1 (f1 & H1) X2 (f2 & H2) X3 (f3 & H3).
    exists (max (max f0 f1) (max f2 f3)). intros f Hf ds Hd.
    destruct (H0 f ltac:(lia) ds Hd) as (d0 & I0 & E0). destruct (H1 f ltac:(lia) d0 I0) as (d1 & I1 & E1).
    destruct (H2 f ltac:(lia) d1 I1) as (d2 & I2 & E2). destruct (H3 f ltac:(lia) d2 I2) as (d3 & I3 & E3).
    exists d3. split; auto. cbn [rw_expr] in *. rewrite E0. cbn. rewrite E1. cbn. rewrite E2. cbn. rewrite E3. reflexivity.
  - intros k lo up e k' lo' up' e' X0 (f0 & H0) X1 (f1 & H1) X2 (f2 & H2) X3 (f3 & H3).
    exists (max (max f0 f1) (max f2 f3)). intros f Hf ds Hd.
    destruct (H0 f ltac:(lia) ds Hd) as (d0 & I0 & E0). destruct (H1 f ltac:(lia) d0 I0) as (d1 & I1 & E1).
    destruct (H2 f ltac:(lia) d1 I1) as (d2 & I2 & E2). destruct (H3 f ltac:(lia) d2 I2) as (d3 & I3 & E3).
    exists d3. split; auto. cbn [rw_expr] in *. rewrite E0. cbn. rewrite E1. cbn. rewrite E2. cbn. rewrite E3. reflexivity.
  - exists 0. intros f _. split; intros; cbn; eauto.
  - intros a l a' l' X (f1 & H1) Y (f2 & H2). exists (max f1 f2). intros f Hf. destruct (H2 f ltac:(lia)) as [A B]. split.
    + intros ds Hd. destruct (H1 f ltac:(lia) ds Hd) as (d1 & I1 & E1). destruct (A d1 I1) as (d2 & I2 & E2). exists d2. split; auto.
      cbn [from_first]. rewrite E1. cbn [cbind fst]. fold (from_first (rw_expr G ix (rw_def G ix ts f)) d1 l). rewrite E2. reflexivity.
    + intros op u ds Hd. destruct (B op u ds Hd) as (d2 & I2 & E2). destruct (H1 f ltac:(lia) d2 I2) as (d1 & I1 & E1). exists d1. split; auto.
      cbn [from_last fold_right]. fold (from_last (rw_expr G ix (rw_def G ix ts f)) op u ds l). rewrite E2. cbn [cbind fst snd]. rewrite E1. reflexivity.
Qed.

(** * size_norm *)
Definition SQ (e : expr) (p : list definition * nat) : Prop := Inv (fst p) /\ sized e (snd p).
Definition sdef_ok (sdef : list definition -> nat -> call (list definition * nat)) : Prop :=
  forall ds i e, Inv ds -> nth_error rhss i = Some e -> post (SQ e) (sdef ds i).
Section S2.
Variable sdef : list definition -> nat -> call (list definition * nat).
Hypothesis HR : sdef_ok sdef.
Lemma sz_sym_sound ds z : Inv ds -> post (SQ (Sym z)) (sz_sym ix sdef ds z).
Proof.
  intros H. unfold sz_sym. destruct (map_find z ix) as [i|] eqn:E.
  - destruct (nth_error rhss i) as [e|] eqn:N.
    + eapply post_mono; [apply HR; eauto|]. intros p [A (t & B & C)]. split; auto. exists t. split; auto. eapply uf_def; eauto. eapply env_find; eauto.
    + apply WF in E. apply nth_error_None in N. lia.
  - cbn. split; auto. exists Leaf. split; auto. apply uf_leaf. right. right. exists z. split; auto. unfold env. now rewrite E.
Qed.
Lemma sz_sound e : forall ds, Inv ds -> post (SQ e) (sz_expr ix sdef ds e).
Proof.
  assert (L : forall l, Forall (fun e => forall ds, Inv ds -> post (SQ e) (sz_expr ix sdef ds e)) l -> forall ds, Inv ds ->
     post (fun p => Inv (fst p) /\ exists tl, unfolds_all env l tl /\ snd p = S (list_sum (map nodes tl))) (from_last (sz_expr ix sdef) Nat.add 1 ds l)).
  { induction 1 as [|a l Ha Hl IH]; intros ds Hd; cbn [from_last].
    - split; auto. exists []. split; auto. constructor.
    - eapply post_bind; [apply IH; auto|]. intros p (I1 & tl & X & E). eapply post_bind; [apply Ha; auto|]. intros q (I2 & t & Y & T).
      split; auto. exists (t :: tl). split; [constructor; auto|]. cbn. rewrite E, T. unfold list_sum. lia. }
  induction e using expr_ind'; intros ds Hd; cbn [sz_expr].
  - split; auto. exists Leaf. split; auto. apply uf_leaf. eauto.
  - split; auto. exists Leaf. split; auto. apply uf_leaf. eauto.
  - apply sz_sym_sound; auto.
  - eapply post_mono; [apply (L l H ds Hd)|]. intros p (I1 & tl & X & E). split; auto. exists (Node tl). split; [constructor; cbn; auto|]. now rewrite E.
  - eapply post_mono; [apply (L l H ds Hd)|]. intros p (I1 & tl & X & E). split; auto. exists (Node tl). split; [constructor; cbn; auto|]. now rewrite E.
  - eapply post_bind; [apply IHe1; auto|]. intros p (I1 & t1 & X & E1). eapply post_bind; [apply IHe2; auto|]. intros q (I2 & t2 & Y & E2).
    split; auto. exists (Node [t1; t2]). split; [constructor; cbn; auto; repeat constructor; auto|]. cbn. rewrite E1, E2. lia.
  - eapply post_mono; [apply (L l H ds Hd)|]. intros p (I1 & tl & X & E). split; auto. exists (Node tl). split; [constructor; cbn; auto|]. now rewrite E.
  - eapply post_bind; [apply IHe3; auto|]. intros r (I3 & t3 & X3 & E3). eapply post_bind; [apply IHe2; auto|]. intros q (I2 & t2 & X2 & E2).
    eapply post_bind; [apply IHe1; auto|]. intros p (I1 & t1 & X1 & E1). eapply post_bind; [apply sz_sym_sound; auto|]. intros i (I0 & t0 & X0 & E0).
    split; auto. exists (Node [t0; t1; t2; t3]). split; [constructor; cbn; auto; repeat constructor; auto|]. cbn. rewrite E0, E1, E2, E3. lia.
  - eapply post_bind; [apply IHe3; auto|]. intros r (I3 & t3 & X3 & E3). eapply post_bind; [apply IHe2; auto|]. intros q (I2 & t2 & X2 & E2).
    eapply post_bind; [apply IHe1; auto|]. intros p (I1 & t1 & X1 & E1). eapply post_bind; [apply sz_sym_sound; auto|]. intros i (I0 & t0 & X0 & E0).
    split; auto. exists (Node [t0; t1; t2; t3]). split; [constructor; cbn; auto; repeat constructor; auto|]. cbn. rewrite E0, E1, E2, E3. lia.
Qed.
End S2.
Lemma sz_def_sound fuel : sdef_ok (sz_def ix ts fuel).
Proof.
  induction fuel as [|fuel IH]; intros ds i e Hd He; cbn [sz_def]; [exact Logic.I|].
  destruct (inv_len ds i Hd) as [d Ed]; [apply nth_error_Some; congruence|]. rewrite Ed.
  destruct (inv_nth _ _ _ Hd Ed) as [(O1 & O2 & O3 & O4) Er]. rewrite He in Er. injection Er as Er. subst e.
  destruct (Nat.ltb_spec (size_ts d) ts).
  - eapply post_bind; [apply sz_sound; eauto|]. intros p [I1 X].
    destruct (inv_len (fst p) i I1) as [d' Ed']; [apply nth_error_Some; congruence|]. rewrite Ed'.
    destruct (inv_nth _ _ _ I1 Ed') as [(P1 & P2 & P3 & P4) Er']. rewrite He in Er'. injection Er' as Er'.
    split; [split|exact X].
    + cbn [fst]. rewrite (map_replace rhs _ _ _ d' Ed'); [apply I1|reflexivity].
    + cbn [fst]. apply Forall_replace; [apply I1|]. unfold okdef. cbn. rewrite <- Er'. repeat split; auto. now rewrite Er'.
  - split; auto. cbn. apply O4. lia.
Qed.
Lemma unfolds_det : (forall e a, unfolds env e a -> forall b, unfolds env e b -> a = b) /\
                    (forall l a, unfolds_all env l a -> forall b, unfolds_all env l b -> a = b).
Proof.
  apply unfolds_ind2.
  - intros e H b Hb. inversion Hb; subst; auto.
    + exfalso. destruct H as [[q E]|[[c E]|[z' [E N]]]]; try discriminate. injection E as ->. congruence.
    + exfalso. destruct H as [[q E]|[[c E]|[z' [E N]]]]; subst; cbn in *; auto.
  - intros z e t Hz Ht IH b Hb. inversion Hb; subst.
    + destruct H as [[q E]|[[c E]|[z' [E N]]]]; try discriminate. injection E as ->. congruence.
    + apply IH. congruence.
    + cbn in H. tauto.
  - intros e l C Hl IH b Hb. inversion Hb; subst.
    + exfalso. destruct H as [[q E]|[[c E]|[z' [E N]]]]; subst; cbn in *; auto.
    + cbn in C. tauto.
    + f_equal. auto.
  - intros b Hb. inversion Hb; auto.
  - intros a l t tl Ha IHa Hl IHl b Hb. inversion Hb; subst. f_equal; auto.
Qed.
Definition finds_size (f : nat) (e : expr) (n : nat) : Prop := forall ds, Inv ds -> exists ds', Inv ds' /\ sz_expr ix (sz_def ix ts f) ds e = Done (ds', n).
Lemma sz_complete :
  (forall e t, unfolds env e t -> exists f0, forall f, f0 <= f -> finds_size f e (nodes t)) /\
  (forall l tl, unfolds_all env l tl -> exists f0, forall f, f0 <= f -> Forall2 (finds_size f) l (map nodes tl)).
Proof.
  apply unfolds_ind2.
  - intros e H. exists 0. intros f _ ds Hd. exists ds. split; auto.
    destruct H as [[q ->]|[[c ->]|[z [-> Hz]]]]; auto. cbn. unfold sz_sym. unfold env in Hz.
    destruct (map_find z ix) as [i|] eqn:E; auto. apply WF in E. apply nth_error_None in Hz. lia.
  - intros z e t Hz X (f0 & IH). exists (S f0). intros f Hf ds Hd. destruct f as [|f]; [lia|].
    cbn [sz_expr]. unfold sz_sym. destruct (map_find z ix) as [i|] eqn:E; [|unfold env in Hz; rewrite E in Hz; discriminate].
    pose proof (expands_find _ _ _ E Hz) as N. cbn [sz_def].
    destruct (inv_len ds i Hd) as [d Ed]; [apply nth_error_Some; congruence|].
    destruct (inv_nth _ _ _ Hd Ed) as [(O1 & O2 & O3 & O4) Er]. rewrite N in Er. injection Er as Er. subst e.
    pose proof (sz_def_sound (S f) ds i (rhs d) Hd N) as PS. cbn [sz_def] in PS.
    rewrite Ed in *. destruct (Nat.ltb_spec (size_ts d) ts).
    + destruct (IH f ltac:(lia) ds Hd) as (ds1 & I1 & E1). rewrite E1 in *. cbn [cbind fst snd] in *.
      destruct (nth_error ds1 i); [|destruct PS]. eexists. split; [apply PS|reflexivity].
    + exists ds. split; auto. do 2 f_equal. destruct (O4 ltac:(lia)) as (t' & Ht' & <-). f_equal. eapply unfolds_det; eauto.
  - intros e l C X (f0 & IH). exists f0. intros f Hf ds Hd. specialize (IH f Hf).
    assert (L : forall l tl, Forall2 (finds_size f) l (map nodes tl) -> forall ds, Inv ds -> exists ds', Inv ds' /\
       from_last (sz_expr ix (sz_def ix ts f)) Nat.add 1 ds l = Done (ds', S (list_sum (map nodes tl)))).
    { clear. intros l tl. revert l. induction tl as [|t tl IHt]; intros l F ds Hd; inversion F as [|x0 ? l0 ? F1 F2]; subst; cbn [from_last map].
      - exists ds. auto.
      - destruct (IHt _ F2 ds Hd) as (d1 & I1 & E1). destruct (F1 d1 I1) as (d2 & I2 & E2). exists d2. split; auto.
        fold (from_last (sz_expr ix (sz_def ix ts f)) Nat.add 1 ds l0). rewrite E1. cbn [cbind fst snd]. rewrite E2. cbn. do 2 f_equal. unfold list_sum. lia. }
    destruct e; cbn in C; try tauto; cbn [ops] in IH.
    + destruct (L _ _ IH ds Hd) as (d1 & I1 & E1). exists d1. split; auto.
    + destruct (L _ _ IH ds Hd) as (d1 & I1 & E1). exists d1. split; auto.
    + inversion IH as [|? n1 ? l1 A1 B1 Ea Eb]; subst. inversion B1 as [|? n2 ? l2 A2 B2 Ec Ed]; subst. inversion B2; subst.
      destruct (A1 ds Hd) as (d1 & I1 & E1). destruct (A2 d1 I1) as (d2 & I2 & E2). exists d2. split; auto. cbn [sz_expr]. rewrite E1. cbn [cbind fst snd]. rewrite E2.
      cbn [cbind fst snd]. do 2 f_equal. cbn [nodes]. rewrite <- Eb. unfold list_sum. cbn. lia.
    + destruct (L _ _ IH ds Hd) as (d1 & I1 & E1). exists d1. split; auto.
    + inversion IH as [|? n1 ? l1 A1 B1 Ea Eb]; subst. inversion B1 as [|? n2 ? l2 A2 B2 Ec Ed]; subst. inversion B2 as [|? n3 ? l3 A3 B3 Ee Ef]; subst. inversion B3 as [|? n4 ? l4 A4 B4 Eg Eh]; subst. inversion B4; subst.
      destruct (A4 ds Hd) as (d4 & I4 & E4). destruct (A3 d4 I4) as (d3 & I3 & E3). destruct (A2 d3 I3) as (d2 & I2 & E2). destruct (A1 d2 I2) as (d1 & I1 & E1).
      exists d1. split; auto. cbn [sz_expr] in *. rewrite E4. cbn [cbind fst snd]. rewrite E3. cbn [cbind fst snd]. rewrite E2. cbn [cbind fst snd]. rewrite E1. cbn [cbind fst snd].
      do 2 f_equal. cbn [nodes]. rewrite <- Eb. unfold list_sum. cbn. lia.
    + inversion IH as [|? n1 ? l1 A1 B1 Ea Eb]; subst. inversion B1 as [|? n2 ? l2 A2 B2 Ec Ed]; subst. inversion B2 as [|? n3 ? l3 A3 B3 Ee Ef]; subst. inversion B3 as [|? n4 ? l4 A4 B4 Eg Eh]; subst. inversion B4; subst.
      destruct (A4 ds Hd) as (d4 & I4 & E4). destruct (A3 d4 I4) as (d3 & I3 & E3). destruct (A2 d3 I3) as (d2 & I2 & E2). destruct (A1 d2 I2) as (d1 & I1 & E1).
      exists d1. split; auto. cbn [sz_expr] in *. rewrite E4. cbn [cbind fst snd]. rewrite E3. cbn [cbind fst snd]. rewrite E2. cbn [cbind fst snd]. rewrite E1. cbn [cbind fst snd].
      do 2 f_equal. cbn [nodes]. rewrite <- Eb. unfold list_sum. cbn. lia.
  - exists 0. intros f _. constructor.
  - intros a l t tl Ha (f1 & H1) Hl (f2 & H2). exists (max f1 f2). intros f Hf. cbn [map]. constructor; [apply H1; lia|apply H2; lia].
Qed.
End R.
