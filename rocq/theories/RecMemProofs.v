From Coq Require Import List Bool Arith Lia.
From Verif Require Import RecMemModel RecMemSpec.
Import ListNotations.
Local Open Scope list_scope.
Local Open Scope nat_scope.

Definition owns (o : robject) (a : nat) : Prop := In (Some a) (o_ptrs o).
Record Inv (m : mem) (u : nat -> bool) : Prop := MkInv {
  i_live : forall i o a, objects m i = Some o -> owns o a -> In a (h_live (the_heap m));
  i_next : forall a, In a (h_live (the_heap m)) -> a < h_next (the_heap m);
  i_nodup : NoDup (h_live (the_heap m));
  i_one : forall i o p q a, objects m i = Some o -> nth_error (o_ptrs o) p = Some (Some a) -> nth_error (o_ptrs o) q = Some (Some a) -> p = q;
  i_sep : forall i j o o' a, objects m i = Some o -> objects m j = Some o' -> owns o a -> owns o' a -> i = j;
  i_unused : forall i o, objects m i = Some o -> u i = false -> o_ptrs o = [None; None; None; None] /\ o_done o = false;
  i_four : forall i o, objects m i = Some o -> length (o_ptrs o) = 4 }.
Lemma in_ex a l : existsb (Nat.eqb a) l = true <-> In a l.
Proof. rewrite existsb_exists. split; [intros (x & H & E); apply Nat.eqb_eq in E; now subst|intros H; exists a; split; auto; apply Nat.eqb_refl]. Qed.
Lemma remove_ok a l x : In x (List.remove Nat.eq_dec a l) <-> In x l /\ x <> a.
Proof. split; [intros H; now apply in_remove in H|intros [H N]; now apply in_in_remove]. Qed.
Lemma remove_nodup a l : NoDup l -> NoDup (List.remove Nat.eq_dec a l).
Proof. induction 1 as [|x l N H IH]; cbn; [constructor|]. destruct (Nat.eq_dec a x); auto. constructor; auto. rewrite remove_ok. tauto. Qed.
Lemma delete_all_ok l : forall h, (forall a, In (Some a) l -> In a (h_live h)) -> (forall p q a, nth_error l p = Some (Some a) -> nth_error l q = Some (Some a) -> p = q) ->
  exists h', delete_all l h = Some h' /\ h_next h' = h_next h /\ (forall x, In x (h_live h') <-> In x (h_live h) /\ ~ In (Some x) l) /\ (NoDup (h_live h) -> NoDup (h_live h')).
Proof.
  induction l as [|p l IH]; intros h HL H1; cbn [delete_all].
  - exists h. split; auto. split; auto. split; auto. intros x. cbn. tauto.
  - destruct p as [a|]; cbn [delete].
    + assert (A : In a (h_live h)) by (apply HL; now left). apply in_ex in A. rewrite A.
      assert (NA : ~ In (Some a) l). { intros H. apply In_nth_error in H as [k K]. assert (0 = S k) by (apply (H1 0 (S k) a); auto). discriminate. }
      destruct (IH (MkHeap (List.remove Nat.eq_dec a (h_live h)) (h_next h))) as (h' & E & N & C & D).
      * intros b Hb. cbn. rewrite remove_ok. split; [apply HL; now right|]. intros ->. tauto.
      * intros p q b P Q. assert (S p = S q) by (apply (H1 (S p) (S q) b); auto). lia.
      * exists h'. split; auto. split; auto. split.
        -- intros x. rewrite C. cbn. rewrite remove_ok. split; [intros [[X1 X2] X3]; split; auto; intros [[= X]|X]; congruence || tauto|].
           intros [X1 X2]. split; [split; auto; intros ->; tauto|tauto].
        -- intros X. apply D. cbn. now apply remove_nodup.
    + destruct (IH h) as (h' & E & N & C & D); [intros b Hb; apply HL; now right|intros p q b P Q; assert (S p = S q) by (apply (H1 (S p) (S q) b); auto); lia|].
      exists h'. split; auto. split; auto. split; auto. intros x. rewrite C. cbn. split; intros [X1 X2]; split; auto; try tauto. intros [X|X]; [discriminate|tauto].
Qed.
Lemma set_nth_nth k p l q : nth_error (set_nth k p l) q = if q =? k then (if k <? length l then Some p else nth_error l q) else nth_error l q.
Proof.
  revert k q. induction l as [|x l IH]; intros k q; destruct k as [|k], q as [|q]; cbn [set_nth nth_error length Nat.eqb Nat.ltb]; auto.
  - now destruct (q =? k).
  - rewrite IH. destruct (q =? k); auto.
Qed.
Lemma set_nth_length k p l : length (set_nth k p l) = length l.
Proof. revert k. induction l; intros [|k]; cbn; auto. Qed.
Lemma set_nth_in k p l x : In x (set_nth k p l) -> x = p \/ In x l.
Proof. revert k. induction l as [|y l IH]; intros [|k]; cbn; intros H; auto; destruct H as [H|H]; auto. apply IH in H as [H|H]; auto. Qed.

Lemma fresh m u a : Inv m u -> h_next (the_heap m) <= a -> forall i o, objects m i = Some o -> ~ owns o a.
Proof. intros I L i o E H. pose proof (i_next _ _ I a (i_live _ _ I i o a E H)). lia. Qed.
Lemma inv_copy m u i j o : Inv m u -> objects m j = Some o -> u j = false -> u i = false \/ True -> Inv (set_obj m i (Some o)) u.
Proof.
  intros I E U _. destruct (i_unused _ _ I j o E U) as [P D].
  assert (NO : forall a, ~ owns o a). { intros a H. unfold owns in H. rewrite P in H. cbn in H. intuition discriminate. }
  constructor; cbn.
  - intros k o' a H Ho. destruct (k =? i); [inversion H; subst; now apply NO in Ho|]. now apply (i_live _ _ I k o').
  - apply (i_next _ _ I).
  - apply (i_nodup _ _ I).
  - intros k o' p q a H. destruct (k =? i); [|now apply (i_one _ _ I k o')]. inversion H; subst. intros Hp _. exfalso. apply (NO a). unfold owns. now apply nth_error_In in Hp.
  - intros k k' o1 o2 a H1 H2 O1 O2. destruct (k =? i); [inversion H1; subst; now apply NO in O1|]. destruct (k' =? i); [inversion H2; subst; now apply NO in O2|]. now apply (i_sep _ _ I k k' o1 o2 a).
  - intros k o' H K. destruct (k =? i); [inversion H; subst; auto|]. now apply (i_unused _ _ I k o').
  - intros k o' H. destruct (k =? i); [inversion H; subst; now rewrite P|]. now apply (i_four _ _ I k o').
Qed.
Lemma inv_step c m u : Inv m u -> (match c with MCopy _ j | MAssign _ j => u j = false | _ => True end) ->
  exists m', mstep c m = Some m' /\ Inv m' (match c with MClassify i _ => fun j => if j =? i then true else u j | _ => u end).
Proof.
  intros I D. destruct c as [i|i j|i j|i|i kind|i|i]; cbn [mstep].
  - destruct (objects m i) as [o|] eqn:E; [exists m; auto|]. eexists. split; [reflexivity|].
    set (n := MkObj false [None; None; None; None]). assert (NO : forall a, ~ owns n a) by (intros a H; cbv in H; intuition discriminate).
    constructor; cbn.
    + intros k o' a H Ho. destruct (k =? i); [inversion H; subst; now apply NO in Ho|]. now apply (i_live _ _ I k o').
    + apply (i_next _ _ I).
    + apply (i_nodup _ _ I).
    + intros k o' p q a H. destruct (k =? i); [|now apply (i_one _ _ I k o')]. inversion H; subst. intros Hp _. exfalso. apply (NO a). now apply nth_error_In in Hp.
    + intros k k' o1 o2 a H1 H2 O1 O2. destruct (k =? i); [inversion H1; subst; now apply NO in O1|]. destruct (k' =? i); [inversion H2; subst; now apply NO in O2|]. now apply (i_sep _ _ I k k' o1 o2 a).
    + intros k o' H K. destruct (k =? i); [inversion H; subst; auto|]. now apply (i_unused _ _ I k o').
    + intros k o' H. destruct (k =? i); [inversion H; subst; auto|]. now apply (i_four _ _ I k o').
  - destruct (objects m i) eqn:Ei, (objects m j) as [o|] eqn:Ej; eauto. eexists. split; [reflexivity|]. apply (inv_copy m u i j); auto.
  - destruct (objects m i) eqn:Ei, (objects m j) as [o|] eqn:Ej; eauto. eexists. split; [reflexivity|]. apply (inv_copy m u i j); auto.
  - destruct (objects m i) as [o|] eqn:E; eauto. eexists. split; [reflexivity|].
    assert (OW : forall k o', objects (set_obj m i (Some (MkObj false (o_ptrs o)))) k = Some o' -> exists o'', objects m k = Some o'' /\ o_ptrs o' = o_ptrs o'' /\ (o_done o'' = false -> o_done o' = false)).
    { cbn. intros k o' H. destruct (Nat.eqb_spec k i) as [->|]; [inversion H; subst; exists o; auto|exists o'; auto]. }
    constructor; cbn [the_heap set_obj].
    + intros k o' a H Ho. destruct (OW k o' H) as (o'' & E' & P & _). apply (i_live _ _ I k o''); auto. unfold owns in *. now rewrite <- P.
    + apply (i_next _ _ I).
    + apply (i_nodup _ _ I).
    + intros k o' p q a H. destruct (OW k o' H) as (o'' & E' & P & _). rewrite P. now apply (i_one _ _ I k o'').
    + intros k k' o1 o2 a H1 H2 O1 O2. destruct (OW k o1 H1) as (o1' & E1 & P1 & _), (OW k' o2 H2) as (o2' & E2 & P2 & _). unfold owns in *. rewrite P1 in O1. rewrite P2 in O2. now apply (i_sep _ _ I k k' o1' o2' a).
    + intros k o' H K. destruct (OW k o' H) as (o'' & E' & P & D'). destruct (i_unused _ _ I k o'' E' K) as [A B]. rewrite P. auto.
    + intros k o' H. destruct (OW k o' H) as (o'' & E' & P & _). rewrite P. now apply (i_four _ _ I k o'').
  - assert (MONO : Inv m (fun j => if j =? i then true else u j)).
    { destruct I. constructor; auto. intros k o H K. destruct (k =? i); [discriminate|]. eauto. }
    destruct (objects m i) as [o|] eqn:E; eauto. destruct (o_done o) eqn:D'; eauto. destruct (Nat.ltb_spec kind 4) as [L4|L4]; eexists; (split; [reflexivity|]).
    + set (a0 := h_next (the_heap m)). pose proof (i_four _ _ I i o E) as F4.
      assert (FR : forall k o', objects m k = Some o' -> ~ owns o' a0) by (apply (fresh m u a0 I); unfold a0; lia).
      assert (NW : forall a, owns (MkObj true (set_nth kind (Some a0) (o_ptrs o))) a -> a = a0 \/ owns o a).
      { intros a H. unfold owns in *. cbn in H. apply set_nth_in in H as [[= ->]|H]; auto. }
      constructor; cbn.
      * intros k o' a H Ho. destruct (Nat.eqb_spec k i) as [->|]; [|right; now apply (i_live _ _ I k o')]. inversion H; subst. apply NW in Ho as [->|Ho]; auto. right. now apply (i_live _ _ I i o).
      * intros a [<-|H]; [unfold a0; lia|]. pose proof (i_next _ _ I a H). lia.
      * constructor; [|apply (i_nodup _ _ I)]. intros H. pose proof (i_next _ _ I a0 H). unfold a0 in *. lia.
      * intros k o' p q a H. destruct (Nat.eqb_spec k i) as [->|]; [|now apply (i_one _ _ I k o')]. inversion H; subst. cbn [o_ptrs]. rewrite !set_nth_nth, F4.
        assert (K4 : (kind <? 4) = true) by (apply Nat.ltb_lt; auto). rewrite K4.
        destruct (Nat.eqb_spec p kind) as [->|], (Nat.eqb_spec q kind) as [->|]; auto.
        -- intros [= <-] Hq. exfalso. apply (FR i o E). unfold owns. now apply nth_error_In in Hq.
        -- intros Hp [= <-]. exfalso. apply (FR i o E). unfold owns. now apply nth_error_In in Hp.
        -- now apply (i_one _ _ I i o).
      * intros k k' o1 o2 a H1 H2 O1 O2. destruct (Nat.eqb_spec k i) as [->|], (Nat.eqb_spec k' i) as [->|]; auto.
        -- inversion H1; subst. apply NW in O1 as [->|O1]; [destruct (FR _ _ H2 O2)|]. now apply (i_sep _ _ I i k' o o2 a).
        -- inversion H2; subst. apply NW in O2 as [->|O2]; [destruct (FR _ _ H1 O1)|]. now apply (i_sep _ _ I k i o1 o a).
        -- now apply (i_sep _ _ I k k' o1 o2 a).
      * intros k o' H K. destruct (Nat.eqb_spec k i) as [->|]; [discriminate|]. now apply (i_unused _ _ I k o').
      * intros k o' H. destruct (Nat.eqb_spec k i) as [->|]; [|now apply (i_four _ _ I k o')]. inversion H; subst. cbn. now rewrite set_nth_length.
    + assert (OW : forall k o', objects (set_obj m i (Some (MkObj true (o_ptrs o)))) k = Some o' -> exists o'', objects m k = Some o'' /\ o_ptrs o' = o_ptrs o'' /\ (k <> i -> o' = o'')).
      { cbn. intros k o' H. destruct (Nat.eqb_spec k i) as [->|]; [inversion H; subst; exists o; split; [exact E|split; [reflexivity|intros N; now destruct N]]|exists o'; auto]. }
      constructor; cbn [the_heap set_obj].
      * intros k o' a H Ho. destruct (OW k o' H) as (o'' & E' & P & _). apply (i_live _ _ I k o''); auto. unfold owns in *. now rewrite <- P.
      * apply (i_next _ _ I).
      * apply (i_nodup _ _ I).
      * intros k o' p q a H. destruct (OW k o' H) as (o'' & E' & P & _). rewrite P. now apply (i_one _ _ I k o'').
      * intros k k' o1 o2 a H1 H2 O1 O2. destruct (OW k o1 H1) as (o1' & E1 & P1 & _), (OW k' o2 H2) as (o2' & E2 & P2 & _). unfold owns in *. rewrite P1 in O1. rewrite P2 in O2. now apply (i_sep _ _ I k k' o1' o2' a).
      * intros k o' H K. destruct (OW k o' H) as (o'' & E' & P & D''). destruct (Nat.eqb_spec k i) as [->|N]; [discriminate|]. rewrite (D'' N). now apply (i_unused _ _ I k o'').
      * intros k o' H. destruct (OW k o' H) as (o'' & E' & P & _). rewrite P. now apply (i_four _ _ I k o'').
  - destruct (objects m i) as [o|] eqn:E; eauto.
    assert (R : forallb (readable (the_heap m)) (o_ptrs o) = true).
    { apply forallb_forall. intros [a|] H; cbn; auto. apply in_ex. now apply (i_live _ _ I i o). }
    rewrite R, orb_true_r. eauto.
  - destruct (objects m i) as [o|] eqn:E; eauto.
    destruct (delete_all_ok (o_ptrs o) (the_heap m)) as (h' & Eh & N & C & ND); [intros a; now apply (i_live _ _ I i o)|intros p q a; now apply (i_one _ _ I i o)|].
    rewrite Eh. eexists. split; [reflexivity|]. constructor; cbn.
    + intros k o' a H Ho. destruct (Nat.eqb_spec k i) as [->|Ne]; [discriminate|]. apply C. split; [now apply (i_live _ _ I k o')|]. intros H'. apply Ne. now apply (i_sep _ _ I k i o' o a).
    + intros a H. rewrite N. apply (i_next _ _ I). now apply C.
    + apply ND. apply (i_nodup _ _ I).
    + intros k o' p q a H. destruct (Nat.eqb_spec k i) as [->|Ne]; [discriminate|]. now apply (i_one _ _ I k o').
    + intros k k' o1 o2 a H1 H2 O1 O2. destruct (Nat.eqb_spec k i) as [->|]; [discriminate|]. destruct (Nat.eqb_spec k' i) as [->|]; [discriminate|]. now apply (i_sep _ _ I k k' o1 o2 a).
    + intros k o' H K. destruct (Nat.eqb_spec k i) as [->|Ne]; [discriminate|]. now apply (i_unused _ _ I k o').
    + intros k o' H. destruct (Nat.eqb_spec k i) as [->|Ne]; [discriminate|]. now apply (i_four _ _ I k o').
Qed.
Lemma inv_no_objects : Inv no_objects (fun _ => false).
Proof. constructor; cbn; try discriminate; try tauto. constructor. Qed.
Theorem memory_safe l : no_shared l (fun _ => false) = true -> exists m, mrun l no_objects = Some m.
Proof.
  pose proof inv_no_objects as I. revert I. generalize no_objects as m, (fun _ : nat => false) as u. induction l as [|c l IH]; intros m u I H; cbn [mrun]; [eauto|].
  destruct (inv_step c m u I) as (m' & E & I').
  { destruct c; auto; cbn in H; apply andb_true_iff in H as [H _]; now destruct (u j). }
  rewrite E. eapply IH; [exact I'|]. destruct c; cbn in H; auto; now apply andb_true_iff in H.
Qed.
(** No leak: every allocated address belongs to a living object. *)
Definition owned (m : mem) : Prop := forall a, In a (h_live (the_heap m)) -> exists i o, objects m i = Some o /\ owns o a.
Definition tidy (m : mem) : Prop := owned m /\ forall i o, objects m i = Some o -> o_done o = false -> o_ptrs o = [None; None; None; None].
Lemma tidy_step c m m' u : Inv m u -> tidy m -> (match c with MCopy _ j => u j = false | MAssign i j => u i = false /\ u j = false | MReplace i => u i = false | _ => True end) ->
  mstep c m = Some m' -> tidy m'.
Proof.
  intros I [O T] D. destruct c as [i|i j|i j|i|i kind|i|i]; cbn [mstep].
  - destruct (objects m i) eqn:E; [intros [= <-]; split; auto|]. intros [= <-]. split.
    + intros a Ha. destruct (O a Ha) as (k & o & H & Ho). exists k, o. cbn. destruct (Nat.eqb_spec k i) as [->|]; [congruence|auto].
    + cbn. intros k o H. destruct (k =? i); [inversion H; auto|]. apply (T k o H).
  - destruct (objects m i) eqn:E, (objects m j) as [o'|] eqn:Ej; intros [= <-]; try (split; assumption). split.
    + intros a Ha. destruct (O a Ha) as (k & o & H & Ho). exists k, o. cbn. destruct (Nat.eqb_spec k i) as [->|]; [congruence|auto].
    + cbn. intros k o H. destruct (k =? i); [inversion H; subst; apply (T j o Ej)|]. apply (T k o H).
  - destruct (objects m i) as [oi|] eqn:E, (objects m j) as [o'|] eqn:Ej; intros [= <-]; try (split; assumption). destruct D as [Di Dj]. split.
    + intros a Ha. destruct (O a Ha) as (k & o & H & Ho). exists k, o. cbn. destruct (Nat.eqb_spec k i) as [->|]; [|auto].
      destruct (i_unused _ _ I i o H Di) as [P _]. unfold owns in Ho. rewrite P in Ho. cbn in Ho. intuition discriminate.
    + cbn. intros k o H. destruct (k =? i); [inversion H; subst; apply (T j o Ej)|]. apply (T k o H).
  - destruct (objects m i) as [oi|] eqn:E; intros [= <-]; try (split; assumption). destruct (i_unused _ _ I i oi E D) as [P _]. split.
    + intros a Ha. destruct (O a Ha) as (k & o & H & Ho). cbn. exists k, o. destruct (Nat.eqb_spec k i) as [->|Ne]; auto.
      replace o with oi in * by congruence. unfold owns in Ho. rewrite P in Ho. cbn in Ho. intuition discriminate.
    + cbn. intros k o H. destruct (k =? i); [inversion H; subst; auto|]. apply (T k o H).
  - destruct (objects m i) as [oi|] eqn:E; [|intros [= <-]; split; auto]. destruct (o_done oi) eqn:Dn; [intros [= <-]; split; auto|].
    assert (NW : forall k o a, objects m k = Some o -> owns o a -> k <> i).
    { intros k o a H Ho ->. replace o with oi in * by congruence. unfold owns in Ho. rewrite (T i oi E Dn) in Ho. cbn in Ho. intuition discriminate. }
    destruct (Nat.ltb_spec kind 4) as [L4|L4]; intros [= <-]; split.
    + intros a [<-|Ha].
      * cbn. exists i, (MkObj true (set_nth kind (Some (h_next (the_heap m))) (o_ptrs oi))). rewrite Nat.eqb_refl. split; auto. unfold owns. cbn [o_ptrs]. apply (nth_error_In _ kind). rewrite set_nth_nth, Nat.eqb_refl, (i_four _ _ I i oi E). apply Nat.ltb_lt in L4. now rewrite L4.
      * destruct (O a Ha) as (k & o & H & Ho). cbn. exists k, o. pose proof (NW k o a H Ho) as Ne. apply Nat.eqb_neq in Ne. now rewrite Ne.
    + cbn. intros k o H. destruct (k =? i); [inversion H; subst; discriminate|]. apply (T k o H).
    + intros a Ha. destruct (O a Ha) as (k & o & H & Ho). cbn. exists k, o. pose proof (NW k o a H Ho) as Ne. apply Nat.eqb_neq in Ne. now rewrite Ne.
    + cbn. intros k o H. destruct (k =? i); [inversion H; subst; discriminate|]. apply (T k o H).
  - destruct (objects m i) as [o|]; [destruct (_ || _)|]; intros [= <-]; split; auto.
  - destruct (objects m i) as [o|] eqn:E; [|intros [= <-]; split; auto].
    destruct (delete_all_ok (o_ptrs o) (the_heap m)) as (h' & Eh & N & C & ND); [intros a; now apply (i_live _ _ I i o)|intros p q a; now apply (i_one _ _ I i o)|].
    rewrite Eh. intros [= <-]. split.
    + intros a Ha. cbn in Ha. apply C in Ha as [Ha NI]. destruct (O a Ha) as (k & o' & H & Ho). exists k, o'. cbn. destruct (Nat.eqb_spec k i) as [->|Ne]; auto. exfalso. apply NI. replace o with o' by congruence. exact Ho.
    + cbn. intros k o' H. destruct (k =? i); [discriminate|]. apply (T k o' H).
Qed.
Theorem no_leak l m : no_shared l (fun _ => false) = true -> no_forget l (fun _ => false) = true -> mrun l no_objects = Some m ->
  (forall i, objects m i = None) -> h_live (the_heap m) = [].
Proof.
  intros H1 H2 H3. enough (T : tidy m).
  { intros N. destruct (h_live (the_heap m)) as [|a t] eqn:E; auto. destruct T as [O _]. destruct (O a) as (i & o & X & _); [rewrite E; now left|]. now rewrite N in X. }
  pose proof inv_no_objects as I. assert (T0 : tidy no_objects) by (split; cbn; [intros a []|discriminate]). revert I T0 H1 H2 H3.
  generalize no_objects as m0, (fun _ : nat => false) as u. induction l as [|c l IH]; intros m0 u I T0 H1 H2 H3; cbn [mrun] in H3; [congruence|].
  destruct (inv_step c m0 u I) as (m' & E & I').
  { destruct c; auto; cbn in H1; apply andb_true_iff in H1 as [H1 _]; now destruct (u j). }
  rewrite E in H3. apply (IH m' _ I'); auto.
  - apply (tidy_step c m0 m' u); auto. destruct c; auto; cbn in H1, H2; try apply andb_true_iff in H1 as [H1 _]; try apply andb_true_iff in H2 as [H2 _].
    + now destruct (u j).
    + destruct (u i), (u j); auto.
    + now destruct (u i).
  - destruct c; cbn in H1; auto; now apply andb_true_iff in H1.
  - destruct c; cbn in H2; auto; now apply andb_true_iff in H2.
Qed.
(** Histories that go wrong. *)
Lemma copy_double_free : mrun [MNew 0; MClassify 0 0; MCopy 1 0; MDestroy 0; MDestroy 1] no_objects = None.
Proof. reflexivity. Qed.
Lemma copy_use_after_free : mrun [MNew 0; MClassify 0 0; MCopy 1 0; MDestroy 0; MUse 1] no_objects = None.
Proof. reflexivity. Qed.
Lemma replace_leaks : exists m, mrun [MNew 0; MClassify 0 0; MReplace 0; MClassify 0 0; MDestroy 0] no_objects = Some m /\ h_live (the_heap m) = [0] /\ objects m 0 = None.
Proof. eexists. split; [reflexivity|]. split; reflexivity. Qed.
