(** Coherence of the caches of a Recurrence object. *)
From Coq Require Import ZArith QArith Qcanon List Bool Arith Lia.
From Verif Require Import RecModel RecSpec.
Import ListNotations.
Local Open Scope list_scope.
Local Open Scope nat_scope.

Section Inv.
Context (G : engine) (M : meaning G) (HS : sound G M) (xo : bool).
Notation E := (RecModel.E G).
Implicit Types (s t : state G) (g e : E).
Hypothesis Hmode : xo = true \/ bounds_differ G.

Definition cached_bound (s : state G) (b : bound) : Prop :=
  forall l, bound_of G b s = Some l -> exists k l', e_approx G b (rhs G s) (inf G s) = inl l' /\ l = Nat.iter k (e_rename G) l' /\ (xo = true -> k = 0).
Record Inv (g : E) (s : state G) : Prop := MkInv {
  v_new : cls G s = NOT_CLASSIFIED -> s = construct G g;
  v_cls : cls G s <> NOT_CLASSIFIED -> e_classify G g = (cls G s, rhs G s, inf G s);
  v_exact : forall e, exact G s = Some e -> Sol M g e;
  v_bound : forall b e, bound_of G b s = Some e -> Bnd M b g e;
  v_ev : forall e, ev_exact G s = Some e -> ics G s <> [] /\ SolAt M g (ics G s) e;
  v_evb : forall b e, ev_bound_of G b s = Some e -> ics G s <> [] /\ BndAt M b g (ics G s) e;
  v_ics : ics G s <> [] -> cls G s = CL_SUCCESS /\ check_ic G (inf G s) (ics G s) = Ok true;
  v_fe : i_type (inf G s) = FUNCTIONAL_EQUATION -> cls G s = CL_SUCCESS -> exact G s = None ->
         cached_bound s LOWER /\ cached_bound s UPPER /\ (xo = true -> upper G s <> None -> lower G s <> None) }.

Lemma inv_construct g : Inv g (construct G g).
Proof. split; cbn; try congruence; try tauto; try discriminate; intros [] e; discriminate. Qed.
Lemma inv_copy g s : Inv g s -> Inv g (copy G s).
Proof.
  intros [A B C D F H I J]. split; cbn; auto; try discriminate.
  - intros X. rewrite (A X). reflexivity.
  - intros [] e; discriminate.
Qed.
Lemma inv_assign g s g' : Inv g s -> Inv g (assign G (construct G g') s).
Proof. intros H. apply inv_copy in H. exact H. Qed.
Lemma inv_reset g s : Inv g s -> Inv g (reset_initial_conditions G s).
Proof.
  intros [A B C D F H I J]. split; cbn; auto; try discriminate; try congruence.
  - intros X. rewrite (A X). reflexivity.
  - intros [] e; discriminate.
Qed.
Lemma cls_dec s : cls G s = NOT_CLASSIFIED \/ cls G s <> NOT_CLASSIFIED.
Proof. destruct (cls G s); auto; right; discriminate. Qed.
Lemma classify_done s : cls G s <> NOT_CLASSIFIED -> classify G s = s.
Proof. unfold classify. destruct (cls G s); congruence. Qed.
Lemma classify_new g : classify G (construct G g) = let '(c, r, i) := e_classify G g in set_rhs G r c i (construct G g).
Proof. reflexivity. Qed.
Lemma inv_classify g s : Inv g s -> Inv g (classify G s) /\ cls G (classify G s) <> NOT_CLASSIFIED.
Proof.
  intros H. destruct (cls_dec s) as [X|X].
  - rewrite (v_new _ _ H X), classify_new. pose proof (s_classified _ _ HS g) as N. destruct (e_classify G g) as [[c r] i] eqn:Ec. cbn in N.
    split; [|exact N]. split; cbn; try congruence; try discriminate; try (intros [] e; discriminate).
    intros _ _ _. unfold cached_bound; cbn. split; [|split]; intros; discriminate || auto.
  - rewrite classify_done by auto. auto.
Qed.
Lemma ics_classify s : ics G (classify G s) = ics G s /\ exact G (classify G s) = exact G s /\ lower G (classify G s) = lower G s /\ upper G (classify G s) = upper G s /\ tried G (classify G s) = tried G s.
Proof. unfold classify. destruct (cls G s); auto. destruct (e_classify G (rhs G s)) as [[c r] i]. auto. Qed.

Lemma inv_tried g s b : Inv g s -> cls G s <> NOT_CLASSIFIED -> Inv g (set_tried G b s).
Proof. intros [A B C D F H I J] X. split; cbn; auto; try congruence. Qed.
Lemma inv_fvis g s b : Inv g s -> cls G s <> NOT_CLASSIFIED -> Inv g (set_fvis G b s).
Proof. intros [A B C D F H I J] X. split; cbn; auto; try congruence. Qed.

Lemma inv_set_ic g s m s' r : Inv g s -> set_initial_conditions G m s = (s', r) -> Inv g s'.
Proof.
  intros H. unfold set_initial_conditions.
  set (s1 := match ics G s with [] => s | _ => reset_initial_conditions G s end).
  assert (H1 : Inv g s1 /\ ics G s1 = []).
  { unfold s1. destruct (ics G s) eqn:X; [auto|]. split; [now apply inv_reset|reflexivity]. }
  destruct H1 as [H1 N1]. destruct (inv_classify _ _ H1) as [H2 C2]. pose proof (ics_classify s1) as (I2 & _). rewrite N1 in I2.
  set (s2 := classify G s1) in *. clearbody s2. clear H1 N1 s1 H.
  destruct (cls G s2) eqn:C; try (intros [= <- <-]; auto; fail).
  destruct (check_ic G (inf G s2) m) as [[]| |] eqn:K; intros [= <- <-]; auto.
  destruct H2 as [A B C' D F H I J]. split; cbn; auto; try congruence.
  - intros e X. apply F in X. rewrite I2 in X. tauto.
  - intros [] e X; [apply (H LOWER) in X|apply (H UPPER) in X]; rewrite I2 in X; tauto.
Qed.

(** Reading: the expression returned is right, the state stays coherent. *)
Definition reads (b : option bound) (g : E) (m : list (nat * E)) (e : E) : Prop :=
  match b with
  | None => match m with [] => Sol M g e | _ => SolAt M g m e end
  | Some b => match m with [] => Bnd M b g e | _ => BndAt M b g m e end
  end.
Lemma finish_inv g s e s' r : Inv g s -> finish G e s = (s', r) -> Inv g s' /\ ics G s' = ics G s /\ (r = Ok e \/ r = Exc \/ r = UB).
Proof.
  intros H. unfold finish. destruct (cls_dec s) as [X|X].
  - rewrite X. intros [= <- <-]. auto.
  - destruct (cls G s) eqn:C; try congruence; destruct (first_for_solution G (inf G s) (ics G s)); intros [= <- <-]; cbn; auto; split; auto; apply inv_fvis; auto; congruence.
Qed.
Lemma has_ics_spec s : has_ics G s = true <-> ics G s <> [].
Proof. unfold has_ics. destruct (ics G s); split; congruence. Qed.
Lemma on_ic_exact g s e : Inv g s -> ics G s <> [] -> Sol M g e -> SolAt M g (ics G s) (on_ic G e s).
Proof.
  intros H N He. destruct (v_ics _ _ H N) as [C K]. pose proof (v_cls _ _ H ltac:(congruence)) as Cl. rewrite C in Cl.
  unfold on_ic. eapply (s_on_ic _ _ HS); eauto.
Qed.
Lemma on_ic_bound b g s e : Inv g s -> ics G s <> [] -> Bnd M b g e -> BndAt M b g (ics G s) (on_ic G e s).
Proof.
  intros H N He. destruct (v_ics _ _ H N) as [C K]. pose proof (v_cls _ _ H ltac:(congruence)) as Cl. rewrite C in Cl.
  unfold on_ic. eapply (s_on_ic_bound _ _ HS); eauto.
Qed.
Lemma not_new g s : Inv g s -> exact G s <> None \/ lower G s <> None \/ upper G s <> None \/ ics G s <> [] -> cls G s <> NOT_CLASSIFIED.
Proof. intros H N X. rewrite (v_new _ _ H X) in N. cbn in N. destruct N as [N|[N|[N|N]]]; congruence. Qed.
Lemma inv_ev_three g s e : Inv g s -> ics G s <> [] -> SolAt M g (ics G s) e -> Inv g (ev_three G e s).
Proof.
  intros H N He. assert (X : cls G s <> NOT_CLASSIFIED) by (eapply not_new; eauto). destruct H as [A B C D F K I J]. split; cbn; auto; try congruence.
  - intros e' [= <-]; auto.
  - intros [] e' [= <-]; split; auto; now apply (s_exact_bound_at _ _ HS).
Qed.
Lemma inv_ev_bound b g s e : Inv g s -> ics G s <> [] -> BndAt M b g (ics G s) e -> Inv g (set_ev_bound G b e s).
Proof.
  intros H N He. assert (X : cls G s <> NOT_CLASSIFIED) by (eapply not_new; eauto). destruct H as [A B C D F K I J].
  split; destruct b; cbn; auto; try congruence; intros [] e'; cbn; intros Y; try (apply (K LOWER); exact Y); try (apply (K UPPER); exact Y); injection Y as <-; auto.
Qed.
Lemma inv_exact g s e : Inv g s -> cls G s <> NOT_CLASSIFIED -> Sol M g e -> Inv g (set_exact G (Some e) s).
Proof. intros H X He. destruct H as [A B C D F K I J]. split; cbn; auto; try congruence. Qed.
Lemma read_exact_inv g s s' r : Inv g s -> exact_solution G s = (s', r) -> Inv g s' /\ forall e, r = Ok e -> reads None g (ics G s') e.
Proof.
  intros H. unfold exact_solution. destruct (exact G s) as [e|] eqn:Ex; [|intros [= <- <-]; split; auto; discriminate].
  assert (Cn : cls G s <> NOT_CLASSIFIED) by (eapply not_new; [eauto|left; congruence]). pose proof (v_exact _ _ H _ Ex) as He.
  destruct (has_ics G s) eqn:Hi.
  - apply has_ics_spec in Hi. destruct (ev_exact G s) as [e1|] eqn:Ev.
    + intros Hf. apply (finish_inv g) in Hf as (H1 & H2 & H3); auto. split; auto. intros e' ->. destruct H3 as [[= ->]|[|]]; try discriminate.
      rewrite H2. apply (v_ev _ _ H) in Ev as [_ Ev]. unfold reads. destruct (ics G s); [congruence|auto].
    + intros Hf. assert (Sr : SolAt M g (ics G s) (e_rename G (on_ic G e s))) by (apply (s_rename_at _ _ HS); now apply on_ic_exact).
      apply (finish_inv g) in Hf as (H1 & H2 & H3); [|now apply inv_ev_three]. split; auto. intros e' ->. destruct H3 as [[= ->]|[|]]; try discriminate.
      rewrite H2. cbn. destruct (ics G s); [congruence|auto].
  - intros Hf. apply (finish_inv g) in Hf as (H1 & H2 & H3); [|apply inv_exact; auto; now apply (s_rename _ _ HS)]. split; auto. intros e' ->. destruct H3 as [[= ->]|[|]]; try discriminate.
    rewrite H2. cbn. unfold has_ics in Hi. destruct (ics G s); [|discriminate]. now apply (s_rename _ _ HS).
Qed.
Lemma inv_set_bound b g s e k l' : Inv g s -> cls G s <> NOT_CLASSIFIED -> Bnd M b g e ->
  (i_type (inf G s) = FUNCTIONAL_EQUATION -> cls G s = CL_SUCCESS -> exact G s = None -> e_approx G b (rhs G s) (inf G s) = inl l' /\ e = Nat.iter k (e_rename G) l' /\ (xo = true -> k = 0)) ->
  (xo = true -> b = UPPER -> lower G s <> None) ->
  Inv g (set_bound G b e s).
Proof.
  intros H X He HF HU. destruct H as [A B C D F K I J]. split; try (destruct b; cbn; auto; congruence).
  - intros b' e' Y. destruct b, b'; cbn in *; try (injection Y as <-; auto); try (apply (D LOWER); exact Y); apply (D UPPER); exact Y.
  - intros T Cs Xn. assert (T' : i_type (inf G s) = FUNCTIONAL_EQUATION) by (destruct b; exact T). assert (Cs' : cls G s = CL_SUCCESS) by (destruct b; exact Cs). assert (Xn' : exact G s = None) by (destruct b; exact Xn).
    specialize (HF T' Cs' Xn'). specialize (J T' Cs' Xn') as (J1 & J2 & J3).
    destruct b; unfold cached_bound in *; cbn in *; (split; [|split]); auto.
    + intros l [= <-]. eauto.
    + intros _ _. discriminate.
    + intros l [= <-]. eauto.
Qed.
Lemma read_bound_inv b g s s' r : xo = false -> Inv g s -> read_bound G b s = (s', r) -> Inv g s' /\ forall e, r = Ok e -> reads (Some b) g (ics G s') e.
Proof.
  intros Hxo H. unfold read_bound. destruct (bound_of G b s) as [e|] eqn:Ex; [|intros [= <- <-]; split; auto; discriminate].
  assert (Cn : cls G s <> NOT_CLASSIFIED) by (eapply not_new; [eauto|destruct b; cbn in Ex; intuition congruence]). pose proof (v_bound _ _ H _ _ Ex) as He.
  destruct (has_ics G s) eqn:Hi.
  - apply has_ics_spec in Hi. destruct (ev_bound_of G b s) as [e1|] eqn:Ev.
    + intros Hf. apply (finish_inv g) in Hf as (H1 & H2 & H3); auto. split; auto. intros e' ->. destruct H3 as [[= ->]|[|]]; try discriminate.
      rewrite H2. apply (v_evb _ _ H) in Ev as [_ Ev]. unfold reads. destruct (ics G s); [congruence|auto].
    + intros Hf. assert (Sr : BndAt M b g (ics G s) (e_rename G (on_ic G e s))) by (apply (s_rename_bound_at _ _ HS); now apply on_ic_bound).
      apply (finish_inv g) in Hf as (H1 & H2 & H3); [|now apply inv_ev_bound]. split; auto. intros e' ->. destruct H3 as [[= ->]|[|]]; try discriminate.
      rewrite H2. replace (ics G (set_ev_bound G b (e_rename G (on_ic G e s)) s)) with (ics G s) by (destruct b; reflexivity). unfold reads. destruct (ics G s); [congruence|auto].
  - intros Hf. assert (Ib : Inv g (set_bound G b (e_rename G e) s)).
    { assert (Hl : i_type (inf G s) = FUNCTIONAL_EQUATION -> cls G s = CL_SUCCESS -> exact G s = None -> exists k l', e_approx G b (rhs G s) (inf G s) = inl l' /\ e = Nat.iter k (e_rename G) l').
      { intros T Cs Xn. destruct (v_fe _ _ H T Cs Xn) as (J1 & J2 & _). destruct b; [destruct (J1 _ Ex) as (k & l' & ? & ? & _)|destruct (J2 _ Ex) as (k & l' & ? & ? & _)]; eauto. }
      destruct H as [A B C D F K I J]. split; try (destruct b; cbn; auto; congruence).
      - intros b' e' Y. destruct b, b'; cbn in *; try (injection Y as <-; now apply (s_rename_bound _ _ HS)); try (apply (D LOWER); exact Y); apply (D UPPER); exact Y.
      - intros T Cs Xn. assert (T' : i_type (inf G s) = FUNCTIONAL_EQUATION) by (destruct b; exact T). assert (Cs' : cls G s = CL_SUCCESS) by (destruct b; exact Cs). assert (Xn' : exact G s = None) by (destruct b; exact Xn).
        destruct (Hl T' Cs' Xn') as (k & l' & E1 & E2). specialize (J T' Cs' Xn') as (J1 & J2 & J3).
        destruct b; unfold cached_bound in *; cbn in *; (split; [|split]); auto; try (intros Hx; exfalso; congruence);
          intros l [= <-]; exists (S k), l'; (split; [exact E1|split; [rewrite E2; reflexivity|intros Hx; exfalso; congruence]]). }
    apply (finish_inv g) in Hf as (H1 & H2 & H3); auto. split; auto. intros e' ->. destruct H3 as [[= ->]|[|]]; try discriminate.
    rewrite H2. replace (ics G (set_bound G b (e_rename G e) s)) with (ics G s) by (destruct b; reflexivity). unfold has_ics in Hi. unfold reads. destruct (ics G s); [|discriminate]. now apply (s_rename_bound _ _ HS).
Qed.

(** Solving *)
Lemma inv_all_three g s e : Inv g s -> cls G s <> NOT_CLASSIFIED -> Sol M g e -> Inv g (all_three G e s).
Proof.
  intros H X He. destruct H as [A B C D F K I J]. split; cbn; auto; try congruence.
  intros [] e' [= <-]; now apply (s_exact_bound _ _ HS).
Qed.
Lemma eqb_ne (a b : E) : a <> b -> e_eqb G a b = false.
Proof. intros N. destruct (e_eqb G a b) eqn:X; auto. apply (s_eqb _ _ HS) in X. congruence. Qed.
(** approximate_functional_equation in a coherent state without exact solution whose cached
    bounds differ. *)
Lemma approx_inv b g s s' st : Inv g s -> cls G s = CL_SUCCESS -> i_type (inf G s) = FUNCTIONAL_EQUATION -> exact G s = None ->
  (xo = true -> b = UPPER -> lower G s <> None) ->
  (xo = true -> forall l u, lower G s = Some l -> upper G s = Some u -> l <> u) ->
  approximate G b s = (s', st) ->
  cls G s' = CL_SUCCESS /\ inf G s' = inf G s /\ ics G s' = ics G s /\
  ((st <> SUCCESS /\ s' = s) \/
   (st = SUCCESS /\ bound_of G b s' <> None /\ (b = UPPER -> lower G s' = lower G s) /\
    ((Inv g s' /\ exact G s' = None) \/
     (xo = true /\ b = UPPER /\ upper G s = None /\ Inv g (set_exact G None s') /\ exists e, lower G s' = Some e /\ upper G s' = Some e)))).
Proof.
  intros H C T Xn HU HD. unfold approximate. destruct (e_approx G b (rhs G s) (inf G s)) as [e|st'] eqn:Ea.
  2: { intros [= <- <-]. repeat split; auto. left. split; auto. eapply (s_approx_not _ _ HS); eauto. }
  pose proof (v_cls _ _ H ltac:(congruence)) as Cl. rewrite C in Cl. pose proof (s_approx _ _ HS _ _ _ _ _ Cl Ea) as Be.
  change (match b with LOWER => set_lower G (Some e) s | UPPER => set_upper G (Some e) s end) with (set_bound G b e s).
  assert (Ib : Inv g (set_bound G b e s)) by (apply (inv_set_bound b g s e 0 e); auto; congruence).
  destruct (v_fe _ _ H T C Xn) as (J1 & J2 & J3).
  assert (Keep : cls G (set_bound G b e s) = CL_SUCCESS /\ inf G (set_bound G b e s) = inf G s /\ ics G (set_bound G b e s) = ics G s /\ exact G (set_bound G b e s) = None /\
                 bound_of G b (set_bound G b e s) <> None /\ (b = UPPER -> lower G (set_bound G b e s) = lower G s)) by (destruct b; cbn; repeat split; auto; discriminate).
  destruct Keep as (K1 & K2 & K3 & K4 & K5 & K6).
  destruct (lower G (set_bound G b e s)) as [l|] eqn:El; [destruct (upper G (set_bound G b e s)) as [u|] eqn:Eu|]; [destruct (e_eqb G u l) eqn:Eq| |];
    intros [= <- <-]; repeat (split; [assumption|]); right; (split; [reflexivity|]); try (rewrite El); try (split; [assumption|]; split; [assumption|]; left; auto; fail).
  apply (s_eqb _ _ HS) in Eq. subst u.
  assert (xo = true) as Hx.
  { destruct Hmode as [|HB]; auto. exfalso. destruct b; cbn in El, Eu.
    - injection El as <-. destruct (J2 _ Eu) as (k & u' & E1 & E2 & _). apply (HB g (rhs G s) (inf G s) e u' 0 k Cl T Ea E1). cbn. auto.
    - injection Eu as <-. destruct (J1 _ El) as (k & u' & E1 & E2 & _). apply (HB g (rhs G s) (inf G s) u' e k 0 Cl T E1 Ea). cbn. auto. }
  assert (b = UPPER /\ upper G s = None) as [-> Un].
  { destruct b; cbn in El, Eu.
    - exfalso. injection El as <-. specialize (J3 Hx ltac:(congruence)). destruct (lower G s) as [l|] eqn:L; [|congruence].
      destruct (J1 _ L) as (k & l' & E1 & E2 & E3). rewrite (E3 Hx) in E2. cbn in E2. rewrite Ea in E1. injection E1 as <-. subst l. eapply HD; eauto.
    - split; auto. injection Eu as <-. destruct (upper G s) as [u|] eqn:U; auto. exfalso.
      destruct (J2 _ U) as (k & u' & E1 & E2 & E3). rewrite (E3 Hx) in E2. cbn in E2. rewrite Ea in E1. injection E1 as <-. subst u. eapply HD; eauto. }
  split; [destruct (set_bound G UPPER e s); auto|]. split; [intros _; cbn in *; congruence|]. right. split; [auto|]. split; [auto|]. split; [auto|]. split.
  - cbn in *. destruct Ib as [A B C' D F K I J]. cbn in *. split; cbn; auto; try congruence; try (intros Y; exfalso; congruence).
  - exists l. cbn in *. auto.
Qed.
Lemma inv_set_exact_none g s l : Inv g (set_exact G None s) -> cls G s <> NOT_CLASSIFIED -> Sol M g l -> Inv g (set_exact G (Some l) s).
Proof. intros [A B C D F K I J] X Hl. cbn in *. split; cbn; auto; try congruence. Qed.
Lemma exact_by_type_inv g s s' r : Inv g s -> cls G s = CL_SUCCESS -> exact G s = None ->
  (forall l u, lower G s = Some l -> upper G s = Some u -> l <> u) ->
  exact_by_type G s = (s', r) -> Inv g s'.
Proof.
  intros H C Xn HD. pose proof (v_cls _ _ H ltac:(congruence)) as Cl. rewrite C in Cl. assert (Cn : cls G s <> NOT_CLASSIFIED) by congruence.
  assert (SOLVE : forall e, e_solve G (rhs G s) (inf G s) = inl e -> Sol M g e) by (intros e; eapply (s_solve _ _ HS); eauto).
  assert (EV : forall e f, Sol M g e -> (forall m x, SolAt M g m x -> SolAt M g m (f x)) -> has_ics G (all_three G e s) = true -> Inv g (ev_three G (f (on_ic G e (all_three G e s))) (all_three G e s))).
  { intros e f He Hf Hi. apply has_ics_spec in Hi. pose proof (inv_all_three g s e H Cn He) as Ia. apply inv_ev_three; auto. apply Hf. now apply on_ic_exact. }
  unfold exact_by_type. destruct (i_type (inf G s)) eqn:T.
  1-3: destruct (e_solve G (rhs G s) (inf G s)) as [e|st]; [|intros [= <- <-]; auto]; specialize (SOLVE e eq_refl);
       destruct (has_ics G (all_three G e s)) eqn:Hi; cbn [andb]; [destruct (0 <? i_order _)|]; intros [= <- <-]; try (now apply inv_all_three); apply (EV e (e_rename G)); auto; intros; now apply (s_rename_at _ _ HS).
  1-2: destruct (e_solve G (rhs G s) (inf G s)) as [e|st]; [|intros [= <- <-]; auto]; specialize (SOLVE e eq_refl);
       destruct (has_ics G (all_three G e s)) eqn:Hi; intros [= <- <-]; try (now apply inv_all_three); apply (EV e (fun x => x)); auto.
  - destruct (approximate G LOWER s) as [s1 st1] eqn:A1.
    destruct (approx_inv LOWER g s s1 st1 H C T Xn ltac:(discriminate) ltac:(auto) A1) as (C1 & I1 & M1 & D1).
    destruct D1 as [[N1 ->]|(-> & B1 & _ & D1)].
    { destruct st1; cbn; try congruence; intros [= <- <-]; auto. }
    destruct D1 as [[H1 X1]|(_ & X & _)]; [|discriminate]. cbn [sum_ok].
    assert (T1 : i_type (inf G s1) = FUNCTIONAL_EQUATION) by (rewrite I1; auto).
    destruct (approximate G UPPER s1) as [s2 st2] eqn:A2.
    assert (HD1 : xo = true -> forall l u, lower G s1 = Some l -> upper G s1 = Some u -> l <> u).
    { intros Hx l u L U. destruct (v_fe _ _ H T C Xn) as (J1 & J2 & J3). destruct (v_fe _ _ H1 T1 C1 X1) as (J1' & J2' & J3').
      destruct (upper G s) as [u0|] eqn:U0.
      - specialize (J3 Hx ltac:(congruence)). destruct (lower G s) as [l0|] eqn:L0; [|congruence].
        destruct (J1 _ L0) as (k & l' & E1 & E2 & E3). destruct (J2 _ U0) as (k2 & u' & E4 & E5 & E6). destruct (J1' _ L) as (k3 & l'' & E7 & E8 & E9). destruct (J2' _ U) as (k4 & u'' & E10 & E11 & E12).
        rewrite E3 in E2 by auto. rewrite E6 in E5 by auto. rewrite E9 in E8 by auto. rewrite E12 in E11 by auto. cbn in *.
        pose proof (v_cls _ _ H1 ltac:(congruence)) as Cl1. rewrite C1, Cl in Cl1. injection Cl1 as R1 _. rewrite <- R1, I1 in *.
        rewrite E7 in E1. injection E1 as <-. rewrite E10 in E4. injection E4 as <-. subst. eapply HD; eauto.
      - exfalso. clear - A1 U U0. unfold approximate in A1. destruct (e_approx G LOWER (rhs G s) (inf G s)) as [e|]; [|injection A1 as <- _; congruence]. cbn in A1. rewrite U0 in A1. injection A1 as <-. cbn in U. congruence. }
    destruct (approx_inv UPPER g s1 s2 st2 H1 C1 T1 X1 ltac:(intros _ _; exact B1) HD1 A2) as (C2 & I2 & M2 & D2).
    destruct D2 as [[N2 ->]|(-> & B2 & L2 & D2)].
    { destruct st2; cbn; try congruence; intros [= <- <-]; auto. }
    cbn [sum_ok]. destruct (lower G s2) as [l|] eqn:El; [destruct (upper G s2) as [u|] eqn:Eu|].
    + destruct D2 as [[H2 X2]|(Hx & _ & U1 & H2 & e & E1 & E2)].
      * destruct (e_eqb G l u) eqn:Eq; [|intros [= <- <-]; auto]. apply (s_eqb _ _ HS) in Eq. subst u.
        assert (Sl : Sol M g l) by (apply (s_both _ _ HS); [apply (v_bound _ _ H2 LOWER); auto|apply (v_bound _ _ H2 UPPER); auto]).
        assert (Ie : Inv g (set_exact G (Some l) s2)) by (apply inv_exact; auto; congruence).
        destruct (has_ics G (set_exact G (Some l) s2)) eqn:Hi; intros [= <- <-]; auto. apply has_ics_spec in Hi. apply inv_ev_three; auto. now apply on_ic_exact.
      * injection E1 as ->. injection E2 as ->. rewrite (proj2 (s_eqb _ _ HS e e) eq_refl).
        assert (Sl : Sol M g e) by (apply (s_both _ _ HS); [apply (v_bound _ _ H2 LOWER); auto|apply (v_bound _ _ H2 UPPER); auto]).
        assert (Ie : Inv g (set_exact G (Some e) s2)) by (apply inv_set_exact_none; auto; congruence).
        destruct (has_ics G (set_exact G (Some e) s2)) eqn:Hi; intros [= <- <-]; auto. apply has_ics_spec in Hi. apply inv_ev_three; auto. now apply on_ic_exact.
    + cbn in B2. congruence.
    + cbn in B1. specialize (L2 eq_refl). congruence.
  - destruct (e_solve G (rhs G s) (inf G s)) as [e|st]; intros [= <- <-]; auto. apply inv_exact; auto.
  - intros [= <- <-]; auto.
Qed.
Lemma compute_exact_inv g s s' r : Inv g s -> compute_exact_solution G s = (s', r) -> Inv g s'.
Proof.
  intros H. unfold compute_exact_solution.
  assert (T0 : forall P : Prop, (exact G s <> None \/ lower G s <> None -> Inv g (set_tried G true s))).
  { intros _ X. apply inv_tried; auto. eapply not_new; eauto. tauto. }
  destruct (exact G (set_tried G true s)) as [e|] eqn:Ex.
  - cbn in Ex. assert (Ht : Inv g (set_tried G true s)) by (apply (T0 True); left; congruence).
    destruct (ev_exact G (set_tried G true s)) as [e1|] eqn:Ev; [intros [= <- <-]; auto|]. destruct (has_ics G (set_tried G true s)) eqn:Hi; intros [= <- <-]; auto.
    apply has_ics_spec in Hi. apply inv_ev_three; auto. apply on_ic_exact; auto. now apply (v_exact _ _ H).
  - cbn in Ex. assert (BY : (forall l u, lower G s = Some l -> upper G s = Some u -> l <> u) ->
      (let s0 := classify G (set_tried G true s) in match cls G s0 with CL_SUCCESS => exact_by_type G s0 | c => (s0, map_status c) end) = (s', r) -> Inv g s').
    { intros HD. assert (CT : Inv g (classify G (set_tried G true s)) /\ cls G (classify G (set_tried G true s)) <> NOT_CLASSIFIED).
      { replace (classify G (set_tried G true s)) with (set_tried G true (classify G s)).
        - destruct (inv_classify _ _ H) as [H1 H2]. split; [apply inv_tried; auto|exact H2].
        - unfold classify. cbn. destruct (cls G s); auto. destruct (e_classify G (rhs G s)) as [[c r0] i]. reflexivity. }
      destruct CT as [H1 H2]. pose proof (ics_classify (set_tried G true s)) as (_ & I1 & I2 & I3 & _). cbn in I1, I2, I3.
      cbv zeta. destruct (cls G (classify G (set_tried G true s))) eqn:C; try (intros [= <- <-]; auto; fail).
      apply exact_by_type_inv; auto; [congruence|]. rewrite I2, I3. auto. }
    change (lower G (set_tried G true s)) with (lower G s). change (upper G (set_tried G true s)) with (upper G s).
    destruct (lower G s) as [l|] eqn:El; [destruct (upper G s) as [u|] eqn:Eu|].
    + destruct (e_eqb G l u) eqn:Eq.
      * apply (s_eqb _ _ HS) in Eq. subst u. intros [= <- <-]. apply inv_exact.
        -- apply (T0 True). right. congruence.
        -- cbn. eapply not_new; [eauto|]. right. left. congruence.
        -- apply (s_both _ _ HS); [apply (v_bound _ _ H LOWER); auto|apply (v_bound _ _ H UPPER); auto].
      * apply BY. intros l' u' [= <-] [= <-] ->. rewrite (proj2 (s_eqb _ _ HS _ _) eq_refl) in Eq. discriminate.
    + apply BY. congruence.
    + apply BY. congruence.
Qed.
Lemma compute_bound_inv b g s s' r : xo = false -> Inv g s -> compute_bound_top G b s = (s', r) -> Inv g s'.
Proof.
  intros Hx H. unfold compute_bound_top. destruct (bound_of G b s) as [l|] eqn:Eb.
  - destruct (has_ics G s) eqn:Hi; cbn [andb]; [|intros [= <- <-]; auto]. apply has_ics_spec in Hi.
    destruct (ev_bound_of G b s); intros [= <- <-]; auto. apply inv_ev_bound; auto. apply on_ic_bound; auto. now apply (v_bound _ _ H).
  - destruct (exact G s) as [e|] eqn:Ex.
    + assert (Cn : cls G s <> NOT_CLASSIFIED) by (eapply not_new; [eauto|left; congruence]). pose proof (v_exact _ _ H _ Ex) as He.
      set (s1 := if has_ics G s && match ev_bound_of G b s with None => true | _ => false end then _ else s).
      assert (H1 : Inv g s1 /\ cls G s1 <> NOT_CLASSIFIED /\ exact G s1 = Some e /\ (xo = true -> b = UPPER -> lower G s1 <> None)).
      { unfold s1. destruct (has_ics G s) eqn:Hi; cbn [andb]; [|(split; [exact H|split; [exact Cn|split; [exact Ex|intros X; exfalso; congruence]]])]. apply has_ics_spec in Hi. destruct (ev_bound_of G b s); [(split; [exact H|split; [exact Cn|split; [exact Ex|intros X; exfalso; congruence]]])|].
        split; [|split; [destruct b; exact Cn|split; [destruct b; exact Ex|intros X; exfalso; congruence]]]. apply inv_ev_bound; auto.
        - assert (Sa : SolAt M g (ics G s) (on_ic G e s)) by now apply on_ic_exact. destruct H as [A B C D F K I J]. split; cbn; auto; try congruence. intros e' [= <-]. auto.
        - cbn. apply (s_exact_bound_at _ _ HS). now apply on_ic_exact. }
      destruct H1 as (H1 & H2 & H3 & H4). intros [= <- <-]. apply (inv_set_bound b g s1 e 0 e); auto; [now apply (s_exact_bound _ _ HS)|]. intros; congruence.
    + destruct (inv_classify _ _ H) as [H1 C1]. pose proof (ics_classify s) as (I1 & I2 & I3 & I4 & I5). rewrite Ex in I2. set (s1 := classify G s) in *. clearbody s1.
      destruct (cls G s1) eqn:C; try (intros [= <- <-]; auto; fail).
      pose proof (v_cls _ _ H1 ltac:(congruence)) as Cl. rewrite C in Cl.
      assert (NL : match e_approx G b (rhs G s1) (inf G s1) with
                   | inl e => (match b with LOWER => set_lower G (Some e) s1 | UPPER => set_upper G (Some e) s1 end, Ok SUCCESS)
                   | inr st => (s1, Ok st) end = (s', r) -> i_type (inf G s1) <> FUNCTIONAL_EQUATION -> Inv g s').
      { destruct (e_approx G b (rhs G s1) (inf G s1)) as [e|] eqn:Ea; intros [= <- <-] NF; auto.
        change (Inv g (set_bound G b e s1)). apply (inv_set_bound b g s1 e 0 e); auto; try congruence. eapply (s_approx _ _ HS); eauto. }
      destruct (i_type (inf G s1)) eqn:T; try (destruct (tried G s1); [intros [= <- <-]; auto|now apply compute_exact_inv]); try (intros [= <- <-]; auto; fail).
      * unfold compute_bound. rewrite T. intros X. apply NL; auto. discriminate.
      * unfold compute_bound. rewrite T. destruct (approximate G b s1) as [s2 st] eqn:A1.
        destruct (approx_inv b g s1 s2 st H1 C T I2 ltac:(congruence) ltac:(congruence) A1) as (C2 & If2 & M2 & D2).
        destruct D2 as [[N2 ->]|(-> & B2 & _ & D2)]; [destruct st; cbn; try congruence; intros [= <- <-]; auto|].
        destruct D2 as [[H2 X2]|(Y & _)]; [|congruence]. cbn [sum_ok]. destruct (has_ics G s2) eqn:Hi; [|intros [= <- <-]; auto]. apply has_ics_spec in Hi.
        destruct b; cbn in B2.
        -- destruct (lower G s2) as [l|] eqn:El; [|congruence]. intros [= <- <-]. apply (inv_ev_bound LOWER); auto. apply on_ic_bound; auto. now apply (v_bound _ _ H2 LOWER).
        -- destruct (upper G s2) as [u|] eqn:Eu; [|congruence]. destruct (lower G s2); intros [= <- <-]; apply (inv_ev_bound UPPER); auto; apply on_ic_bound; auto; now apply (v_bound _ _ H2 UPPER).
Qed.
End Inv.
