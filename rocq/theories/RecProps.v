(** C18-C20, C60, C62: the class Recurrence. *)
From Coq Require Import ZArith QArith Qcanon List Bool Arith Lia.
From Verif Require Import Ast ExprModel RecModel RecSpec RecProofs2 RecProofs3 RecProofs4 RecCases RecMemModel RecMemSpec RecMemProofs.
Import ListNotations.
Local Open Scope list_scope.
Local Open Scope nat_scope.

(** * C18 *)
(** For every engine whose algorithms are right: the answers read in a history concern the
    recurrence and the initial conditions stored, if replace_recurrence and operator= are used
    on fresh objects only. *)
Theorem C18_answers_concern_the_current_recurrence :
  forall G (M : meaning G), sound G M -> forall h, exact_only h = true \/ bounds_differ G -> disciplined h (fun _ => false) = true -> Forall (right M) (history h).
Proof. exact caches_right. Qed.
Print Assumptions C18_answers_concern_the_current_recurrence.
Theorem C18_no_undefined_behaviour :
  forall G (M : meaning G), sound G M -> well_formed G -> forall h, exact_only h = true \/ bounds_differ G -> disciplined h (fun _ => false) = true ->
  Forall (fun v : event G => ~ undefined (ev_answer v)) (history h).
Proof. exact defined_behaviour. Qed.
Print Assumptions C18_no_undefined_behaviour.
(** Without that restriction the property is false: replace_recurrence keeps the solution of
    the old recurrence, operator= keeps the evaluated solution of the target. *)
Theorem C18_replace_recurrence_refuted :
  ~ (forall G (M : meaning G), sound G M -> forall h, exact_only h = true -> Forall (right M) (history h)).
Proof. intros H. exact (stale_replace_wrong (H toy toy_meaning toy_sound stale_replace eq_refl)). Qed.
Print Assumptions C18_replace_recurrence_refuted.
Theorem C18_assignment_refuted :
  ~ (forall G (M : meaning G), sound G M -> forall h, exact_only h = true -> Forall (fun c => match c with Call _ (Replace _) => False | _ => True end) h -> Forall (right M) (history h)).
Proof. intros H. refine (stale_assign_wrong (H toy toy_meaning toy_sound stale_assign eq_refl _)). repeat constructor. Qed.
Print Assumptions C18_assignment_refuted.
(** The hypotheses hold of engines, and of histories that use every call. *)
Theorem C18_hypotheses_hold_of_an_instance : sound toy toy_meaning /\ well_formed toy /\ sound toy2 toy2_meaning /\ bounds_differ toy2 /\ well_formed toy2.
Proof. split. { exact toy_sound. } split. { exact toy_well_formed. } split. { exact toy2_sound. } split. { exact toy2_bounds_differ. } exact toy2_well_formed. Qed.
Print Assumptions C18_hypotheses_hold_of_an_instance.
Example C18_cases :
  let h : list (cmd toy2) := [@New toy2 0 (Rhs 1); Call 0 (@Replace toy2 (Rhs 3)); Call 0 ComputeExact; Call 0 ReadExact; CopyTo 1 0; Call 1 (@SetIC toy2 [(2, NumT 5)]); Call 1 (ComputeBound UPPER);
    Call 1 (ReadBound UPPER); Call 1 ResetIC; Call 1 ReadExact; @New toy2 2 (FE 0); Call 2 (ComputeBound LOWER); Call 2 (ReadBound LOWER)] in
  disciplined h (fun _ => false) = true /\
  map ev_answer (history h) = [Done (Ok tt); Status (Ok SUCCESS); @Read toy2 None (Ok (Line 3)); Done (Ok tt); Status (Ok SUCCESS); @Read toy2 (Some UPPER) (Ok (LineAt 3 2 (NumT 5)));
    Done (Ok tt); @Read toy2 None (Ok (Line 3)); Status (Ok SUCCESS); @Read toy2 (Some LOWER) (Ok (Two LOWER))].
Proof. split. { reflexivity. } vm_compute. reflexivity. Qed.

(** * C19 *)
Theorem C19_accepted_exactly_when_usable :
  forall G (m : list (nat * E G)) s s' r i, is_map m -> cls G s = CL_SUCCESS -> inf G s = i -> type_ok i -> set_initial_conditions G m s = (s', r) ->
  (r = Ok tt <-> usable G i m) /\ (r = Ok tt \/ r = Exc) /\ (r = Ok tt -> ics G s' = m) /\ (r = Exc -> ics G s' = []).
Proof. exact set_initial_conditions_iff. Qed.
Print Assumptions C19_accepted_exactly_when_usable.
(** After a rejection the old conditions are not kept: they are forgotten. *)
Theorem C19_old_conditions_kept_refuted :
  ~ (forall G (m : list (nat * E G)) s s', is_map m -> cls G s = CL_SUCCESS -> type_ok (inf G s) -> set_initial_conditions G m s = (s', Exc) -> ics G s' = ics G s).
Proof.
  intros H. set (s := fst (set_initial_conditions toy [(0, NumT 5)] (construct toy (Rhs 1)))).
  specialize (H toy [] s (fst (set_initial_conditions toy [] s)) I eq_refl (le_n 1)).
  assert (X : set_initial_conditions toy [] s = (fst (set_initial_conditions toy [] s), Exc)) by reflexivity. apply H in X. discriminate.
Qed.
Print Assumptions C19_old_conditions_kept_refuted.
Example C19_cases :
  let i := MkInfo VAR_COEFF 3 false false 0 4 in
  usable toy i [(1, NumT 9); (4, NumT 1); (5, X 7); (6, NumT 2)] /\ ~ usable toy i [(3, NumT 1); (5, X 7); (6, NumT 2)] /\ type_ok i.
Proof.
  split.
  { exists 6. cbn. split; [lia|]. split; [exists (NumT 2); cbn; tauto|]. split.
    - intros k [e H]. cbn in H. repeat destruct H as [[= <- <-]|H]; lia || tauto.
    - intros j Hj. split; [lia|]. destruct j as [|[|[|j]]]; [eexists; cbn; eauto 9..|lia]. }
  split.
  { intros (L & _ & (e & HL) & Hmax & H). cbn in H. assert (L = 6). { assert (6 <= L) by (apply Hmax; exists (NumT 2); cbn; tauto). cbn in HL. repeat destruct HL as [[= <- <-]|HL]; lia || tauto. }
    subst. destruct (H 2) as [_ [e' He]]; [lia|]. cbn in He. repeat destruct He as [He|He]; discriminate || tauto. }
  cbn. lia.
Qed.

(** * C20 *)
(** The value at a natural number is the initial condition given there, or else that of the
    formula; indices below the domain are rejected. *)
Theorem C20_value_at_an_index :
  forall G kind k s s' (e : E G), read_kind G kind s = (s', Ok e) -> is_map (ics G s') -> evaluated (inf G s') ->
  (first_index (inf G s') <= k \/ given (ics G s') k -> (forall j, given (ics G s') j -> j < k) /\ 0 < k \/ given (ics G s') k ->
   exists v, evaluate G kind (zq (Z.of_nat k)) s = (s', Ok v) /\ value_at (ics G s') e k v) /\
  (k < first_index (inf G s') -> ~ given (ics G s') k -> evaluate G kind (zq (Z.of_nat k)) s = (s', Exc)).
Proof.
  intros G kind k s s' e H1 H2 H3. destruct (evaluate_nat G kind k s s' e H1 H2 H3) as (A & B & C). split; [|exact B]. intros Q1 Q2. apply A; auto.
  destruct Q2 as [[Q2 Q3]|Q2]; auto. left. destruct (ics G s') as [|p t] eqn:M; [cbn; lia|]. apply Q2. rewrite <- M. apply max_index_given. rewrite M. discriminate.
Qed.
Print Assumptions C20_value_at_an_index.
Theorem C20_order_zero :
  forall G kind k s s' (e : E G), read_kind G kind s = (s', Ok e) -> i_type (inf G s') = ORDER_ZERO -> is_map (ics G s') ->
  (i_first (inf G s') < k \/ given (ics G s') k -> evaluate G kind (zq (Z.of_nat k)) s = (s', Ok (e_subst G e (zq (Z.of_nat k))))) /\
  (k <= i_first (inf G s') -> ~ given (ics G s') k -> evaluate G kind (zq (Z.of_nat k)) s = (s', Exc)).
Proof. exact evaluate_zero. Qed.
Print Assumptions C20_order_zero.
Theorem C20_negative_rejected :
  forall G kind x s s' (e : E G), read_kind G kind s = (s', Ok e) -> (x < 0)%Qc -> evaluate G kind x s = (s', Exc).
Proof. exact evaluate_negative. Qed.
Print Assumptions C20_negative_rejected.
Theorem C20_other_types_rejected :
  forall G kind x s s' (e : E G), read_kind G kind s = (s', Ok e) ->
  match i_type (inf G s') with NON_LINEAR | FUNCTIONAL_EQUATION | MAX_FUNCTION | UNKNOWN => True | _ => False end -> evaluate G kind x s = (s', Exc).
Proof. exact evaluate_other. Qed.
Print Assumptions C20_other_types_rejected.
(** An index between two initial conditions is neither rejected nor given a value: the answer
    is the symbolic x(k). *)
Theorem C20_index_in_a_gap_refuted :
  ~ (forall G kind k s s' (e : E G), read_kind G kind s = (s', Ok e) -> is_map (ics G s') -> evaluated (inf G s') ->
     evaluate G kind (zq (Z.of_nat k)) s = (s', Exc) \/ exists v, evaluate G kind (zq (Z.of_nat k)) s = (s', Ok v) /\ value_at (ics G s') e k v).
Proof.
  intros H. specialize (H toy 0 1 with_gap (fst (read_kind toy 0 with_gap)) (LineAt 1 3 (NumT 8)) eq_refl).
  assert (IM : is_map (ics toy (fst (read_kind toy 0 with_gap)))) by (cbn; repeat constructor). destruct (H IM Logic.I) as [H1|(v & H1 & H2)]; clear H.
  - vm_compute in H1. discriminate.
  - assert (V : v = X 1) by (vm_compute in H1; congruence). subst v. destruct H2 as [H2|[_ H2]]; [|discriminate]. cbn in H2. repeat destruct H2 as [H2|H2]; discriminate || tauto.
Qed.
Print Assumptions C20_index_in_a_gap_refuted.
(** A number that is not an integer is accepted. *)
Theorem C20_fraction_refuted :
  ~ (forall G kind x s s' (e : E G), read_kind G kind s = (s', Ok e) -> (forall k, x <> zq (Z.of_nat k)) -> evaluate G kind x s = (s', Exc)).
Proof.
  intros H. specialize (H toy 0 (Q2Qc (7 # 2)) with_gap (fst (read_kind toy 0 with_gap)) (LineAt 1 3 (NumT 8)) eq_refl).
  assert (Q : forall k, Q2Qc (7 # 2) <> zq (Z.of_nat k)). { intros k E. assert (X : q_is_int (Q2Qc (7 # 2)) = true) by (rewrite E; apply ExprCases.zq_int). vm_compute in X. discriminate. }
  specialize (H Q). vm_compute in H. discriminate.
Qed.
Print Assumptions C20_fraction_refuted.
(** The solution of a recurrence of order zero is its right-hand side, valid everywhere, but it
    is rejected at the first index. *)
Theorem C20_order_zero_refuted :
  ~ (forall G kind k s s' (e : E G), read_kind G kind s = (s', Ok e) -> i_type (inf G s') = ORDER_ZERO -> ics G s' = [] ->
     evaluate G kind (zq (Z.of_nat k)) s = (s', Ok (e_subst G e (zq (Z.of_nat k))))).
Proof.
  intros H. specialize (H toy 0 0 zero_state (fst (read_kind toy 0 zero_state)) (Zero 1) eq_refl eq_refl eq_refl). vm_compute in H. discriminate.
Qed.
Print Assumptions C20_order_zero_refuted.
Example C20_cases : exists s', read_kind toy 0 with_gap = (s', Ok (LineAt 1 3 (NumT 8))) /\ is_map (ics toy s') /\ evaluated (inf toy s') /\
  snd (evaluate toy 0 (zq 3) with_gap) = Ok (NumT 8) /\ snd (evaluate toy 0 (zq 9) with_gap) = Ok (At (LineAt 1 3 (NumT 8)) 9 1).
Proof.
  eexists. split. { vm_compute. reflexivity. } split. { cbn. repeat constructor. } split. { exact Logic.I. } split. { vm_compute. reflexivity. } { vm_compute. reflexivity. }
Qed.

(** * C60 *)
Theorem C60_coinciding_bounds_exact_first :
  forall G (g r l : E G) i, (forall a b, e_eqb G a b = true <-> a = b) -> e_classify G g = (CL_SUCCESS, r, i) -> i_type i = FUNCTIONAL_EQUATION ->
  e_approx G LOWER r i = inl l -> e_approx G UPPER r i = inl l ->
  map ev_answer (history [New 0 g; Call 0 ComputeExact; Call 0 ReadExact]) = [Status (Ok SUCCESS); Read None (Ok (e_rename G l))].
Proof. exact exact_first. Qed.
Print Assumptions C60_coinciding_bounds_exact_first.
Theorem C60_coinciding_bounds_one_first :
  forall G (g r l : E G) i, (forall a b, e_eqb G a b = true <-> a = b) -> e_classify G g = (CL_SUCCESS, r, i) -> i_type i = FUNCTIONAL_EQUATION ->
  e_approx G LOWER r i = inl l -> e_approx G UPPER r i = inl l -> forall b,
  map ev_answer (history [New 0 g; Call 0 (ComputeBound b); Call 0 ComputeExact; Call 0 ReadExact]) = [Status (Ok SUCCESS); Status (Ok SUCCESS); Read None (Ok (e_rename G l))].
Proof. exact exact_after_one. Qed.
Print Assumptions C60_coinciding_bounds_one_first.
(** After both bounds the solution reported is the expression 1, in every engine. *)
Theorem C60_both_bounds_first_gives_one :
  forall G (g r l : E G) i, (forall a b, e_eqb G a b = true <-> a = b) -> e_classify G g = (CL_SUCCESS, r, i) -> i_type i = FUNCTIONAL_EQUATION ->
  e_approx G LOWER r i = inl l -> e_approx G UPPER r i = inl l -> forall b b', b <> b' ->
  map ev_answer (history [New 0 g; Call 0 (ComputeBound b); Call 0 (ComputeBound b'); Call 0 ComputeExact; Call 0 ReadExact]) =
  [Status (Ok SUCCESS); Status (Ok SUCCESS); Status (Ok SUCCESS); Read None (Ok (e_rename G (e_one G)))].
Proof. exact exact_after_both. Qed.
Print Assumptions C60_both_bounds_first_gives_one.
Theorem C60_after_both_bounds_refuted :
  ~ (forall G (M : meaning G), sound G M -> forall h, disciplined h (fun _ => false) = true -> Forall (right M) (history h)).
Proof. intros H. refine (stale_both (H toy toy_meaning toy_sound _ _)). reflexivity. Qed.
Print Assumptions C60_after_both_bounds_refuted.
Example C60_cases : e_classify toy (FE 4) = (CL_SUCCESS, FE 4, MkInfo FUNCTIONAL_EQUATION 0 false false 1 1) /\
  e_approx toy LOWER (FE 4) (MkInfo FUNCTIONAL_EQUATION 0 false false 1 1) = inl (Bd 4) /\ e_approx toy UPPER (FE 4) (MkInfo FUNCTIONAL_EQUATION 0 false false 1 1) = inl (Bd 4).
Proof. split; [|split]; reflexivity. Qed.

(** * C62 *)
Theorem C62_memory_is_safe_without_sharing :
  forall l, no_shared l (fun _ => false) = true -> exists m, mrun l no_objects = Some m.
Proof. exact memory_safe. Qed.
Print Assumptions C62_memory_is_safe_without_sharing.
Theorem C62_no_leak_without_forgetting :
  forall l m, no_shared l (fun _ => false) = true -> no_forget l (fun _ => false) = true -> mrun l no_objects = Some m ->
  (forall i, objects m i = None) -> h_live (the_heap m) = [].
Proof. exact no_leak. Qed.
Print Assumptions C62_no_leak_without_forgetting.
(** Copying a classified recurrence and destroying both objects deletes twice; using the copy
    after the original is gone reads freed memory; replacing leaks. *)
Theorem C62_copies_refuted : ~ (forall l, mrun l no_objects <> None).
Proof. intros H. exact (H _ copy_double_free). Qed.
Print Assumptions C62_copies_refuted.
Theorem C62_copy_used_refuted : ~ (forall l, Forall (fun c => forall i, c = MDestroy i -> i = 0) l -> mrun l no_objects <> None).
Proof. intros H. refine (H _ _ copy_use_after_free). repeat constructor; intros i E; inversion E; auto. Qed.
Print Assumptions C62_copy_used_refuted.
Theorem C62_leak_refuted : ~ (forall l m, no_shared l (fun _ => false) = true -> mrun l no_objects = Some m -> (forall i, objects m i = None) -> h_live (the_heap m) = []).
Proof.
  intros H. destruct (mrun [MNew 0; MClassify 0 0; MReplace 0; MClassify 0 0; MDestroy 0] no_objects) as [m|] eqn:E; [|discriminate].
  specialize (H _ m (eq_refl : no_shared [MNew 0; MClassify 0 0; MReplace 0; MClassify 0 0; MDestroy 0] (fun _ => false) = true) E).
  cbn in E. injection E as <-. assert (X : [0] = []) by (apply H; intros [|i]; reflexivity). discriminate.
Qed.
Print Assumptions C62_leak_refuted.
Example C62_cases : no_shared [MNew 0; MCopy 1 0; MClassify 0 2; MClassify 1 0; MUse 1; MDestroy 0; MUse 1; MDestroy 1] (fun _ => false) = true /\
  no_forget [MNew 0; MCopy 1 0; MClassify 0 2; MClassify 1 0; MUse 1; MDestroy 0; MUse 1; MDestroy 1] (fun _ => false) = true.
Proof. split; reflexivity. Qed.

(** * C63 *)
(** After SUCCESS the solution or bound computed can be read: no exception. *)
Theorem C63_success_is_readable :
  forall G (M : meaning G), sound G M -> forall s s' : state G,
  ((compute_exact_solution G s = (s', Ok SUCCESS) -> snd (exact_solution G s') <> Exc) /\ (forall b : bound, compute_bound_top G b s = (s', Ok SUCCESS) -> snd (read_bound G b s') <> Exc))%type.
Proof.
  intros G M H s s'. split; [apply exact_readable|intros b; apply bound_readable]; first [exact (s_not_success G M H)|exact (s_approx_not G M H)].
Qed.
Print Assumptions C63_success_is_readable.
(** A recurrence refused by the classifier: the status says why, for all three computations. *)
Theorem C63_refusal_is_explained :
  forall G (g : E G) c r i st, e_classify G g = (c, r, i) -> reason c st ->
  snd (compute_exact_solution G (construct G g)) = Ok st /\ forall b, snd (compute_bound_top G b (construct G g)) = Ok st.
Proof. exact refused_status. Qed.
Print Assumptions C63_refusal_is_explained.
Example C63_case : sound toy toy_meaning /\ snd (compute_exact_solution toy (construct toy (Rhs 1))) = Ok SUCCESS /\ snd (exact_solution toy (fst (compute_exact_solution toy (construct toy (Rhs 1))))) = Ok (Line 1).
Proof. split; [exact toy_sound|]. vm_compute. split; reflexivity. Qed.
