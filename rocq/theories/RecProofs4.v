(** The status returned by the computations and what can be read afterwards. *)
From Coq Require Import ZArith QArith Qcanon List Bool Arith Lia.
From Verif Require Import Ast ExprModel RecModel RecSpec.
Import ListNotations.
Local Open Scope list_scope.
Local Open Scope nat_scope.

Section Status.
Context (G : engine).
Hypothesis NS : forall r i st, e_solve G r i = inr st -> st <> SUCCESS.
Hypothesis NA : forall b r i st, e_approx G b r i = inr st -> st <> SUCCESS.

Lemma map_status_not c : c <> CL_SUCCESS -> map_status c <> Ok SUCCESS.
Proof. destruct c; cbn; congruence. Qed.
Lemma approximate_ok b s s' : approximate G b s = (s', SUCCESS) -> bound_of G b s' <> None.
Proof.
  unfold approximate. destruct (e_approx G b (rhs G s) (inf G s)) as [e|st] eqn:E.
  - destruct b; cbn; destruct (lower G s), (upper G s); cbn; repeat match goal with |- context [if ?c then _ else _] => destruct c end; intros [= <-]; cbn; congruence.
  - intros [= <- ->]. apply NA in E. congruence.
Qed.
Lemma by_type_ok s s' : exact_by_type G s = (s', Ok SUCCESS) -> exact G s' <> None /\ (i_type (inf G s) <> MAX_FUNCTION -> lower G s' <> None /\ upper G s' <> None).
Proof.
  unfold exact_by_type. destruct (i_type (inf G s)) eqn:T; try congruence.
  all: try solve [destruct (e_solve G (rhs G s) (inf G s)) as [e|st] eqn:E;
    [repeat match goal with |- context [if ?c then _ else _] => destruct c end; intros [= <-]; cbn; repeat split; congruence | intros [= <- ->]; apply NS in E; congruence]].
  - destruct (approximate G LOWER s) as [s1 st1] eqn:A1. destruct (sum_ok st1) eqn:S1; [|discriminate].
    destruct (approximate G UPPER s1) as [s2 st2] eqn:A2. destruct (sum_ok st2) eqn:S2; [|discriminate].
    destruct (lower G s2) as [l|] eqn:L; [|discriminate]. destruct (upper G s2) as [u|] eqn:U; [|discriminate].
    destruct (e_eqb G l u); [|discriminate]. cbn [set_exact]. unfold has_ics. cbn [ics set_exact]. destruct (ics G s2); intros [= <-]; cbn; rewrite L, U; repeat split; congruence.
Qed.
Lemma classify_tried s : classify G (set_tried G true s) = set_tried G true (classify G s).
Proof. unfold classify. cbn [cls set_tried]. destruct (cls G s); try reflexivity. cbn [rhs set_tried]. destruct (e_classify G (rhs G s)) as [[c r] i]. reflexivity. Qed.
Lemma exact_ok s s' : compute_exact_solution G s = (s', Ok SUCCESS) -> exact G s' <> None.
Proof.
  unfold compute_exact_solution. cbn [exact set_tried ev_exact lower upper]. unfold has_ics. cbn [ics set_tried].
  destruct (exact G s) as [e|] eqn:X.
  - destruct (ev_exact G s); [intros [= <-]; cbn; congruence|]. destruct (ics G s); intros [= <-]; cbn; congruence.
  - assert (B : match cls G (classify G (set_tried G true s)) with CL_SUCCESS => exact_by_type G (classify G (set_tried G true s)) | c => (classify G (set_tried G true s), map_status c) end = (s', Ok SUCCESS) -> exact G s' <> None).
    { destruct (cls G (classify G (set_tried G true s))) eqn:C; cbn; try congruence. intros H. apply by_type_ok in H. apply H. }
    destruct (lower G s); [|exact B]. destruct (upper G s); [|exact B]. destruct (e_eqb G e e0); [|exact B]. intros [= <-]. cbn. congruence.
Qed.
Lemma compute_bound_ok b s s' : compute_bound G b s = (s', Ok SUCCESS) -> bound_of G b s' <> None.
Proof.
  unfold compute_bound. assert (D : forall st, (s, @Ok sstatus st) = (s', Ok SUCCESS) -> st = SUCCESS) by congruence.
  destruct (i_type (inf G s)) eqn:T.
  6: { destruct (approximate G b s) as [s1 st] eqn:A. destruct (sum_ok st) eqn:S1; [|intros [= <- ->]; discriminate].
    assert (st = SUCCESS) as -> by (destruct st; cbn in S1; congruence). apply approximate_ok in A.
    destruct (has_ics G s1); [|intros [= <-]; exact A]. destruct b; cbn in A.
    - destruct (lower G s1) eqn:L; [|congruence]. intros [= <-]. cbn. congruence.
    - destruct (lower G s1); destruct (upper G s1) eqn:U; try congruence; intros [= <-]; cbn; congruence. }
  all: destruct (e_approx G b (rhs G s) (inf G s)) as [e|st] eqn:E; [destruct b; intros [= <-]; cbn; congruence|intros [= <- ->]; apply NA in E; congruence].
Qed.
Lemma bound_ok b s s' : compute_bound_top G b s = (s', Ok SUCCESS) -> bound_of G b s' <> None.
Proof.
  unfold compute_bound_top. destruct (bound_of G b s) as [l|] eqn:B.
  { assert (X : forall e, bound_of G b (set_ev_bound G b e s) <> None) by (intros e; destruct b; cbn in *; congruence).
    match goal with |- context [if ?c then _ else _] => destruct c end; intros [= <-]; [apply X|congruence]. }
  destruct (exact G s) as [e|] eqn:X.
  { intros [= <-]. destruct b; cbn; discriminate. }
  assert (BC : bound_of G b (classify G s) = None /\ exact G (classify G s) = None).
  { unfold classify. destruct (cls G s); try (destruct b; split; assumption). destruct (e_classify G (rhs G s)) as [[c r] i]. destruct b; split; assumption. }
  destruct BC as [BC XC]. destruct (cls G (classify G s)) eqn:C; try (cbn; congruence).
  assert (CE : i_type (inf G (classify G s)) <> MAX_FUNCTION -> compute_exact_solution G (classify G s) = (s', Ok SUCCESS) -> bound_of G b s' <> None).
  { intros NT. unfold compute_exact_solution. cbn [exact set_tried lower upper]. rewrite XC.
    assert (CC : classify G (set_tried G true (classify G s)) = set_tried G true (classify G s)).
    { rewrite classify_tried. f_equal. unfold classify at 1. rewrite C. reflexivity. }
    rewrite CC. cbn [cls set_tried]. rewrite C.
    intros H. assert (H' : exact_by_type G (set_tried G true (classify G s)) = (s', Ok SUCCESS)).
    { destruct b; cbn [bound_of] in BC; rewrite BC in H; [exact H|]. destruct (lower G (classify G s)); exact H. }
    apply by_type_ok in H'. cbn [inf set_tried] in H'. destruct H' as [_ H']. specialize (H' NT). destruct b; cbn; apply H'. }
  destruct (i_type (inf G (classify G s))) eqn:T; try (destruct (tried G (classify G s)); [discriminate|apply CE; discriminate]); try apply compute_bound_ok; discriminate.
Qed.
Lemma finish_exc e s : snd (finish G e s) <> Exc.
Proof.
  unfold finish, first_for_solution. destruct (cls G s); cbn; try congruence;
  destruct (ics G s); cbn; try congruence; destruct (i_type (inf G s)); cbn; try congruence;
  repeat match goal with |- context [if ?c then _ else _] => destruct c | |- context [match nth_error ?l ?k with _ => _ end] => destruct (nth_error l k) as [[? ?]|] end; cbn; congruence.
Qed.
Lemma read_exact_ok s : exact G s <> None -> snd (exact_solution G s) <> Exc.
Proof.
  unfold exact_solution. destruct (exact G s); [|congruence]. intros _. destruct (has_ics G s); [|apply finish_exc]. destruct (ev_exact G s); apply finish_exc.
Qed.
Lemma read_bound_ok b s : bound_of G b s <> None -> snd (read_bound G b s) <> Exc.
Proof.
  unfold read_bound. destruct (bound_of G b s); [|congruence]. intros _. destruct (has_ics G s); [|apply finish_exc]. destruct (ev_bound_of G b s); apply finish_exc.
Qed.
Theorem exact_readable s s' : compute_exact_solution G s = (s', Ok SUCCESS) -> snd (exact_solution G s') <> Exc.
Proof. intros H. apply read_exact_ok. apply exact_ok in H. exact H. Qed.
Theorem bound_readable b s s' : compute_bound_top G b s = (s', Ok SUCCESS) -> snd (read_bound G b s') <> Exc.
Proof. intros H. apply read_bound_ok. apply bound_ok in H. exact H. Qed.
End Status.

Lemma refused_status (G : engine) g c r i st : e_classify G g = (c, r, i) -> reason c st ->
  snd (compute_exact_solution G (construct G g)) = Ok st /\ forall b, snd (compute_bound_top G b (construct G g)) = Ok st.
Proof.
  intros E H. unfold compute_exact_solution, compute_bound_top. cbn [construct set_tried exact lower upper bound_of].
  assert (X : forall b, bound_of G b (construct G g) = None) by (intros []; reflexivity).
  unfold classify. cbn [cls construct set_tried rhs]. rewrite E.
  split; [inversion H; reflexivity|]. intros b. cbn [construct] in X. rewrite X. inversion H; reflexivity.
Qed.
