(** Histories over several objects; absence of undefined behaviour. *)
From Coq Require Import ZArith QArith Qcanon List Bool Arith Lia.
From Verif Require Import RecModel RecSpec RecProofs.
Import ListNotations.
Local Open Scope list_scope.
Local Open Scope nat_scope.

Section World.
Context (G : engine) (M : meaning G) (HS : sound G M).
Notation E := (RecModel.E G).

Lemma call_inv xo o g s s' a : xo = true \/ bounds_differ G ->
  match o with Replace _ => False | ComputeBound _ | ReadBound _ => xo = false | _ => True end ->
  Inv G M xo g s -> call o s = (s', a) -> Inv G M xo g s' /\ right M (MkEvent g (ics G s') a).
Proof.
  intros Hm Ho H. unfold right. cbn [ev_answer ev_ics ev_rhs]. destruct o; cbn [call]; try tauto.
  - destruct (set_initial_conditions G m s) as [s1 r] eqn:X. intros [= <- <-]. split; auto. eapply inv_set_ic; eauto.
  - intros [= <- <-]. split; auto. now apply inv_reset.
  - intros [= <- <-]. split; auto. now apply inv_classify.
  - destruct (compute_exact_solution G s) as [s1 r] eqn:X. intros [= <- <-]. split; auto. eapply compute_exact_inv; eauto.
  - destruct (compute_bound_top G b s) as [s1 r] eqn:X. intros [= <- <-]. split; auto. eapply compute_bound_inv; eauto.
  - destruct (exact_solution G s) as [s1 r] eqn:X. intros [= <- <-]. eapply read_exact_inv in X as [X1 X2]; eauto. split; auto. destruct r; auto. specialize (X2 _ eq_refl). cbn in X2. destruct (ics G s1); auto.
  - destruct (read_bound G b s) as [s1 r] eqn:X. intros [= <- <-]. eapply read_bound_inv in X as [X1 X2]; eauto. split; auto. destruct r; auto. specialize (X2 _ eq_refl). cbn in X2. destruct (ics G s1); auto.
Qed.
Definition good xo (w : world G) (u : nat -> bool) : Prop :=
  (forall i g s, w i = Some (g, s) -> Inv G M xo g s /\ (u i = true -> s = construct G g)) /\ (forall i, u i = true -> w i <> None).
Lemma good_put xo w u i g s b : good xo w u -> Inv G M xo g s -> (b = true -> s = construct G g) -> good xo (put w i (g, s)) (fun j => if j =? i then b else u j).
Proof.
  intros [H1 H0] H2 H3. split; unfold put.
  - intros j g' s'. destruct (Nat.eqb_spec j i); [|apply H1]. intros [= <- <-]. auto.
  - intros j. destruct (Nat.eqb_spec j i); [discriminate|apply H0].
Qed.
Lemma good_unset xo w u i b : good xo w u -> (b = true -> w i <> None /\ u i = true) -> good xo w (fun j => if j =? i then b else u j).
Proof.
  intros [H1 H0] Hb. split.
  - intros j g s X. destruct (H1 _ _ _ X) as [A B]. split; auto. destruct (Nat.eqb_spec j i); auto. subst j. intros Y. apply B. now apply Hb.
  - intros j. destruct (Nat.eqb_spec j i); [subst; intros Y; now apply Hb|apply H0].
Qed.
Lemma put_same xo w u i g s : good xo w u -> Inv G M xo g s -> (u i = true -> s = construct G g) -> good xo (put w i (g, s)) u.
Proof.
  intros [H1 H0] H2 H3. split; unfold put.
  - intros j g' s'. destruct (Nat.eqb_spec j i); [|apply H1]. subst. intros [= <- <-]. auto.
  - intros j. destruct (Nat.eqb_spec j i); [discriminate|apply H0].
Qed.
Lemma run_right xo h : xo = true \/ bounds_differ G -> (xo = true -> exact_only h = true) ->
  forall w u, good xo w u -> disciplined h u = true -> Forall (right M) (run h w).
Proof.
  intros Hm. induction h as [|c h IH]; intros Hx w u Hw Hd; [constructor|].
  assert (Hx' : xo = true -> exact_only h = true) by (intros X; specialize (Hx X); unfold exact_only in Hx; cbn in Hx; now apply andb_true_iff in Hx).
  specialize (IH Hx'). cbn [run].
  destruct c as [i e|i j|i j|i o]; cbn [step].
  - cbn [app]. eapply IH; [|exact Hd]. apply good_put; auto. apply inv_construct.
  - cbn [app]. cbn in Hd. eapply IH; [|exact Hd]. destruct (w j) as [[e s]|] eqn:Wj.
    + destruct (proj1 Hw _ _ _ Wj) as [A B]. apply good_put; auto; [now apply inv_copy|]. intros X. rewrite (B X). reflexivity.
    + apply good_unset; auto. intros X. exfalso. now apply (proj2 Hw j).
  - cbn [app]. cbn in Hd. apply andb_true_iff in Hd as [Hu Hd]. eapply IH; [|exact Hd].
    destruct (w i) as [[gi t]|] eqn:Wi; [|exfalso; now apply (proj2 Hw i)]. destruct (proj1 Hw _ _ _ Wi) as [Ai Bi]. specialize (Bi Hu). subst t.
    destruct (w j) as [[e s]|] eqn:Wj.
    + destruct (proj1 Hw _ _ _ Wj) as [A B]. apply good_put; auto; [now apply inv_assign|]. intros X. rewrite (B X). reflexivity.
    + apply good_unset; auto. intros X. exfalso. now apply (proj2 Hw j).
  - destruct (w i) as [[g s]|] eqn:Wi.
    + destruct (proj1 Hw _ _ _ Wi) as [A B]. destruct (call o s) as [s' a] eqn:Ca.
      assert (NR : match o with Replace _ => False | ComputeBound _ | ReadBound _ => xo = false | _ => True end -> disciplined h (fun j => if j =? i then false else u j) = true ->
        Forall (right M) ([MkEvent g (ics G s') a] ++ run h (put w i (g, s')))).
      { intros Ho Hd'. destruct (call_inv _ _ _ _ _ _ Hm Ho A Ca) as [A' R']. cbn [app]. constructor; auto. eapply IH; [|exact Hd']. apply good_put; auto. discriminate. }
      destruct o; cbn in Hd; try (apply NR; auto; fail).
      * cbn in Ca. injection Ca as <- <-. apply andb_true_iff in Hd as [Hu Hd]. specialize (B Hu). subst s. cbn [app]. constructor; [exact I|]. eapply IH; [|exact Hd].
        apply put_same; auto. apply inv_construct.
      * destruct xo; [specialize (Hx eq_refl); cbn in Hx; discriminate|]. apply NR; auto.
      * destruct xo; [specialize (Hx eq_refl); cbn in Hx; discriminate|]. apply NR; auto.
    + cbn [app]. destruct o; cbn in Hd; try (apply andb_true_iff in Hd as [Hu Hd]; exfalso; now apply (proj2 Hw i));
      (eapply IH; [|exact Hd]; apply good_unset; auto; discriminate).
Qed.
Theorem caches_right h : exact_only h = true \/ bounds_differ G -> disciplined h (fun _ => false) = true -> Forall (right M) (history h).
Proof.
  intros [Hx|Hb] Hd; unfold history.
  - eapply (run_right true); eauto. split; discriminate.
  - eapply (run_right false); eauto; try discriminate. split; discriminate.
Qed.

(** * No undefined behaviour *)
Hypothesis (HW : well_formed G).
Lemma check_no_ub g r i m : e_classify G g = (CL_SUCCESS, r, i) -> check_ic G i m <> UB.
Proof.
  intros Hc. pose proof (HW _ _ _ Hc) as W. unfold check_ic.
  assert (Gen : forall k (f : nat -> list (nat * E) -> res bool), 1 <= k -> (forall l x, f l x <> UB) ->
    (if length m <? k then Ok false else match rev m with [] => UB | (l, _) :: rest => f l rest end) <> UB).
  { intros k f K F. destruct (Nat.ltb_spec (length m) k); [discriminate|]. destruct (rev m) as [|[l e] rest] eqn:R; auto.
    apply (f_equal (@length _)) in R. rewrite rev_length in R. cbn in R. lia. }
  destruct (i_type i) eqn:T; try discriminate.
  1-3: apply Gen; [cbn [andb]; try destruct (i_linear_zero i); lia|]; intros l x;
    destruct (l <? i_first i); [discriminate|]; destruct (negb _); [discriminate|]; destruct (_ && _); discriminate.
  - destruct (rev m) as [|[? ?] ?]; discriminate.
  - destruct (negb (length m =? i_conditions i)); discriminate.
Qed.
Lemma first_no_ub g r i m : e_classify G g = (CL_SUCCESS, r, i) -> m <> [] -> check_ic G i m = Ok true -> first_for_solution G i m <> UB.
Proof.
  intros Hc Hm Hk. pose proof (HW _ _ _ Hc) as W. unfold first_for_solution, check_ic in *.
  assert (Gen : forall k f, 1 <= k <= length m -> (if k =? 0 then UB else match nth_error (rev m) (k - 1) with Some (j, _) => Ok (f j) | None => UB end) <> @UB nat).
  { intros k f K. destruct (Nat.eqb_spec k 0) as [X|_]; [lia|]. destruct (nth_error (rev m) (k - 1)) as [[? ?]|] eqn:N; [discriminate|]. apply nth_error_None in N. rewrite rev_length in N. lia. }
  assert (Len : forall k (x : res bool), (if length m <? k then Ok false else x) = Ok true -> k <= length m).
  { intros k x X. destruct (Nat.ltb_spec (length m) k); [discriminate|auto]. }
  destruct m as [|p m]; [congruence|].
  destruct (i_type i) eqn:T; try discriminate; apply Len in Hk; cbn [andb] in Hk.
  1-2: apply (Gen (i_order i) (fun j => Nat.max (i_first i) j)); lia.
  apply (Gen (if i_simple i then 1 else i_order i) (fun j => Nat.max (i_first i) j)).
  destruct W as [W1 W2]. destruct (i_linear_zero i); [rewrite W2 by auto|destruct (i_simple i)]; cbn [length] in *; lia.
Qed.
Lemma finish_no_ub xo g s e : Inv G M xo g s -> cls G s = CL_SUCCESS -> snd (finish G e s) <> UB.
Proof.
  intros H C. unfold finish. rewrite C. pose proof (v_cls _ _ _ _ _ H ltac:(congruence)) as Cl. rewrite C in Cl.
  destruct (first_for_solution G (inf G s) (ics G s)) eqn:F; try discriminate. exfalso. destruct (ics G s) as [|p m] eqn:I; [discriminate|].
  assert (N : ics G s <> []) by congruence. destruct (v_ics _ _ _ _ _ H N) as [_ K]. rewrite I in K. refine (first_no_ub _ _ _ (p :: m) Cl _ K F). discriminate.
Qed.
(** Whatever is cached was computed for a recurrence classified with success. *)
Definition solved (s : state G) : Prop := exact G s <> None \/ lower G s <> None \/ upper G s <> None -> cls G s = CL_SUCCESS.
Lemma finish_cls e s : cls G (fst (finish G e s)) = cls G s.
Proof. unfold finish. destruct (cls G s) eqn:C; auto; destruct (first_for_solution G (inf G s) (ics G s)); auto. Qed.
Lemma approximate_cls b s : cls G (fst (approximate G b s)) = cls G s.
Proof. unfold approximate. destruct (e_approx G b (rhs G s) (inf G s)); auto. destruct b; cbn; [destruct (upper G s)|destruct (lower G s)]; auto; destruct (e_eqb G _ _); auto. Qed.
Lemma exact_by_type_cls s : cls G (fst (exact_by_type G s)) = cls G s.
Proof.
  unfold exact_by_type. destruct (i_type (inf G s)); auto.
  1-5: destruct (e_solve G (rhs G s) (inf G s)); auto; destruct (has_ics G _); cbn [andb]; auto; destruct (0 <? _); auto.
  2: destruct (e_solve G (rhs G s) (inf G s)); auto.
  pose proof (approximate_cls LOWER s) as A. destruct (approximate G LOWER s) as [s1 st1]. cbn in A. destruct (sum_ok st1); auto.
  pose proof (approximate_cls UPPER s1) as B. destruct (approximate G UPPER s1) as [s2 st2]. cbn in B. destruct (sum_ok st2); [|cbn; congruence].
  destruct (lower G s2), (upper G s2); cbn; try congruence. destruct (e_eqb G _ _); [destruct (has_ics G _)|]; cbn; congruence.
Qed.
Lemma approximate_no_ub b s : bound_of G b (fst (approximate G b s)) <> None \/ snd (approximate G b s) <> SUCCESS.
Proof.
  unfold approximate. destruct (e_approx G b (rhs G s) (inf G s)) eqn:Ea.
  - left. destruct b; cbn; [destruct (upper G s)|destruct (lower G s)]; cbn; try discriminate; destruct (e_eqb G _ _); cbn; discriminate.
  - right. cbn. eapply s_approx_not; eauto.
Qed.
Lemma approximate_keeps b s : bound_of G LOWER s <> None -> bound_of G LOWER (fst (approximate G b s)) <> None.
Proof.
  unfold approximate. destruct (e_approx G b (rhs G s) (inf G s)) eqn:Ea; auto. intros H. destruct b; cbn in *; [destruct (upper G s)|destruct (lower G s) eqn:L]; cbn; try discriminate; try destruct (e_eqb G _ _); cbn; rewrite ?L; congruence || discriminate.
Qed.
Lemma exact_by_type_no_ub s : snd (exact_by_type G s) <> UB.
Proof.
  unfold exact_by_type. destruct (i_type (inf G s)); try discriminate.
  1-5: destruct (e_solve G (rhs G s) (inf G s)); try discriminate; destruct (has_ics G _); cbn [andb]; try discriminate; destruct (0 <? _); discriminate.
  2: destruct (e_solve G (rhs G s) (inf G s)); discriminate.
  pose proof (approximate_no_ub LOWER s) as A. destruct (approximate G LOWER s) as [s1 st1]. cbn in A.
  destruct (sum_ok st1) eqn:O1; [|discriminate]. destruct st1; try discriminate.
  pose proof (approximate_no_ub UPPER s1) as B. pose proof (approximate_keeps UPPER s1) as K. destruct (approximate G UPPER s1) as [s2 st2]. cbn in B, K.
  destruct (sum_ok st2) eqn:O2; [|discriminate]. destruct st2; try discriminate.
  destruct A as [A|A]; [|congruence]. destruct B as [B|B]; [|congruence]. specialize (K A). destruct (lower G s2); [|congruence]. destruct (upper G s2); [|congruence].
  destruct (e_eqb G _ _); [destruct (has_ics G _)|]; discriminate.
Qed.
Lemma solved_classify xo g s : Inv G M xo g s -> solved s -> solved (classify G s).
Proof.
  intros H Hs. destruct (cls_dec G s) as [X|X].
  - rewrite (v_new _ _ _ _ _ H X), classify_new. destruct (e_classify G g) as [[c r] i]. unfold solved. cbn. intuition congruence.
  - now rewrite classify_done.
Qed.
Lemma map_status_no_ub c : map_status c <> UB. Proof. destruct c; discriminate. Qed.
Lemma compute_exact_ok xo g s : Inv G M xo g s -> solved s -> solved (fst (compute_exact_solution G s)) /\ snd (compute_exact_solution G s) <> UB.
Proof.
  intros H Hs. unfold compute_exact_solution. change (exact G (set_tried G true s)) with (exact G s). change (ev_exact G (set_tried G true s)) with (ev_exact G s).
  change (lower G (set_tried G true s)) with (lower G s). change (upper G (set_tried G true s)) with (upper G s).
  destruct (exact G s) as [e|] eqn:Ex.
  - assert (C : cls G s = CL_SUCCESS) by (apply Hs; left; congruence). destruct (ev_exact G s); [|destruct (has_ics G _)]; cbn; (split; [intros _; exact C|discriminate]).
  - assert (BY : solved (fst (let s0 := classify G (set_tried G true s) in match cls G s0 with CL_SUCCESS => exact_by_type G s0 | c => (s0, map_status c) end)) /\
        snd (let s0 := classify G (set_tried G true s) in match cls G s0 with CL_SUCCESS => exact_by_type G s0 | c => (s0, map_status c) end) <> UB).
    { replace (classify G (set_tried G true s)) with (set_tried G true (classify G s)).
      - pose proof (solved_classify _ _ _ H Hs) as S1. cbv zeta. change (cls G (set_tried G true (classify G s))) with (cls G (classify G s)).
        destruct (cls G (classify G s)) eqn:C; try (split; [exact S1|discriminate]).
        split; [|apply exact_by_type_no_ub]. intros _. rewrite exact_by_type_cls. exact C.
      - unfold classify. cbn. destruct (cls G s); auto. destruct (e_classify G (rhs G s)) as [[c r0] i]. reflexivity. }
    destruct (lower G s) as [l|] eqn:El; [destruct (upper G s) as [u|] eqn:Eu; [destruct (e_eqb G l u)|]|]; auto.
    cbn. split; [|discriminate]. intros _. apply Hs. right. left. congruence.
Qed.
Lemma compute_bound_ok xo b g s : Inv G M xo g s -> solved s -> solved (fst (compute_bound_top G b s)) /\ snd (compute_bound_top G b s) <> UB.
Proof.
  intros H Hs. unfold compute_bound_top. destruct (bound_of G b s) as [l|] eqn:Eb.
  - assert (C : cls G s = CL_SUCCESS) by (apply Hs; destruct b; cbn in Eb; intuition congruence). destruct (_ && _); cbn; (split; [intros _|discriminate]); destruct b; exact C.
  - destruct (exact G s) as [e|] eqn:Ex.
    + assert (C : cls G s = CL_SUCCESS) by (apply Hs; left; congruence). cbn. split; [intros _|discriminate]. destruct (_ && _); destruct b; exact C.
    + pose proof (solved_classify _ _ _ H Hs) as S1. destruct (inv_classify G M HS xo g s H) as [H1 _]. set (s1 := classify G s) in *. clearbody s1.
      destruct (cls G s1) eqn:C; try (split; [exact S1|discriminate]).
      assert (CB : solved (fst (compute_bound G b s1)) /\ snd (compute_bound G b s1) <> UB).
      { unfold compute_bound.
        assert (NF : forall r, r = match e_approx G b (rhs G s1) (inf G s1) with inl e => (match b with LOWER => set_lower G (Some e) s1 | UPPER => set_upper G (Some e) s1 end, Ok SUCCESS) | inr st => (s1, Ok st) end -> solved (fst r) /\ snd r <> UB).
        { intros r ->. destruct (e_approx G b (rhs G s1) (inf G s1)); cbn; [|split; [exact S1|discriminate]]. split; [intros _; destruct b; exact C|discriminate]. }
        destruct (i_type (inf G s1)); try (eapply NF; reflexivity). clear NF.
        pose proof (approximate_cls b s1) as A. pose proof (approximate_no_ub b s1) as B. destruct (approximate G b s1) as [s2 st]. cbn in A, B. rewrite C in A.
        destruct (sum_ok st) eqn:O; [|cbn; split; [intros _; exact A|discriminate]]. destruct st; try discriminate. destruct B as [B|B]; [|congruence].
        destruct (has_ics G s2); [|cbn; split; [intros _; exact A|discriminate]].
        destruct b; cbn in B; [destruct (lower G s2); [|congruence]; cbn; split; [intros _; exact A|discriminate]|].
        destruct (upper G s2); [|congruence]. destruct (lower G s2); cbn; (split; [intros _; exact A|discriminate]). }
      destruct (i_type (inf G s1)); try exact CB; try (destruct (tried G s1)); try (cbn; split; [exact S1|discriminate]); now apply (compute_exact_ok xo g).
Qed.
Lemma call_ok xo o g s s' a : match o with Replace _ => False | ComputeBound _ | ReadBound _ => xo = false | _ => True end ->
  xo = true \/ bounds_differ G -> Inv G M xo g s -> solved s -> call o s = (s', a) -> solved s' /\ ~ undefined a.
Proof.
  intros Ho Hm H Hs. destruct o; cbn [call]; try tauto.
  - unfold set_initial_conditions. set (s1 := match ics G s with [] => s | _ => reset_initial_conditions G s end).
    assert (H1 : Inv G M xo g s1 /\ solved s1) by (unfold s1; destruct (ics G s); [auto|split; [now apply inv_reset|exact Hs]]). destruct H1 as [H1 S1].
    pose proof (solved_classify _ _ _ H1 S1) as S2. destruct (inv_classify G M HS xo g s1 H1) as [H2 C2]. set (s2 := classify G s1) in *. clearbody s2.
    destruct (cls G s2) eqn:C; try (intros [= <- <-]; split; [exact S2|intros []]).
    pose proof (v_cls _ _ _ _ _ H2 ltac:(congruence)) as Cl. rewrite C in Cl. pose proof (check_no_ub _ _ _ m Cl) as N.
    destruct (check_ic G (inf G s2) m) as [[]| |]; intros [= <- <-]; (split; [exact S2|]); try (intros []). congruence.
  - intros [= <- <-]. split; [exact Hs|intros []].
  - intros [= <- <-]. split; [now apply (solved_classify xo g)|intros []].
  - pose proof (compute_exact_ok _ _ _ H Hs) as [A B]. destruct (compute_exact_solution G s) as [s1 r]. intros [= <- <-]. split; auto. destruct r; cbn in *; auto.
  - pose proof (compute_bound_ok _ b _ _ H Hs) as [A B]. destruct (compute_bound_top G b s) as [s1 r]. intros [= <- <-]. split; auto. destruct r; cbn in *; auto.
  - unfold exact_solution. destruct (exact G s) as [e|] eqn:Ex; [|intros [= <- <-]; split; [exact Hs|intros []]].
    assert (C : cls G s = CL_SUCCESS) by (apply Hs; left; congruence).
    assert (F : forall e1 t, Inv G M xo g t -> cls G t = CL_SUCCESS -> (let (s0, r) := finish G e1 t in (s0, Read None r)) = (s', a) -> solved s' /\ ~ undefined a).
    { intros e1 t Ht Ct. pose proof (finish_cls e1 t) as X. pose proof (finish_no_ub xo g t e1 Ht Ct) as Y. destruct (finish G e1 t) as [s0 r]. cbn in X, Y. intros [= <- <-]. split; [intros _; congruence|destruct r; cbn in *; auto]. }
    pose proof (v_exact _ _ _ _ _ H _ Ex) as He.
    destruct (has_ics G s) eqn:Hi; [apply has_ics_spec in Hi; destruct (ev_exact G s)|].
    + now apply F.
    + apply F; [|exact C]. apply inv_ev_three; auto. apply (s_rename_at _ _ HS). now apply (on_ic_exact G M HS xo).
    + apply F; [|exact C]. apply inv_exact; auto; [congruence|now apply (s_rename _ _ HS)].
  - destruct (read_bound G b s) as [s1 r] eqn:R. intros [= <- <-]. pose proof (read_bound_inv G M HS xo Hm b g s s1 r Ho H R) as [H1 _].
    unfold read_bound in R. destruct (bound_of G b s) as [e|] eqn:Ex; [|injection R as <- <-; split; [exact Hs|intros []]].
    assert (C : cls G s = CL_SUCCESS) by (apply Hs; destruct b; cbn in Ex; intuition congruence).
    assert (F : forall e1 t, cls G t = CL_SUCCESS -> inf G t = inf G s -> ics G t = ics G s -> finish G e1 t = (s1, r) -> solved s1 /\ ~ undefined (Read (Some b) r)).
    { intros e1 t Ct It Mt X. assert (Fs : snd (finish G e1 t) <> UB).
      { pose proof (finish_no_ub xo g s e1 H C) as Y. unfold finish in *. rewrite Ct, It, Mt. rewrite C in Y. destruct (first_for_solution G (inf G s) (ics G s)); cbn in *; auto; discriminate. }
      pose proof (finish_cls e1 t) as Z. rewrite X in Fs, Z. cbn in Fs, Z. split; [intros _; congruence|destruct r; cbn; auto]. }
    destruct (has_ics G s); [destruct (ev_bound_of G b s)|]; (eapply F; [| | |exact R]); destruct b; auto.
Qed.
Lemma run_defined xo h : xo = true \/ bounds_differ G -> (xo = true -> exact_only h = true) ->
  forall w u, good xo w u -> (forall i g s, w i = Some (g, s) -> solved s) -> disciplined h u = true -> Forall (fun v => ~ undefined (ev_answer v)) (run h w).
Proof.
  intros Hm. induction h as [|c h IH]; intros Hx w u Hw Hsv Hd; [constructor|].
  assert (Hx' : xo = true -> exact_only h = true) by (intros X; specialize (Hx X); unfold exact_only in Hx; cbn in Hx; now apply andb_true_iff in Hx).
  specialize (IH Hx'). cbn [run].
  assert (PUT : forall i g s, solved s -> forall j g' s', put w i (g, s) j = Some (g', s') -> solved s').
  { intros i g s X j g' s'. unfold put. destruct (j =? i); [intros [= <- <-]; auto|apply Hsv]. }
  destruct c as [i e|i j|i j|i o]; cbn [step].
  - cbn [app]. eapply IH; [| |exact Hd]. { apply good_put; auto. apply inv_construct. } { apply PUT. unfold solved; cbn; intuition congruence. }
  - cbn [app]. cbn in Hd. destruct (w j) as [[e s]|] eqn:Wj.
    + eapply IH; [| |exact Hd]. * destruct (proj1 Hw _ _ _ Wj) as [A B]. apply good_put; auto; [now apply inv_copy|]. intros X. rewrite (B X). reflexivity.
      * apply PUT. exact (Hsv _ _ _ Wj).
    + eapply IH; [| |exact Hd]; auto. apply good_unset; auto. intros X. exfalso. now apply (proj2 Hw j).
  - cbn [app]. cbn in Hd. apply andb_true_iff in Hd as [Hu Hd].
    destruct (w i) as [[gi t]|] eqn:Wi; [|exfalso; now apply (proj2 Hw i)]. destruct (proj1 Hw _ _ _ Wi) as [Ai Bi]. specialize (Bi Hu). subst t.
    destruct (w j) as [[e s]|] eqn:Wj.
    + eapply IH; [| |exact Hd]. * destruct (proj1 Hw _ _ _ Wj) as [A B]. apply good_put; auto; [now apply inv_assign|]. intros X. rewrite (B X). reflexivity.
      * apply PUT. exact (Hsv _ _ _ Wj).
    + eapply IH; [| |exact Hd]; auto. apply good_unset; auto. intros X. exfalso. now apply (proj2 Hw j).
  - destruct (w i) as [[g s]|] eqn:Wi.
    + destruct (proj1 Hw _ _ _ Wi) as [A B]. destruct (call o s) as [s' a] eqn:Ca.
      assert (NR : match o with Replace _ => False | ComputeBound _ | ReadBound _ => xo = false | _ => True end -> disciplined h (fun j => if j =? i then false else u j) = true ->
        Forall (fun v => ~ undefined (ev_answer v)) ([MkEvent g (ics G s') a] ++ run h (put w i (g, s')))).
      { intros Ho Hd'. destruct (call_inv _ _ _ _ _ _ Hm Ho A Ca) as [A' R']. destruct (call_ok _ _ _ _ _ _ Ho Hm A (Hsv _ _ _ Wi) Ca) as [S' U']. cbn [app]. constructor; auto. eapply IH; [| |exact Hd']; [|now apply PUT]. apply good_put; auto. discriminate. }
      destruct o; cbn in Hd; try (apply NR; auto; fail).
      * cbn in Ca. injection Ca as <- <-. apply andb_true_iff in Hd as [Hu Hd]. specialize (B Hu). subst s. cbn [app]. constructor; [intros []|]. eapply IH; [| |exact Hd].
        -- apply put_same; auto. apply inv_construct.
        -- apply PUT. unfold solved; cbn; intuition congruence.
      * destruct xo; [specialize (Hx eq_refl); cbn in Hx; discriminate|]. apply NR; auto.
      * destruct xo; [specialize (Hx eq_refl); cbn in Hx; discriminate|]. apply NR; auto.
    + cbn [app]. destruct o; cbn in Hd; try (apply andb_true_iff in Hd as [Hu Hd]; exfalso; now apply (proj2 Hw i));
      (eapply IH; [| |exact Hd]; [|exact Hsv]; apply good_unset; auto; discriminate).
Qed.
Theorem defined_behaviour h : exact_only h = true \/ bounds_differ G -> disciplined h (fun _ => false) = true -> Forall (fun v : event G => ~ undefined (ev_answer v)) (history h).
Proof.
  intros [Hx|Hb] Hd; unfold history.
  - eapply (run_defined true); eauto; try discriminate. split; discriminate.
  - eapply (run_defined false); eauto; try discriminate. split; discriminate.
Qed.
End World.
