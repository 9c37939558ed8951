From Coq Require Import List Bool Arith Lia.
From Verif Require Import RecModel InvModel InvSpec.
Import ListNotations.
Local Open Scope list_scope.
Set Bullet Behavior "Strict Subproofs".

(** A decision for a non-linear or weighted-average recurrence leaves its structure. *)
Definition early (o : robj) : Prop := match r_type o with NON_LINEAR => r_nl o = true | WEIGHTED_AVERAGE => r_wa o = true | MAX_FUNCTION | UNKNOWN => False | _ => True end.
Lemma decided l : forall o, (r_cls o = NOT_CLASSIFIED \/ early o) -> let o' := fold_left (fun o d => decide d o) l o in r_cls o' = NOT_CLASSIFIED \/ early o'.
Proof. induction l as [|d l IH]; intros o H; cbn [fold_left]; auto. apply IH. right. destruct d; cbn; auto. Qed.
Lemma runs_ok l : forall o o', (forall a, In a l -> a_ending a <> EThrow) -> (forall a c, In a l -> a_ending a = ERefuse c -> c <> CL_SUCCESS /\ c <> NOT_CLASSIFIED) ->
  r_cls o = NOT_CLASSIFIED -> classify_runs l o = Some o' -> r_cls o' = CL_SUCCESS -> structure_present o'.
Proof.
  induction l as [|a l IH]; intros o o' HT HR C; cbn [classify_runs]. { intros [= <-]. congruence. }
  pose proof (decided (a_decisions a) o (or_introl C)) as D. cbn zeta in D. set (o1 := fold_left _ _ o) in *.
  destruct (a_ending a) eqn:E.
  - intros [= <-] _. exact Logic.I.
  - destruct D as [D|D]. { rewrite D. discriminate. } intros H _. assert (X : exists o2, allocate o1 = Some o2 /\ o' = set_type CL_SUCCESS (r_type o2) o2).
    { destruct (r_cls o1); try discriminate H; (destruct (allocate o1) as [o2|]; [|discriminate H]); injection H as <-; exists o2; auto. }
    destruct X as (o2 & A & ->). unfold allocate in A. unfold early in D. unfold structure_present. destruct (r_type o1) eqn:T; try discriminate A; injection A as <-; cbn; rewrite ?T; auto; tauto.
  - intros [= <-] H. cbn in H. destruct (HR a c (or_introl eq_refl) E). congruence.
  - intros H. apply (IH (set_type NOT_CLASSIFIED UNKNOWN o1) o'); auto; intros; [apply HT|eapply HR]; cbn; eauto.
  - exfalso. exact (HT a (or_introl eq_refl) E).
Qed.
Definition sane (b : bool) (o : robj) : Prop := b = true \/ (r_cls o = CL_SUCCESS -> structure_present o).
Lemma run_sane h : forall w w' b, no_throw h -> refusals h -> irun h w = Some w' -> (forall i o, w i = Some o -> sane (b i) o) -> forall i o, w' i = Some o -> sane (from_default h b i) o.
Proof.
  induction h as [|c h IH]; intros w w' b NT RF; cbn [irun from_default]. { intros [= <-]. auto. }
  destruct (istep c w) as [w1|] eqn:S; [|discriminate]. intros H W.
  assert (NT' : no_throw h) by (intros i l a X; apply (NT i l a); now right). assert (RF' : refusals h) by (intros i l a k X; apply (RF i l a k); now right).
  destruct c as [k|k|k j|k j|k|k l]; cbn [istep] in S; (apply (IH w1 w'); auto); intros i o.
  - destruct (w k); [discriminate|]. injection S as <-. unfold iput. destruct (Nat.eqb_spec i k); [left; auto|apply W].
  - destruct (w k); [discriminate|]. injection S as <-. unfold iput. destruct (Nat.eqb_spec i k); [|apply W]. intros [= <-]. right. discriminate.
  - destruct (w k); [discriminate|]. destruct (w j) as [oj|] eqn:J; [|discriminate]. injection S as <-. unfold iput. destruct (Nat.eqb_spec i k); [|apply W]. intros [= <-]. exact (W j oj J).
  - destruct (w k); [|discriminate]. destruct (w j) as [oj|] eqn:J; [|discriminate]. injection S as <-. unfold iput. destruct (Nat.eqb_spec i k); [|apply W]. intros [= <-]. exact (W j oj J).
  - destruct (w k); [|discriminate]. injection S as <-. unfold iput. destruct (Nat.eqb_spec i k); [|apply W]. intros [= <-]. right. discriminate.
  - destruct (w k) as [ok|] eqn:K; [|discriminate]. destruct (classify l ok) as [o1|] eqn:CL; [|discriminate]. injection S as <-.
    unfold iput. destruct (Nat.eqb_spec i k) as [->|]; [|apply W]. intros [= <-]. unfold classify in CL.
    destruct (W k ok K) as [X|X]; [left; auto|]. right. destruct (r_cls ok) eqn:C; try (injection CL as <-; intros Y; apply X; congruence).
    apply (runs_ok l ok); auto; intros; [eapply NT|eapply RF]; cbn; eauto.
Qed.
Theorem structures h w i o : no_throw h -> refusals h -> after h = Some w -> w i = Some o -> from_default h (fun _ => false) i = false -> r_cls o = CL_SUCCESS -> structure_present o.
Proof. intros H1 H2 H3 H4 H5. destruct (run_sane h _ _ (fun _ => false) H1 H2 H3 (fun i o (E : None = Some o) => ltac:(discriminate E)) i o H4) as [X|X]; auto. congruence. Qed.
Theorem ok_accepts h w i o : no_throw h -> refusals h -> after h = Some w -> w i = Some o -> from_default h (fun _ => false) i = false -> r_cls o = CL_SUCCESS -> r_type o <> ORDER_ZERO -> OK o = true.
Proof. intros H1 H2 H3 H4 H5 H6 N. pose proof (structures _ _ _ _ H1 H2 H3 H4 H5 H6) as P. unfold structure_present in P. unfold OK. destruct (r_type o); auto; try congruence; now rewrite P. Qed.
Theorem ok_zero o : r_type o = ORDER_ZERO -> OK o = false.
Proof. intros T. unfold OK. rewrite T. destruct (r_fo o); auto. Qed.
Theorem ok_unclassified i : exists w, after [IMake i] = Some w /\ w i = Some new_object /\ OK new_object = true.
Proof. eexists. split; [reflexivity|]. unfold iput. rewrite Nat.eqb_refl. auto. Qed.
