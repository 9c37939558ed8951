(** simplify_numer_denom, simplify_all, and a test for valid runs. *)
From Coq Require Import ZArith QArith Qcanon Reals List String Bool Lia Lra Permutation.
From Verif Require Import IntUtilModel Ast ExprModel ExprSpec ExprProofs1 ExprProofs2 NonLinProofs NumFormModel CollectModel CollectSpec CollectProofs CollectProps PowModel PowSpec PowProofs FactModel FactSpec FactProps NumDenModel NumDenSpec NumDenProofs NumDenCases VerifyCases
  SumSimpModel SumSimpSpec SumSimpProps FactRwModel FactRwSpec FactRwProofs FactRwProofs2 FactRwProps LogModel LogSpec LogProps SimpDrvModel SimpDrvSpec SimpDrvProofs.
Import ListNotations.
Local Open Scope list_scope.
Local Open Scope R_scope.

Section All.
Context (I : interp) (G : ginac) (HG : ginac_ok I G) (expand : expr -> expr) (He : forall e, refines I e (expand e)).
Lemma numer_denom_ok : resplits_units split_bases_exponents G -> forall e, nice_sums split_bases_exponents G (numerator_denominator G) e ->
  forall rho r v, simplify_numer_denom G expand e = Some r -> eval I rho e = Some v -> eval I rho r = Some v.
Proof.
  intros Ru e Ns rho r v H Ev. unfold simplify_numer_denom in H. destruct (numerator_denominator G e) as [[n d]|] eqn:E; [|discriminate]. assert (R : gmul G (expand n) (gpow G (expand d) minus_one) = r) by congruence. clear H.
  destruct (C51_quotient_partial I G HG Ru e Ns n d rho v E Ev) as (x & y & X & Y & Ny & Exy). rewrite <- R. replace v with (x * / y) by (rewrite Exy; field; auto).
  apply (gmul_val _ _ HG); [now apply He|]. apply (gpow_val _ _ HG _ _ _ y (-1)); [now apply He|apply minus_one_v|]. now apply rpow_m1'.
Qed.
Context (nd simplify : expr -> expr) (sum_pe : expr -> string -> string -> expr -> expr) (gosper : string -> expr -> Z -> expr -> option expr) (h : string).
Context (numer denom : expr -> expr) (canon : list expr -> list expr).
Lemma all_ok : keeps_integers I G -> exp_std I -> log_std I -> factorial_std I -> binom_std I -> resplits_units split_bases_exponents G ->
  (forall e, refines I e (simplify e)) -> sums_powers I sum_pe -> telescopes I gosper -> fractions I numer denom -> (forall l, Permutation (canon l) l) ->
  forall rho N fuel e e1 e2 e3 e4 e5 cs v, rho "n"%string = IZR N -> h <> "n"%string ->
  simplify_numer_denom G expand e = Some e1 -> nice_sums split_bases_exponents G (numerator_denominator G) e ->
  rewrite_fe G expand fuel (rewrite_binomials G e1) = Some e2 -> binomials_fine I rho e1 -> factorials_fine I (swapped_by G expand) rho (rewrite_binomials G e1) ->
  collect_sums G expand simplify sum_pe gosper h fuel (expand e2) = Some e3 ->
  (e3 = expand e2 \/ Forall (fun a => forall c k b, sum_addend a = Some (c, k, b) -> has h b = false /\ no_capture k (Sym h) b) (ops (expand e2)) /\
     sums_right I G expand simplify sum_pe h true rho (gsum G h (Num 1) (Sym "n") (expand (snd (fst (merge G h (ops (expand e2)))))))) ->
  simplify_ex_for_output G expand nd fuel (expand e3) false = Some (e4, cs) -> calls_valid I G nd rho cs ->
  simplify_log G numer denom (fun p => PowModel.simplify_powers G p false) canon fuel (expand e4) = Some e5 -> logs_fine I G numer denom (fun p => PowModel.simplify_powers G p false) canon rho (expand e4) ->
  simplify_all G expand nd simplify sum_pe gosper h numer denom canon fuel e = Some (expand e5) /\ (eval I rho e = Some v -> eval I rho (expand e5) = Some v).
Proof.
  intros HK Hx Hl Hf Hb Ru Hs Hp Ht Hfr Hc rho N fuel e e1 e2 e3 e4 e5 cs v Hn Hh E1 P1 E2 P2 P2' E3 P3 E4 P4 E5 P5. split.
  - unfold simplify_all, then_, stage_factorials, stage_sums, stage_output, stage_logs. rewrite E1, E2, E3. cbn [option_map]. rewrite E4. cbn [option_map fst]. rewrite E5. reflexivity.
  - intros Ev. apply He. apply (C56_simplify_log_partial I G HG Hl Hx numer denom _ Hfr canon Hc fuel rho (expand e4) e5 v P5 E5). apply He.
    unfold simplify_ex_for_output in E4. apply (simplify_output_ok I G HG HK expand nd He Hx fuel false (expand (expand e3)) rho e4 cs v E4 P4). apply He, He.
    assert (V2 : eval I rho (expand e2) = Some v); [apply He|destruct P3 as [->|[P3 P3']]; [exact V2|exact (C46_collect_sums_partial I G HG expand simplify sum_pe gosper h He Hs Hp Ht rho N fuel (expand e2) e3 v Hn Hh P3 P3' E3 V2)]].
    apply (C55_factorials_and_exponentials_partial I G HG Hf expand He fuel rho (rewrite_binomials G e1) e2 v P2' E2).
    apply (C55_binomials_partial I G HG Hf Hb e1 rho v P2). exact (numer_denom_ok Ru e P1 rho e1 v E1 Ev).
Qed.
End All.

(** * A test for valid runs, where the symbols other than the summation variables are positive *)
Fixpoint posb (ks : list string) (e : expr) : bool :=
  match e with
  | Num q => q_lt 0 q
  | Sym s => negb (existsb (String.eqb s) ks)
  | Add (a :: l) => posb ks a && forallb (posb ks) l
  | Mul l => forallb (posb ks) l
  | Pow b x => posb ks b && valb ks x
  | _ => false
  end
with valb (ks : list string) (e : expr) : bool :=
  match e with
  | Num _ | Sym _ => true
  | Add l | Mul l => forallb (valb ks) l
  | Pow b x => posb ks b && valb ks x
  | _ => false
  end.
Definition call_check (G : ginac) (p : list string * call) : bool :=
  let bases l := forallb (fun f => match f with Pow b _ => posb (fst p) b | _ => true end) l in
  match snd p with
  | CallPowers e => match innermost e with Mul l => forallb (fun f => posb (fst p) (innermost f)) l | b => posb (fst p) b end
  | CallNumbers b1 x1 b2 x2 => q_lt 0 b1 && q_lt 0 b2 && negb (Qc_eqb x1 0) && negb (Qc_eqb x2 0)
  | CallExponents _ l => bases l
  | CallCollect l => bases l && match collect_same_exponents G idE false (Mul l) with Mul l' => absorbs_singleb G l' | _ => true end
  end.
Section Test.
Context (I : interp) (rho : string -> R) (ks : list string) (Hp : forall s, ~ In s ks -> 0 < rho s).
Lemma test_sound e : (posb ks e = true -> exists u, eval I rho e = Some u /\ 0 < u) /\ (valb ks e = true -> exists u, eval I rho e = Some u).
Proof.
  induction e as [q|c|s|l IH|l IH|b x IHb IHx|f l IH|k lo up b IH1 IH2 IH3|k lo up b IH1 IH2 IH3] using expr_ind'; try (split; discriminate).
  - split; intros H; [|eexists; reflexivity]. exists (rv q). split; auto. change (posb ks (Num q)) with (q_lt 0 q) in H. apply q_lt_spec in H. now rewrite rv_0 in H.
  - split; intros H; [|eexists; reflexivity]. exists (rho s). split; auto. apply Hp. intros Hi. cbn [posb] in H. apply negb_true_iff in H. assert (X : existsb (String.eqb s) ks = true) by (apply existsb_exists; exists s; split; auto; apply String.eqb_refl). congruence.
  - assert (P : forall m, Forall (fun e => (posb ks e = true -> exists u, eval I rho e = Some u /\ 0 < u) /\ (valb ks e = true -> exists u, eval I rho e = Some u)) m ->
      (forallb (posb ks) m = true -> exists u, esum I rho m = Some u /\ 0 <= u) /\ (forallb (valb ks) m = true -> exists u, esum I rho m = Some u)).
    { intros m. induction 1 as [|a m [A1 A2] _ [M1 M2]]; [split; intros _; exists 0; auto; split; auto; lra|]. cbn [forallb]. split; intros H; apply andb_true_iff in H as [H1 H2]; rewrite esum_cons.
      - destruct (A1 H1) as (u & -> & Pu). destruct (M1 H2) as (w & -> & Pw). exists (u + w). split; auto. lra.
      - destruct (A2 H1) as (u & ->). destruct (M2 H2) as (w & ->). exists (u + w). auto. }
    split; intros H.
    + destruct l as [|a l]; [discriminate|]. change (posb ks a && forallb (posb ks) l = true)%bool in H. apply andb_true_iff in H as [H1 H2]. inversion IH as [|? ? Ha Hl]; subst. destruct (proj1 Ha H1) as (u & Eu & Pu). destruct (proj1 (P l Hl) H2) as (w & Ew & Pw).
      exists (u + w). rewrite eval_Add, esum_cons, Eu, Ew. split; auto. lra.
    + apply (proj2 (P l IH)). exact H.
  - assert (P : (forallb (posb ks) l = true -> exists u, eprod I rho l = Some u /\ 0 < u) /\ (forallb (valb ks) l = true -> exists u, eprod I rho l = Some u)).
    { induction IH as [|a m [A1 A2] _ [M1 M2]]; [split; intros _; exists 1; auto; split; auto; lra|]. cbn [forallb]. split; intros H; apply andb_true_iff in H as [H1 H2]; rewrite eprod_cons.
      - destruct (A1 H1) as (u & -> & Pu). destruct (M1 H2) as (w & -> & Pw). exists (u * w). split; auto. nra.
      - destruct (A2 H1) as (u & ->). destruct (M2 H2) as (w & ->). exists (u * w). auto. }
    exact P.
  - assert (P : (posb ks b && valb ks x = true)%bool -> exists u, eval I rho (Pow b x) = Some u /\ 0 < u).
    { intros H. apply andb_true_iff in H as [H1 H2]. destruct (proj1 IHb H1) as (u & Eu & Pu). destruct (proj2 IHx H2) as (y & Ey). exists (Rpower u y). split; [|apply exp_pos]. apply (power_intro I rho _ _ u y); auto. now apply rpow_pos. }
    split; intros H; [now apply P|]. destruct (P H) as (u & E & _). eauto.
Qed.
Lemma test_bases l : forallb (fun f => match f with Pow b _ => posb ks b | _ => true end) l = true -> bases_nonzero I rho l.
Proof. intros H b x u Hi Eu. rewrite forallb_forall in H. specialize (H _ Hi). cbn in H. destruct (proj1 (test_sound b) H) as (w & Ew & Pw). rewrite Ew in Eu. assert (w = u) by congruence. lra. Qed.
Lemma test_call G c : call_check G (ks, c) = true -> call_valid I G idE rho c.
Proof.
  destruct c as [e|b1 x1 b2 x2|o l|l]; unfold call_check; cbn [fst snd]; intros H.
  - cbn [call_valid]. unfold simplifiable. assert (P : forall b xs, posb ks b = true -> combinable I rho b xs) by (intros b xs Hb; destruct (proj1 (test_sound b) Hb) as (u & Eu & Pu); exists u; auto).
    destruct (innermost e); try (now apply P). apply Forall_forall. intros f Hf. rewrite forallb_forall in H. apply P. now apply H.
  - rewrite !andb_true_iff in H. destruct H as (((H1 & H2) & H3) & H4). apply q_lt_spec in H1, H2. rewrite rv_0 in H1, H2. cbn [call_valid].
    assert (Nz : forall x, negb (Qc_eqb x 0) = true -> rv x <> 0). { intros x Hx E. rewrite <- rv_0 in E. apply rv_inj in E. subst x. apply negb_true_iff in Hx. assert (Qc_eqb 0 0 = true) by now apply Qc_eqb_eq. congruence. }
    repeat split; auto.
  - split; [now apply test_bases|]. intros b v _ E. exact E.
  - apply andb_true_iff in H as [H1 H2]. split; [now apply test_bases|]. split; [intros b v _ E; exact E|]. intros l' E. rewrite E in H2. now apply absorbs_singleb_sound.
Qed.
End Test.
Theorem test_valid I G rho cs : (forall s, 0 < rho s) -> forallb (call_check G) cs = true -> calls_valid I G idE rho cs.
Proof.
  intros Hp H ks c Hi rho' Ag _. rewrite forallb_forall in H. apply (test_call I rho' ks); [|now apply H]. intros s Hs. rewrite Ag; auto.
Qed.
