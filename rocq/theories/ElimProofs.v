From Coq Require Import ZArith QArith Qcanon Qreals Reals List String Bool Lia Lra.
From Verif Require Import Ast ExprModel ExprSpec ExprProofs1 ExprProofs2 FactProofs2 SeqInterp ElimModel ElimSpec.
Import ListNotations.
Local Open Scope list_scope.
Local Open Scope R_scope.

Lemma no_binders_all l : fold_right (fun a P => no_binders a /\ P) True l <-> Forall no_binders l.
Proof. induction l; cbn; [intuition|]. rewrite IHl, Forall_cons_iff. tauto. Qed.
Lemma upd_upd (rho : string -> R) s a b t : upd (upd rho s a) s b t = upd rho s b t.
Proof. unfold upd. destruct (String.eqb t s); auto. Qed.
Lemma INR_IZR n : INR n = IZR (Z.of_nat n). Proof. now rewrite INR_IZR_INZ. Qed.

Section Basic.
Context (I : interp) (rho : string -> R) (x : nat -> R).
Notation ev n e := (at_n I rho x n e).
Lemma n_val n : ev n (Sym "n") = Some (INR n). Proof. reflexivity. Qed.
Lemma x_n_val n : ev n x_n = Some (x n).
Proof.
  unfold at_n, x_n. cbn [eval omap]. replace (upd rho "n" (INR n) "n"%string) with (INR n) by reflexivity. cbn [obind with_x ifun].
  rewrite INR_IZR, as_int_IZR. replace (0 <=? Z.of_nat n)%Z with true by (symmetry; apply Z.leb_le; lia). now rewrite Nat2Z.id.
Qed.
Lemma x_plus_val n z k : (Z.of_nat n + z)%Z = Z.of_nat k -> ev n (Fun FX [n_plus z]) = Some (x k).
Proof.
  intros E. unfold at_n. cbn [eval]. assert (O : omap (eval (with_x I x) (upd rho "n" (INR n))) [n_plus z] = Some [IZR (Z.of_nat k)]).
  { cbn [omap]. unfold n_plus. rewrite eval_Add2. cbn [eval olift2]. rewrite rv_zq. replace (upd rho "n" (INR n) "n"%string) with (INR n) by reflexivity. rewrite <- E, plus_IZR, <- INR_IZR. reflexivity. }
  rewrite O. cbn [obind with_x ifun]. rewrite as_int_IZR. replace (0 <=? Z.of_nat k)%Z with true by (symmetry; apply Z.leb_le; lia). now rewrite Nat2Z.id.
Qed.
Lemma x_n_plus_val n z k : (Z.of_nat n + z)%Z = Z.of_nat k -> ev n (x_n_plus z) = Some (x k).
Proof.
  intros E. unfold x_n_plus. destruct (Z.eqb_spec z 0).
  - assert (n = k) as -> by lia. apply x_n_val.
  - now apply x_plus_val.
Qed.
Lemma n_shift_val n m k : (Z.of_nat n + m)%Z = Z.of_nat k -> ev k (n_shift m) = Some (INR n).
Proof.
  intros E. unfold n_shift. destruct (Z.eqb_spec m 0).
  - assert (n = k) as -> by lia. apply n_val.
  - unfold at_n, n_plus. rewrite eval_Add2. cbn [eval olift2]. rewrite rv_zq. replace (upd rho "n" (INR k) "n"%string) with (INR k) by reflexivity.
    rewrite !INR_IZR, <- E, plus_IZR, opp_IZR. f_equal. lra.
Qed.
Lemma n_shift_fresh m s : has s (n_shift m) = true -> s = "n"%string.
Proof. unfold n_shift. destruct (m =? 0)%Z; cbn; rewrite ?orb_false_r; apply String.eqb_eq. Qed.
Lemma shift_val G e n m k v : (forall x, ginac_ok (with_x I x) G) -> no_binders e -> (Z.of_nat n + m)%Z = Z.of_nat k ->
  ev n e = Some v -> ev k (substitute G (Sym "n") (n_shift m) e) = Some v.
Proof.
  intros HG NB E H. unfold at_n in *. apply (substitute_ok (with_x I x) G (HG x) "n" (n_shift m) e (no_capture_nobind _ _ _ NB)) with (w := INR n).
  - now apply n_shift_val.
  - rewrite <- H. apply eval_ext. intros s. apply upd_upd.
Qed.
End Basic.

Section Elim.
Context (I : interp) (G : ginac).
Hypothesis HG : forall x, ginac_ok (with_x I x) G.
Context (expand collect : expr -> expr).
Hypothesis Hexp : forall x e, refines (with_x I x) e (expand e).
Hypothesis Hcol : forall x e, refines (with_x I x) e (collect e).

Lemma m1_val x rho n : at_n I rho x n (Num (-(1))%Qc) = Some (-1).
Proof. unfold at_n. cbn [eval]. rewrite rv_opp, rv_1. f_equal; lra. Qed.

Theorem negative_value rho rhs m c x n k v w : find_max G rhs = (m, c) -> no_binders rhs -> no_binders c ->
  (Z.of_nat n + m)%Z = Z.of_nat k ->
  at_n I rho x n rhs = Some v -> at_n I rho x n c = Some w -> w <> 0 ->
  at_n I rho x k (eliminate_negative G expand collect rhs) = Some ((v - x n) * / - w + x k).
Proof.
  intros F NB NC E Hv Hw N. unfold eliminate_negative. rewrite F. unfold at_n. apply Hexp. apply (gadd_val _ _ (HG x)); [|apply (x_n_val I rho x)].
  apply Hcol, Hexp. apply (gmul_val _ _ (HG x)).
  - apply (gsub_val _ _ (HG x)); [now apply (shift_val I rho x G rhs n m k)|]. apply (x_n_plus_val I rho x). lia.
  - apply (rinv_val _ _ (HG x)); [|lra]. replace (- w) with (-1 * w) by lra. apply (gmul_val _ _ (HG x)); [apply (m1_val x rho k)|].
    now apply (shift_val I rho x G c n m k).
Qed.
Theorem negative_equiv rho rhs m c x n k v w : find_max G rhs = (m, c) -> no_binders rhs -> no_binders c ->
  (Z.of_nat n + m)%Z = Z.of_nat k ->
  at_n I rho x n rhs = Some v -> at_n I rho x n c = Some w -> w <> 0 ->
  (holds_at I rho rhs x n <-> holds_at I rho (eliminate_negative G expand collect rhs) x k).
Proof.
  intros F NB NC E Hv Hw N. pose proof (negative_value _ _ _ _ _ _ _ _ _ F NB NC E Hv Hw N) as V. unfold holds_at. fold (at_n I rho x n rhs). 
  fold (at_n I rho x k (eliminate_negative G expand collect rhs)). rewrite V, Hv. split; intros H.
  - assert (v = x n) as -> by congruence. f_equal. lra.
  - f_equal. assert (Q : (v - x n) * / - w + x k = x k) by congruence.
    assert (Z0 : (v - x n) * / - w = 0) by lra. apply Rmult_integral in Z0 as [Z0|Z0]; [lra|]. exfalso. revert Z0. apply Rinv_neq_0_compat. lra.
Qed.

(** * The search for the largest shift *)
Hypothesis HB : no_new_binders G.
Lemma nb_num q : no_binders (Num q). Proof. exact Logic.I. Qed.
Lemma assign_nb a c st : no_binders c -> no_binders (snd st) -> no_binders (snd (assign_max a c st)).
Proof. intros. unfold assign_max. destruct (_ <=? _)%Z; auto. Qed.
Lemma scan_nb l : forall pc pa st, Forall no_binders l -> no_binders pc -> no_binders (snd st) -> no_binders (snd (scan_factors G l pc pa st)).
Proof.
  induction l as [|f l IH]; intros pc pa st Hl Hp Hs; cbn [scan_factors]; auto. apply Forall_cons_iff in Hl as [Hf Hl].
  assert (P : no_binders (gmul G pc f)) by now apply HB.
  destruct f as [| | | | | |[] [|? ?]| |]; apply IH; auto; destruct (is_num _ _); auto; apply assign_nb; auto.
Qed.
Lemma find_factor_nb e st : no_binders e -> no_binders (snd st) -> no_binders (snd (find_max_factor G e st)).
Proof.
  intros He Hs. destruct e as [| | | |l| |[] [|a ?]| |]; cbn [find_max_factor]; auto.
  - cbn in He. rewrite no_binders_all in He. assert (S : no_binders (snd (scan_factors G (rev l) (Num 1%Qc) (Num 0%Qc) st))).
    { apply scan_nb; auto; [now apply Forall_rev|exact Logic.I]. }
    destruct (_ <? _)%Z; auto. cbn [snd]. now apply HB.
  - apply assign_nb; auto. exact Logic.I.
Qed.
Lemma find_nb e : no_binders e -> no_binders (snd (find_max G e)).
Proof.
  intros He. destruct e; try (apply find_factor_nb; auto; exact Logic.I). cbn in He. rewrite no_binders_all in He. cbn [find_max].
  induction He as [|a l Ha Hl IH]; [exact Logic.I|]. cbn [fold_right]. now apply find_factor_nb.
Qed.

Lemma shift_spec a j : is_n_plus a j -> (match shift_of a with Some z => z | None => 0%Z end) = j.
Proof.
  intros [[-> ->]|[->| ->]]; [reflexivity| |]; cbn [shift_of]; rewrite String.eqb_refl, q_is_int_zq, q_int_zq; reflexivity.
Qed.
Lemma n_plus_nonzero a j : is_n_plus a j -> is_num 0 a = false.
Proof. intros [[-> ->]|[->| ->]]; reflexivity. Qed.
Definition dec_of (a : expr) : Z := match shift_of a with Some z => z | None => 0%Z end.
(** Factors without x: the argument does not change, the coefficient accumulates. *)
Lemma scan_plain l : forall pc pa st, Forall (fun f => ~ is_x f) l -> is_num 0 pa = true -> scan_factors G l pc pa st = st.
Proof.
  induction l as [|f l IH]; intros pc pa st Hl Hp; auto. apply Forall_cons_iff in Hl as [Hf Hl]. cbn [scan_factors].
  destruct f as [| | | | | |[] [|? ?]| |]; cbn in Hf; try tauto; rewrite Hp; now apply IH.
Qed.
Lemma scan_pre l : forall pc st m, Forall (fun f => ~ is_x f) l ->
  scan_factors G (l ++ m) pc (Num 0%Qc) st = scan_factors G m (fold_left (gmul G) l pc) (Num 0%Qc) st.
Proof.
  induction l as [|f l IH]; intros pc st m Hl; auto. apply Forall_cons_iff in Hl as [Hf Hl]. cbn [app scan_factors fold_left].
  assert (Z : is_num 0 (Num 0%Qc) = true) by reflexivity.
  destruct f as [| | | | | |[] [|? ?]| |]; cbn in Hf; try tauto; rewrite Z; now apply IH.
Qed.
(** Once the argument is known every further factor reassigns the coefficient. *)
Lemma scan_known l : forall pc a j st, Forall (fun f => ~ is_x f) l -> is_num 0 a = false -> dec_of a = j -> st = (j, pc) ->
  scan_factors G l pc a st = (j, fold_left (gmul G) l pc).
Proof.
  induction l as [|f l IH]; intros pc a j st Hl Ha Hj ->; [auto|]. apply Forall_cons_iff in Hl as [Hf Hl]. cbn [scan_factors].
  assert (Step : forall c, assign_max a c (j, pc) = (j, c)).
  { intros c. unfold assign_max. fold (dec_of a). cbn [fst]. rewrite Hj, Z.leb_refl. auto. }
  destruct f as [| | | | | |[] [|? ?]| |]; cbn in Hf; try tauto; rewrite Ha, Step; cbn [fold_left]; now apply IH.
Qed.
(** Below the current maximum nothing is assigned. *)
Lemma scan_below l : forall pc a st, Forall (fun f => ~ is_x f) l -> (dec_of a < fst st)%Z -> scan_factors G l pc a st = st.
Proof.
  induction l as [|f l IH]; intros pc a st Hl Hlt; auto. apply Forall_cons_iff in Hl as [Hf Hl]. cbn [scan_factors].
  assert (Step : forall c, (if is_num 0 a then st else assign_max a c st) = st).
  { intros c. destruct (is_num 0 a); auto. unfold assign_max. fold (dec_of a). destruct (Z.leb_spec (fst st) (dec_of a)); [lia|auto]. }
  destruct f as [| | | | | |[] [|? ?]| |]; cbn in Hf; try tauto; rewrite Step; now apply IH.
Qed.
Lemma scan_term f1 a f2 j st : is_n_plus a j -> Forall (fun f => ~ is_x f) (f1 ++ f2) ->
  scan_factors G (rev (f1 ++ Fun FX [a] :: f2)) (Num 1%Qc) (Num 0%Qc) st =
  if (fst st <=? j)%Z then (j, fold_left (gmul G) (rev f2 ++ rev f1) (Num 1%Qc)) else st.
Proof.
  intros Ha Hf. apply Forall_app in Hf as [Hf1 Hf2]. rewrite rev_app_distr. cbn [rev]. rewrite <- app_assoc. cbn [app].
  rewrite scan_pre by now apply Forall_rev. cbn [scan_factors]. rewrite (n_plus_nonzero _ _ Ha). pose proof (shift_spec _ _ Ha) as Hj.
  unfold assign_max at 1. rewrite Hj. destruct (Z.leb_spec (fst st) j).
  - rewrite fold_left_app. eapply scan_known; eauto; [now apply Forall_rev|]. eapply n_plus_nonzero; eauto.
  - apply scan_below; [now apply Forall_rev|]. unfold dec_of. rewrite Hj. lia.
Qed.
Lemma fold_left_val J rho l : ginac_ok J G -> forall pc p v, eval J rho pc = Some p -> eprod J rho l = Some v -> eval J rho (fold_left (gmul G) l pc) = Some (p * v).
Proof.
  intros Hg. induction l as [|f l IH]; intros pc p v Hp Hv; cbn [fold_left].
  - rewrite eprod_nil in Hv. assert (v = 1) as -> by congruence. rewrite Hp. f_equal; lra.
  - rewrite eprod_cons in Hv. apply olift2_some in Hv as (a & b & Ha & Hb & ->). rewrite (IH (gmul G pc f) (p * a) b); auto; [f_equal; lra|].
    now apply (gmul_val _ _ Hg).
Qed.

(** * Effect of each term *)
Lemma factor_shift t j cs st : x_term t j cs -> fst (find_max_factor G t st) = Z.max (fst st) j.
Proof.
  intros (a & Ha & [[-> ->]|(f1 & f2 & -> & -> & Hp)]); cbn [find_max_factor].
  - unfold assign_max. rewrite (shift_spec _ _ Ha). destruct (Z.leb_spec (fst st) j); cbn [fst]; lia.
  - rewrite (scan_term f1 a f2 j st Ha Hp). destruct (Z.leb_spec (fst st) j); cbn [fst].
    + destruct (Z.ltb_spec (fst st) j); cbn [fst]; lia.
    + rewrite Z.ltb_irrefl. cbn [fst]. lia.
Qed.
Lemma factor_plain t st : plain_term t -> fst (find_max_factor G t st) = fst st.
Proof.
  intros [Hx Hm]. destruct t as [| | | |l| |[] [|? ?]| |]; cbn in Hx; try tauto; try reflexivity. cbn [find_max_factor].
  rewrite scan_plain; [|now apply Forall_rev|reflexivity]. now rewrite Z.ltb_irrefl.
Qed.
(** The shift found is the largest one. *)
Theorem find_max_shift l m c : find_max G (Add l) = (m, c) -> Forall (fun t => plain_term t \/ exists j cs, x_term t j cs /\ (int_min <= j)%Z) l ->
  (exists t j cs, In t l /\ x_term t j cs) ->
  (exists t cs, In t l /\ x_term t m cs) /\ (forall t j cs, In t l -> x_term t j cs -> (j <= m)%Z).
Proof.
  intros F Hl Hex. cbn [find_max] in F. assert (Fm : fst (fold_right (find_max_factor G) (int_min, Num 0%Qc) l) = m) by now rewrite F. clear F.
  assert (Up : forall l', (forall t j cs, In t l' -> x_term t j cs -> (j <= fst (fold_right (find_max_factor G) (int_min, Num 0%Qc) l'))%Z) \/ ~ Forall (fun t => plain_term t \/ exists j cs, x_term t j cs /\ (int_min <= j)%Z) l').
  { induction l' as [|t l' IH]; [left; intros ? ? ? []|]. destruct IH as [IH|IH]; [|right; rewrite Forall_cons_iff; tauto].
    left. intros t' j cs Hin Ht. cbn [fold_right]. destruct Hin as [->|Hin].
    - rewrite (factor_shift t' j cs) by auto. lia.
    - specialize (IH t' j cs Hin Ht). assert (Mono : forall st, (fst st <= fst (find_max_factor G t st))%Z).
      { intros st. destruct t as [| | | |tl| |[] [|? ?]| |]; cbn [find_max_factor]; try lia.
        - assert (S : forall fs pc pa st', (fst st' <= fst (scan_factors G fs pc pa st'))%Z).
          { induction fs as [|f fs IHf]; intros pc pa st'; cbn [scan_factors]; [lia|].
            assert (A : forall a c, (fst st' <= fst (if is_num 0 a then st' else assign_max a c st'))%Z).
            { intros a c'. destruct (is_num 0 a); [lia|]. unfold assign_max. destruct (Z.leb_spec (fst st') (match shift_of a with Some z => z | None => 0%Z end)); cbn [fst]; lia. }
            destruct f as [| | | | | |[] [|? ?]| |]; (eapply Z.le_trans; [apply A|apply IHf]). }
          specialize (S (rev tl) (Num 1%Qc) (Num 0%Qc) st). destruct (_ <? _)%Z; cbn [fst]; lia.
        - unfold assign_max. destruct (Z.leb_spec (fst st) (match shift_of e with Some z => z | None => 0%Z end)); cbn [fst]; lia. }
      specialize (Mono (fold_right (find_max_factor G) (int_min, Num 0%Qc) l')). lia. }
  assert (Hup : forall t j cs, In t l -> x_term t j cs -> (j <= m)%Z).
  { destruct (Up l) as [U|U]; [|tauto]. intros. rewrite <- Fm. eauto. }
  split; [|exact Hup].
  assert (At : forall l', Forall (fun t => plain_term t \/ exists j cs, x_term t j cs /\ (int_min <= j)%Z) l' ->
     fst (fold_right (find_max_factor G) (int_min, Num 0%Qc) l') = int_min \/ exists t cs, In t l' /\ x_term t (fst (fold_right (find_max_factor G) (int_min, Num 0%Qc) l')) cs).
  { induction l' as [|t l' IH]; intros Hl'; [now left|]. apply Forall_cons_iff in Hl' as [Ht Hl']. cbn [fold_right]. specialize (IH Hl').
    set (st := fold_right (find_max_factor G) (int_min, Num 0%Qc) l') in *. clearbody st. destruct Ht as [Ht|(j & cs & Ht & Hj)].
    - rewrite factor_plain by auto. destruct IH as [IH|(t' & cs & ? & ?)]; [now left|right; exists t', cs; split; [now right|auto]].
    - rewrite (factor_shift _ _ _ _ Ht). destruct (Z.max_spec (fst st) j) as [[? ->]|[? ->]].
      + right. exists t, cs. split; [now left|auto].
      + destruct IH as [IH|(t' & cs' & ? & ?)]; [now left|right; exists t', cs'; split; [now right|auto]]. }
  destruct (At l Hl) as [A|(t & cs & Hin & Ht)]; [|rewrite Fm in Ht; eauto].
  destruct Hex as (t & j & cs & Hin & Ht). pose proof (Hup t j cs Hin Ht). exists t, cs. split; auto.
  rewrite Forall_forall in Hl. destruct (Hl t Hin) as [Pl|(j' & cs' & Ht' & Hj)].
  - exfalso. destruct Pl as [P1 P2]. destruct Ht as (a & _ & [[-> ->]|(f1 & f2 & -> & _)]); [now apply P1|].
    apply Forall_app in P2 as [_ P2]. apply Forall_cons_iff in P2 as [P2 _]. now apply P2.
  - pose proof (Hup t j' cs' Hin Ht'). assert (j = j') as <-; [|replace m with j by lia; auto].
    pose proof (factor_shift t j cs (Z.min j j' - 1, Num 0%Qc)%Z Ht) as E1. rewrite (factor_shift t j' cs' _ Ht') in E1. cbn [fst] in E1. lia.
Qed.
(** The coefficient found is the one of the term with the largest shift if that term comes first
    in the operands, up to bare x(n+j) and terms that are not products. *)
Theorem find_max_coeff rho x n l1 t l2 m cs w c : find_max G (Add (l1 ++ t :: l2)) = (m, c) -> x_term t m cs ->
  Forall (fun t' => (plain_term t' /\ not_mul t') \/ exists j, t' = Fun FX [n_plus j] /\ (j < m)%Z) l1 ->
  Forall (fun t' => plain_term t' \/ exists j cs, x_term t' j cs /\ (j < m)%Z) l2 -> (int_min < m)%Z ->
  eprod (with_x I x) (upd rho "n" (INR n)) cs = Some w -> at_n I rho x n c = Some w.
Proof.
  intros F Ht H1 H2 Hm Hw. cbn [find_max] in F. rewrite fold_right_app in F. cbn [fold_right] in F.
  assert (L2 : (fst (fold_right (find_max_factor G) (int_min, Num 0%Qc) l2) < m)%Z).
  { clear F. induction H2 as [|t' l2 Ht' H2 IH]; cbn [fold_right fst]; [lia|]. destruct Ht' as [Ht'|(j & cs' & Ht' & Hj)].
    - now rewrite factor_plain.
    - rewrite (factor_shift _ _ _ _ Ht'). lia. }
  set (st := fold_right (find_max_factor G) (int_min, Num 0%Qc) l2) in *. clearbody st.
  assert (S : find_max_factor G t st = (m, snd (find_max_factor G t st)) /\ at_n I rho x n (snd (find_max_factor G t st)) = Some w).
  { destruct Ht as (a & Ha & [[-> ->]|(f1 & f2 & -> & -> & Hp)]); cbn [find_max_factor].
    - unfold assign_max. rewrite (shift_spec _ _ Ha). destruct (Z.leb_spec (fst st) m); [|lia]. cbn [snd]. split; auto. rewrite eprod_nil in Hw.
      assert (w = 1) as -> by congruence. unfold at_n. cbn [eval]. now rewrite rv_1.
    - rewrite (scan_term f1 a f2 m st Ha Hp). destruct (Z.leb_spec (fst st) m); [|lia]. cbn [fst snd]. destruct (Z.ltb_spec (fst st) m); [|lia]. cbn [snd]. split; auto.
      unfold at_n. assert (E : exists w', eprod (with_x I x) (upd rho "n" (INR n)) (rev f2 ++ rev f1) = Some w' /\ w' = w).
      { rewrite eprod_app in Hw. apply olift2_some in Hw as (w1 & w2 & E1 & E2 & ->). exists (w2 * w1). split; [|lra]. rewrite eprod_app.
        assert (Rv : forall l v, eprod (with_x I x) (upd rho "n" (INR n)) l = Some v -> eprod (with_x I x) (upd rho "n" (INR n)) (rev l) = Some v).
        { induction l as [|f l IHl]; intros v Hv; auto. rewrite eprod_cons in Hv. apply olift2_some in Hv as (p & q & Ep & Eq & ->). cbn [rev]. rewrite eprod_app, eprod_1, (IHl _ Eq), Ep. cbn. f_equal. lra. }
        rewrite (Rv _ _ E1), (Rv _ _ E2). reflexivity. }
      destruct E as (w' & E & ->). rewrite (fold_left_val _ _ _ (HG x) _ 1 w); auto; [f_equal; lra|]. rewrite eval_num. now rewrite rv_1. }
  destruct S as [S1 S2]. rewrite S1 in F. set (c0 := snd (find_max_factor G t st)) in *. clearbody c0.
  assert (L1 : fold_right (find_max_factor G) (m, c0) l1 = (m, c0)).
  { clear F. induction H1 as [|t' l1 Ht' H1 IH]; cbn [fold_right]; auto. rewrite IH. destruct Ht' as [[[P1 P2] P3]|(j & -> & Hj)].
    - destruct t' as [| | | |fs| |[] [|? ?]| |]; cbn in P1, P3; try tauto; auto.
    - cbn [find_max_factor]. unfold assign_max. rewrite (shift_spec (n_plus j) j) by (right; left; reflexivity). cbn [fst]. destruct (Z.leb_spec m j); [lia|auto]. }
  rewrite L1 in F. congruence.
Qed.
End Elim.
