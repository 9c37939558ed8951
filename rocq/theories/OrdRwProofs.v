(** Proofs for C70. *)
From Coq Require Import ZArith QArith Qcanon Reals List String Bool Lia Lra.
From Verif Require Import Ast ExprModel ExprSpec ExprProofs1 ExprProofs2 ExprProofs3 SeqInterp NonLinProofs RatRootProofs OrdRwModel OrdRwSpec.
Import ListNotations.
Local Open Scope list_scope.
Local Open Scope R_scope.

Lemma all_some_forall2 f l m : all_some f l = Some m -> Forall2 (fun a b => f a = Some b) l m.
Proof.
  revert m. induction l as [|a l IH]; intros m. { intros [= <-]. constructor. }
  change (all_some f (a :: l)) with (match f a, all_some f l with Some b, Some m => Some (b :: m) | _, _ => None end).
  destruct (f a) as [b|] eqn:E; [|easy]. destruct (all_some f l) as [m'|] eqn:E'; [|easy].
  intros [= <-]. constructor; auto.
Qed.
Lemma index_ok_spec r k : index_ok r k = true <-> k <> "n"%string /\ k <> r.
Proof. unfold index_ok. rewrite andb_true_iff, !negb_true_iff, !String.eqb_neq. reflexivity. Qed.

Section Proofs.
Context (I : interp) (G : ginac) (HG : forall x, ginac_ok (with_x I x) G) (r : string) (Nr : r <> "n"%string) (d : nat) (Hd : (0 < d)%nat).
Local Notation ev x := (eval (with_x I x)).

Lemma two_lists {A B} (P : A -> B -> Prop) (Q : A -> Prop) (f : A -> option B) l m : Forall2 (fun a b => f a = Some b) l m ->
  Forall (fun a => Q a -> forall b, f a = Some b -> P a b) l -> Forall Q l -> Forall2 P l m.
Proof. intros H. induction H; intros F QF; constructor; inversion F; inversion QF; subst; auto. Qed.
Lemma omap_two x y rho rho' l m vs : Forall2 (fun a b => forall v, ev x rho a = Some v -> ev y rho' b = Some v) l m -> omap (ev x rho) l = Some vs -> omap (ev y rho') m = Some vs.
Proof.
  intros H. revert vs. induction H as [|a b l m Ha _ IH]; intros vs; auto. rewrite !omap_cons.
  destruct (ev x rho a) as [v|] eqn:E; [|easy]. rewrite (Ha v eq_refl). destruct (omap (ev x rho) l) as [ws|] eqn:E'; [|easy]. now rewrite (IH ws eq_refl).
Qed.
Lemma esum_two x y rho rho' l m v : Forall2 (fun a b => forall v, ev x rho a = Some v -> ev y rho' b = Some v) l m -> esum (with_x I x) rho l = Some v -> esum (with_x I y) rho' m = Some v.
Proof.
  intros H. revert v. induction H as [|a b l m Ha _ IH]; intros v; auto. rewrite !esum_cons. intros E. apply olift2_some in E as (u & w & Eu & Ew & ->).
  now rewrite (Ha _ Eu), (IH _ Ew).
Qed.
Lemma eprod_two x y rho rho' l m v : Forall2 (fun a b => forall v, ev x rho a = Some v -> ev y rho' b = Some v) l m -> eprod (with_x I x) rho l = Some v -> eprod (with_x I y) rho' m = Some v.
Proof.
  intros H. revert v. induction H as [|a b l m Ha _ IH]; intros v; auto. rewrite !eprod_cons. intros E. apply olift2_some in E as (u & w & Eu & Ew & ->).
  now rewrite (Ha _ Eu), (IH _ Ew).
Qed.
Lemma ifun_other f x y vs : f <> FX -> ifun (with_x I x) f vs = ifun (with_x I y) f vs.
Proof. intros H. destruct f; auto. now elim H. Qed.
Lemma number_val x rho k : ev x rho (number k) = Some (INR k).
Proof. cbn. now rewrite rv_zq, INR_IZR_INZ. Qed.

(** * From n to d n + r *)
Section Down.
Context (X : nat -> R) (m r0 : nat) (Hr0 : (r0 < d)%nat).
Local Notation Y := (every d r0 X).
Definition related (rho rho' : string -> R) : Prop :=
  rho "n"%string = INR (d * m + r0) /\ rho' "n"%string = INR m /\ rho' r = INR r0 /\ forall s, s <> "n"%string -> s <> r -> rho s = rho' s.
Lemma related_upd rho rho' k v : related rho rho' -> k <> "n"%string -> k <> r -> related (upd rho k v) (upd rho' k v).
Proof.
  intros (H1 & H2 & H3 & H4) Kn Kr. unfold related, upd. repeat split.
  - destruct (String.eqb_spec "n" k); [congruence|auto].
  - destruct (String.eqb_spec "n" k); [congruence|auto].
  - destruct (String.eqb_spec r k); [congruence|auto].
  - intros s Sn Sr. destruct (String.eqb s k); auto.
Qed.
Lemma unchanged e rho rho' : related rho rho' -> has "n" e = false -> has r e = false -> has_x_function e = false -> ev X rho e = ev Y rho' e.
Proof.
  intros (_ & _ & _ & H) Hn Hr Hx. rewrite (x_free_eval I X Y e rho Hx). apply eval_agree. intros s Hs. apply H; intros ->; congruence.
Qed.
(** The value of x(n + d c). *)
Lemma x_value rho rho' a c v : related rho rho' -> (a = Add [Sym "n"; Num (zq (Z.of_nat d * c))] \/ a = Add [Num (zq (Z.of_nat d * c)); Sym "n"]) ->
  ev X rho (Fun FX [a]) = Some v -> ev Y rho' (Fun FX [gadd G (Sym "n") (Num (zq (Z.of_nat d * c) / zq (Z.of_nat d))%Qc)]) = Some v.
Proof.
  intros (H1 & H2 & _) Ha H. assert (Va : ev X rho a = Some (IZR (Z.of_nat (d * m + r0) + Z.of_nat d * c))).
  { destruct Ha as [-> | ->]; rewrite eval_Add2; cbn [eval]; rewrite rv_zq, H1; cbn [olift2]; f_equal; rewrite plus_IZR, INR_IZR_INZ; lra. }
  cbn [eval] in H |- *. rewrite omap_cons in H |- *. rewrite Va in H. cbn [omap obind] in H. cbn [with_x ifun] in H. rewrite as_int_IZR in H.
  destruct (Z.leb_spec 0 (Z.of_nat (d * m + r0) + Z.of_nat d * c)) as [L|]; [|easy]. assert (v = X (Z.to_nat (Z.of_nat (d * m + r0) + Z.of_nat d * c))) as -> by congruence.
  assert (Nd : INR d <> 0) by (apply not_0_INR; lia).
  assert (V : ev Y rho' (gadd G (Sym "n") (Num (zq (Z.of_nat d * c) / zq (Z.of_nat d))%Qc)) = Some (IZR (Z.of_nat m + c))).
  { rewrite (gadd_val _ _ (HG _) _ _ _ (INR m) (IZR c)); [f_equal; rewrite plus_IZR, INR_IZR_INZ; lra|cbn; now rewrite H2|].
    cbn [eval]. f_equal. rewrite rv_div, !rv_zq, mult_IZR, <- INR_IZR_INZ. field. exact Nd. }
  rewrite V. cbn [omap obind with_x ifun]. rewrite as_int_IZR.
  assert (C : (0 <= Z.of_nat m + c)%Z) by nia. apply Z.leb_le in C as C'. rewrite C'. f_equal. unfold every. f_equal. apply Nat2Z.inj. rewrite Nat2Z.inj_add, Nat2Z.inj_mul, !Z2Nat.id by lia. lia.
Qed.
Lemma direct_all l : fold_right (fun a P => direct r d a /\ P) True l <-> Forall (direct r d) l.
Proof. induction l; cbn; split; intros H; auto. { constructor; tauto. } { inversion H; subst. tauto. } Qed.
Lemma rewrite_factor_ok e : direct r d e -> forall e', rewrite_factor G r d e = Some e' -> forall rho rho' v, related rho rho' -> ev X rho e = Some v -> ev Y rho' e' = Some v.
Proof.
  induction e using expr_ind'; intros D e' E rho rho' v R V.
  - cbn in E. injection E as <-. exact V.
  - cbn in E. injection E as <-. exact V.
  - cbn [rewrite_factor] in E. cbn [direct] in D. destruct R as (R1 & R2 & R3 & R4). destruct (String.eqb_spec s "n") as [->|Ns].
    + injection E as <-. cbn in V. assert (v = INR (d * m + r0)) as -> by congruence. rewrite plus_INR, mult_INR.
      apply (gadd_val _ _ (HG _)); [apply (gmul_val _ _ (HG _)); [apply number_val|cbn; now rewrite R2]|cbn; now rewrite R3].
    + injection E as <-. cbn in V |- *. rewrite <- R4; auto.
  - cbn in E. injection E as <-. destruct D as (D1 & D2 & D3). rewrite <- V. symmetry. now apply unchanged.
  - cbn in E. injection E as <-. destruct D as (D1 & D2 & D3). rewrite <- V. symmetry. now apply unchanged.
  - cbn [rewrite_factor] in E. cbn [direct] in D. destruct D as (D1 & D2). destruct (rewrite_factor G r d e1) as [a'|] eqn:E1; [|easy]. destruct (rewrite_factor G r d e2) as [b'|] eqn:E2; [|easy].
    injection E as <-. cbn [eval] in V. destruct (ev X rho e1) as [u|] eqn:V1; [|easy]. destruct (ev X rho e2) as [w|] eqn:V2; [|easy]. cbn [obind] in V.
    apply (gpow_val _ _ (HG _) _ _ _ u w); eauto.
  - assert (C : f = FX \/ f <> FX) by (destruct f; auto; right; discriminate). destruct C as [->|Nf].
    + cbn [rewrite_factor] in E. cbn [direct] in D. destruct D as (a & -> & c & Hc). assert (Eq : decrement a = Some (zq (Z.of_nat d * c))) by (destruct Hc as [-> | ->]; reflexivity).
      rewrite Eq in E. injection E as <-. apply (gfun_ok _ _ (HG _)). eapply x_value; eauto.
    + assert (E' : match all_some (rewrite_factor G r d) l with Some m => Some (gfun G f m) | None => None end = Some e') by (destruct f; auto; now elim Nf).
      assert (D' : Forall (direct r d) l) by (apply direct_all; destruct f; auto; now elim Nf). clear E D.
      destruct (all_some (rewrite_factor G r d) l) as [l'|] eqn:El; [|easy]. injection E' as <-. apply all_some_forall2 in El.
      apply (gfun_ok _ _ (HG _)). cbn [eval] in V |- *. destruct (omap (ev X rho) l) as [vs|] eqn:Vl; [|easy]. cbn [obind] in V.
      rewrite (omap_two X Y rho rho' l l' vs); [cbn [obind]; now rewrite (ifun_other f Y X vs Nf)| |exact Vl].
      eapply two_lists; [exact El| |exact D']. rewrite Forall_forall in H |- *. intros a Ha Da b Hb w. now apply (H a Ha Da b Hb).
  - cbn [rewrite_factor] in E. cbn [direct] in D. destruct D as (K1 & K2 & D1 & D2 & D3). destruct (index_ok r k) eqn:Ek; [|easy].
    destruct (rewrite_factor G r d e1) as [lo'|] eqn:E1; [|easy]. destruct (rewrite_factor G r d e2) as [up'|] eqn:E2; [|easy]. destruct (rewrite_factor G r d e3) as [b'|] eqn:E3; [|easy].
    injection E as <-. apply (gsum_ok _ _ (HG _)). cbn [eval] in V |- *.
    destruct (ev X rho e1) as [u|] eqn:V1; [|easy]. destruct (ev X rho e2) as [w|] eqn:V2; [|easy]. cbn [obind] in V.
    rewrite (IHe1 D1 lo' eq_refl rho rho' u R V1), (IHe2 D2 up' eq_refl rho rho' w R V2). cbn [obind]. destruct (as_int u) as [za|]; [|easy]. destruct (as_int w) as [zb|]; [|easy]. cbn [obind] in V |- *.
    revert V. apply osum_mono. intros i _ t. apply (IHe3 D3 b' eq_refl). now apply related_upd.
  - cbn [rewrite_factor] in E. cbn [direct] in D. destruct D as (K1 & K2 & D1 & D2 & D3). destruct (index_ok r k) eqn:Ek; [|easy].
    destruct (rewrite_factor G r d e1) as [lo'|] eqn:E1; [|easy]. destruct (rewrite_factor G r d e2) as [up'|] eqn:E2; [|easy]. destruct (rewrite_factor G r d e3) as [b'|] eqn:E3; [|easy].
    injection E as <-. apply (gprod_ok _ _ (HG _)). cbn [eval] in V |- *.
    destruct (ev X rho e1) as [u|] eqn:V1; [|easy]. destruct (ev X rho e2) as [w|] eqn:V2; [|easy]. cbn [obind] in V.
    rewrite (IHe1 D1 lo' eq_refl rho rho' u R V1), (IHe2 D2 up' eq_refl rho rho' w R V2). cbn [obind]. destruct (as_int u) as [za|]; [|easy]. destruct (as_int w) as [zb|]; [|easy]. cbn [obind] in V |- *.
    revert V. apply oprod_mono. intros i _ t. apply (IHe3 D3 b' eq_refl). now apply related_upd.
Qed.
Lemma rewrite_term_ok t : direct_term r d t -> forall t', rewrite_term G r d t = Some t' -> forall rho rho' v, related rho rho' -> ev X rho t = Some v -> ev Y rho' t' = Some v.
Proof.
  intros D t' E rho rho' v R V. assert (C : (exists l, t = Mul l) \/ (direct r d t /\ rewrite_factor G r d t = Some t')) by (destruct t; eauto). destruct C as [(l & ->)|(D' & E')].
  - cbn [direct_term] in D. cbn [rewrite_term] in E. destruct (all_some (rewrite_factor G r d) l) as [l'|] eqn:El; [|easy]. injection E as <-. apply all_some_forall2 in El.
    apply (mul_all_ok _ _ (HG _)). rewrite eval_Mul in V |- *. revert V. apply eprod_two. eapply two_lists; [exact El| |exact D].
    apply Forall_forall. intros a _ Da b Hb w. now apply (rewrite_factor_ok a Da b Hb).
  - now apply (rewrite_factor_ok t D' t' E' rho rho').
Qed.
Lemma reduced_ok rhs rhs' inh : Forall (direct_term r d) (terms rhs) -> write_reduced_order_recurrence G r d rhs = Some (rhs', inh) ->
  forall rho rho' v, related rho rho' -> ev X rho rhs = Some v -> ev Y rho' rhs' = Some v.
Proof.
  intros D E rho rho' v R V. unfold write_reduced_order_recurrence in E. fold (terms rhs) in E. destruct (all_some (rewrite_term G r d) (terms rhs)) as [ts|] eqn:Et; [|easy].
  assert (rhs' = add_all G ts) as -> by congruence. apply all_some_forall2 in Et. apply (add_all_ok _ _ (HG _)). rewrite eval_Add.
  assert (V' : esum (with_x I X) rho (terms rhs) = Some v). { unfold terms. destruct rhs; try (rewrite esum_1; exact V). exact V. }
  revert V'. apply esum_two. eapply two_lists; [exact Et| |exact D]. apply Forall_forall. intros a _ Da b Hb w. now apply (rewrite_term_ok a Da b Hb).
Qed.
Lemma inhomogeneous_ok rhs rhs' inh : Forall (direct_term r d) (terms rhs) -> write_reduced_order_recurrence G r d rhs = Some (rhs', inh) ->
  (forall t t', In t (terms rhs) -> rewrite_term G r d t = Some t' -> has_x_of_n t' = has_x_of_n t) ->
  forall rho rho' v, related rho rho' -> ev X rho (Add (filter (fun t => negb (has_x_of_n t)) (terms rhs))) = Some v -> ev Y rho' inh = Some v.
Proof.
  intros D E K rho rho' v R V. unfold write_reduced_order_recurrence in E. fold (terms rhs) in E. destruct (all_some (rewrite_term G r d) (terms rhs)) as [ts|] eqn:Et; [|easy].
  assert (inh = add_all G (filter (fun t => negb (has_x_of_n t)) ts)) as -> by congruence. apply all_some_forall2 in Et. apply (add_all_ok _ _ (HG _)). rewrite eval_Add in V |- *.
  revert V. apply esum_two. clear E. revert D K. induction Et as [|a b l ts' Ha _ IH]; intros D K; [constructor|]. inversion D; subst. cbn [filter]. rewrite (K a b (or_introl eq_refl) Ha).
  assert (T : Forall2 (fun a b => forall v, ev X rho a = Some v -> ev Y rho' b = Some v) (filter (fun t => negb (has_x_of_n t)) l) (filter (fun t => negb (has_x_of_n t)) ts')).
  { apply IH; auto. intros t t' Ht. apply K. now right. }
  destruct (negb (has_x_of_n a)); [|exact T]. constructor; [|exact T]. intros w. now apply (rewrite_term_ok a H1 b Ha).
Qed.
End Down.

(** * And back *)
Section Up.
Context (ic : nat -> R) (N : nat) (Hmod : forall a b, b <> 0 -> ifun I FMod [a; b] = Some (rmod a b)).
Local Notation m := (N / d)%nat.
Local Notation r0 := (N mod d)%nat.
Local Notation Y := (every d r0 ic).
Local Notation rel := (related m r0).
Lemma N_eq : (d * m + r0 = N)%nat.
Proof. symmetry. apply Nat.div_mod. lia. Qed.
Lemma m_val rho' : rho' "n"%string = INR N -> ev ic rho' (m_expr d) = Some (INR r0).
Proof.
  intros H. unfold m_expr. cbn [eval]. rewrite !omap_cons, number_val. cbn [eval omap]. rewrite H. cbn [obind with_x ifun]. rewrite Hmod by (apply not_0_INR; lia).
  f_equal. rewrite !INR_IZR_INZ, rmod_int by lia. f_equal. now rewrite Nat2Z.inj_mod.
Qed.
Lemma come_back_ok e : forall e', come_back_to_original_variable G r d e = Some e' -> forall rho rho' v, rel rho' rho -> ev Y rho e = Some v -> ev ic rho' e' = Some v.
Proof.
  assert (Nd : INR d <> 0) by (apply not_0_INR; lia).
  induction e using expr_ind'; intros e' E rho rho' v R V.
  - cbn in E. injection E as <-. exact V.
  - cbn in E. injection E as <-. exact V.
  - cbn [come_back_to_original_variable] in E. destruct R as (R1 & R2 & R3 & R4). rewrite N_eq in R1. cbn [eval] in V. destruct (String.eqb_spec s "n") as [->|Ns]; [|destruct (String.eqb_spec s r) as [->|Nsr]].
    + injection E as <-. assert (v = INR m) as -> by congruence. replace (INR m) with (rv (/ zq (Z.of_nat d))%Qc * (INR N - INR r0)).
      * apply (gmul_val _ _ (HG _)); [reflexivity|]. apply (gsub_val _ _ (HG _)); [cbn; now rewrite R1|now apply m_val].
      * rewrite rv_inv, rv_zq, <- INR_IZR_INZ. rewrite <- N_eq at 1. rewrite plus_INR, mult_INR. field. exact Nd.
    + injection E as <-. assert (v = INR r0) as -> by congruence. now apply m_val.
    + injection E as <-. cbn [eval]. rewrite R4; auto.
  - cbn [come_back_to_original_variable] in E. destruct (all_some _ l) as [l'|] eqn:El; [|easy]. injection E as <-. apply all_some_forall2 in El.
    apply (add_all_ok _ _ (HG _)). rewrite eval_Add in V |- *. revert V. apply esum_two. eapply (two_lists _ (fun _ => True)); [exact El| |now apply Forall_forall].
    rewrite Forall_forall in H |- *. intros a Ha _ b Hb w. now apply (H a Ha b Hb).
  - cbn [come_back_to_original_variable] in E. destruct (all_some _ l) as [l'|] eqn:El; [|easy]. injection E as <-. apply all_some_forall2 in El.
    apply (mul_all_ok _ _ (HG _)). rewrite eval_Mul in V |- *. revert V. apply eprod_two. eapply (two_lists _ (fun _ => True)); [exact El| |now apply Forall_forall].
    rewrite Forall_forall in H |- *. intros a Ha _ b Hb w. now apply (H a Ha b Hb).
  - cbn [come_back_to_original_variable] in E. destruct (come_back_to_original_variable G r d e1) as [a'|] eqn:E1; [|easy]. destruct (come_back_to_original_variable G r d e2) as [b'|] eqn:E2; [|easy].
    injection E as <-. cbn [eval] in V. destruct (ev Y rho e1) as [u|] eqn:V1; [|easy]. destruct (ev Y rho e2) as [w|] eqn:V2; [|easy]. cbn [obind] in V.
    apply (gpow_val _ _ (HG _) _ _ _ u w); eauto.
  - assert (C : f = FX \/ f <> FX) by (destruct f; auto; right; discriminate). destruct C as [->|Nf].
    + cbn [come_back_to_original_variable] in E. destruct l as [|a [|a2 l]]; [easy| |destruct a; easy]. destruct a; try easy. injection E as <-. apply (gfun_ok _ _ (HG _)).
      cbn [eval] in V. rewrite omap_cons in V. cbn [eval omap obind with_x ifun] in V. destruct (as_int (rv q)) as [z|] eqn:Ez; [|easy]. destruct (Z.leb_spec 0 z) as [L|]; [|easy].
      apply as_int_spec in Ez. cbn [eval]. rewrite omap_cons.
      assert (Va : ev ic rho' (gadd G (gmul G (number d) (Num q)) (m_expr d)) = Some (IZR (Z.of_nat (d * Z.to_nat z + r0)))).
      { replace (IZR (Z.of_nat (d * Z.to_nat z + r0))) with (INR d * rv q + INR r0).
        - apply (gadd_val _ _ (HG _)); [apply (gmul_val _ _ (HG _)); [apply number_val|reflexivity]|]. apply m_val. destruct R as (R1 & _). now rewrite N_eq in R1.
        - rewrite <- INR_IZR_INZ, plus_INR, mult_INR, Ez. f_equal. f_equal. rewrite INR_IZR_INZ, Z2Nat.id by lia. reflexivity. }
      rewrite Va. cbn [omap obind with_x ifun]. rewrite as_int_IZR. destruct (Z.leb_spec 0 (Z.of_nat (d * Z.to_nat z + r0))); [|lia]. rewrite Nat2Z.id. rewrite <- V. reflexivity.
    + assert (E' : match all_some (come_back_to_original_variable G r d) l with Some m => Some (gfun G f m) | None => None end = Some e') by (destruct f; auto; now elim Nf). clear E.
      destruct (all_some (come_back_to_original_variable G r d) l) as [l'|] eqn:El; [|easy]. injection E' as <-. apply all_some_forall2 in El.
      apply (gfun_ok _ _ (HG _)). cbn [eval] in V |- *. destruct (omap (ev Y rho) l) as [vs|] eqn:Vl; [|easy]. cbn [obind] in V.
      rewrite (omap_two Y ic rho rho' l l' vs); [cbn [obind]; now rewrite (ifun_other f ic Y vs Nf)| |exact Vl].
      eapply (two_lists _ (fun _ => True)); [exact El| |now apply Forall_forall]. rewrite Forall_forall in H |- *. intros a Ha _ b Hb w. now apply (H a Ha b Hb).
  - cbn [come_back_to_original_variable] in E. destruct (index_ok r k) eqn:Ek; [|easy]. apply index_ok_spec in Ek as [K1 K2].
    destruct (come_back_to_original_variable G r d e1) as [lo'|] eqn:E1; [|easy]. destruct (come_back_to_original_variable G r d e2) as [up'|] eqn:E2; [|easy]. destruct (come_back_to_original_variable G r d e3) as [b'|] eqn:E3; [|easy].
    injection E as <-. apply (gsum_ok _ _ (HG _)). cbn [eval] in V |- *.
    destruct (ev Y rho e1) as [u|] eqn:V1; [|easy]. destruct (ev Y rho e2) as [w|] eqn:V2; [|easy]. cbn [obind] in V.
    rewrite (IHe1 lo' eq_refl rho rho' u R V1), (IHe2 up' eq_refl rho rho' w R V2). cbn [obind]. destruct (as_int u) as [za|]; [|easy]. destruct (as_int w) as [zb|]; [|easy]. cbn [obind] in V |- *.
    revert V. apply osum_mono. intros i _ t. apply (IHe3 b' eq_refl). now apply related_upd.
  - cbn [come_back_to_original_variable] in E. destruct (index_ok r k) eqn:Ek; [|easy]. apply index_ok_spec in Ek as [K1 K2].
    destruct (come_back_to_original_variable G r d e1) as [lo'|] eqn:E1; [|easy]. destruct (come_back_to_original_variable G r d e2) as [up'|] eqn:E2; [|easy]. destruct (come_back_to_original_variable G r d e3) as [b'|] eqn:E3; [|easy].
    injection E as <-. apply (gprod_ok _ _ (HG _)). cbn [eval] in V |- *.
    destruct (ev Y rho e1) as [u|] eqn:V1; [|easy]. destruct (ev Y rho e2) as [w|] eqn:V2; [|easy]. cbn [obind] in V.
    rewrite (IHe1 lo' eq_refl rho rho' u R V1), (IHe2 up' eq_refl rho rho' w R V2). cbn [obind]. destruct (as_int u) as [za|]; [|easy]. destruct (as_int w) as [zb|]; [|easy]. cbn [obind] in V |- *.
    revert V. apply oprod_mono. intros i _ t. apply (IHe3 b' eq_refl). now apply related_upd.
Qed.
End Up.
Lemma related_intro m r0 rho : related m r0 (upd rho "n" (INR (d * m + r0))) (upd (upd rho r (INR r0)) "n" (INR m)).
Proof.
  unfold related, upd. rewrite !String.eqb_refl. destruct (String.eqb_spec r "n"); [congruence|]. repeat split; auto. intros s Sn Sr. destruct (String.eqb_spec s "n"); [congruence|].
  destruct (String.eqb_spec s r); [congruence|reflexivity].
Qed.
End Proofs.
