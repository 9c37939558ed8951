(** Proofs for C64. *)
From Coq Require Import ZArith QArith Qcanon Qround Qreals Reals Ranalysis5 List String Bool Lia Lra Arith Factorial.
From Verif Require Import Ast ExprModel ExprSpec ExprProofs1 ExprProofs2 ExprProofs3 NonLinProofs FactRwSpec DomModel DomSpec.
Import ListNotations.
Local Open Scope list_scope.
Local Open Scope R_scope.

Lemma raise_ge z q : (z <= raise z q)%Z /\ rv q <= IZR (raise z q).
Proof.
  unfold raise. split. { apply Z.le_max_l. }
  apply Rle_trans with (IZR (Qceiling (this q))). 2:{ apply IZR_le, Z.le_max_r. }
  pose proof (Qle_ceiling (this q)) as H. apply Qle_Rle in H. unfold rv. eapply Rle_trans; [exact H|]. unfold Q2R, inject_Z; cbn. lra.
Qed.
Lemma fold_raise_ge l z : (z <= fold_left raise l z)%Z /\ forall q, In q l -> rv q <= IZR (fold_left raise l z).
Proof.
  revert z. induction l as [|a l IH]; intros z; cbn [fold_left In]. { split; [lia|easy]. }
  destruct (IH (raise z a)) as [H1 H2]. destruct (raise_ge z a) as [R1 R2]. split. { lia. }
  intros q [<-|Hq]; [|auto]. apply IZR_le in H1. lra.
Qed.
Lemma raise_all_ge l z : (z <= raise_all z l)%Z /\ forall q, In q l -> rv q <= IZR (raise_all z l).
Proof. unfold raise_all. destruct (fold_raise_ge (rev l) z) as [H1 H2]. split; auto. intros q Hq. apply H2. now apply -> in_rev. Qed.
Lemma raise_all_least l z k : (z <= k)%Z -> (forall q, In q l -> rv q <= IZR k) -> (raise_all z l <= k)%Z.
Proof.
  unfold raise_all. intros Hz Hl. assert (Hl' : forall q, In q (rev l) -> rv q <= IZR k) by (intros q Hq; apply Hl; now apply in_rev). clear Hl.
  revert z Hz. induction (rev l) as [|a m IH]; intros z Hz; cbn [fold_left]; [auto|]. apply IH. { intros q Hq. apply Hl'. now right. }
  unfold raise. apply Z.max_lub; [auto|]. rewrite <- (Qceiling_Z k). apply Qceiling_resp_le. apply Rle_Qle. specialize (Hl' a (or_introl eq_refl)). unfold rv in Hl'.
  replace (Q2R (inject_Z k)) with (IZR k); [auto|]. unfold Q2R, inject_Z; cbn; lra.
Qed.

(** A real polynomial with a value above 1 and no 1 after z stays above 1. *)
Lemma rpoly_cont c : continuity (rpoly c).
Proof.
  induction c as [|a c IH]; cbn [rpoly]. { apply continuity_const. now intros u v. }
  apply continuity_plus. { apply continuity_const. now intros u v. } apply continuity_mult; [apply derivable_continuous, derivable_id|exact IH].
Qed.
Lemma stays_above c z m n : z < m -> z < n -> 1 < rpoly c m -> (forall t, rpoly c t = 1 -> t <= z) -> 1 < rpoly c n.
Proof.
  intros Hm Hn Hv Hr. destruct (Rlt_le_dec 1 (rpoly c n)) as [|Hle]; [auto|exfalso].
  assert (Hn1 : rpoly c n < 1). { destruct Hle as [|E]; [auto|]. apply Hr in E. lra. }
  set (f := fun t => rpoly c t - 1).
  assert (Cf : continuity f). { apply continuity_minus; [apply rpoly_cont|apply continuity_const; now intros u v]. }
  assert (Nm : n <> m) by (intros ->; lra).
  destruct (Rlt_le_dec n m) as [L|L].
  - destruct (IVT_cor f n m Cf) as [t [[H1 H2] H3]]; [lra| |]. { unfold f. nra. } unfold f in H3. specialize (Hr t ltac:(lra)). lra.
  - destruct (IVT_cor f m n Cf) as [t [[H1 H2] H3]]; [lra| |]. { unfold f. nra. } unfold f in H3. specialize (Hr t ltac:(lra)). lra.
Qed.

Section Proofs.
Context (G : ginac) (numerator denominator expand : expr -> expr) (roots : string -> expr -> list Qc) (x : string).
Local Notation on := (on_expanded G numerator denominator expand roots).
Local Notation fdw := (find_domain_with numerator denominator expand).

Lemma all_operands_ge rec : (forall e z b z', rec e z = Some (b, z') -> (z <= z')%Z) -> forall l z b z', all_operands rec l z = Some (b, z') -> (z <= z')%Z.
Proof.
  intros Hr. induction l as [|a l IH]; intros z b z'; cbn [all_operands]. { intros [= <- <-]. lia. }
  destruct (rec a z) as [[[|] z1]|] eqn:E; [| |easy].
  - intros H. apply IH in H. apply Hr in E. lia.
  - intros [= <- <-]. eauto.
Qed.
Lemma find_domain_with_ge rec : (forall e z b z', rec e z = Some (b, z') -> (z <= z')%Z) -> forall e z b z', fdw rec e z = Some (b, z') -> (z <= z')%Z.
Proof.
  intros Hr e z b z'. unfold find_domain_with. destruct (rec (expand (numerator e)) z) as [[[|] z1]|] eqn:E; [| |easy].
  - intros H. apply Hr in H. apply Hr in E. lia.
  - intros [= <- <-]. eauto.
Qed.
Lemma on_expanded_ge fuel e z b z' : on fuel x e z = Some (b, z') -> (z <= z')%Z.
Proof.
  revert e z b z'. induction fuel as [|fuel IH]; intros e z b z'; cbn [on_expanded]; [easy|].
  destruct (has x e); [|intros [= <- <-]; lia]. destruct (is_polynomial x e). { intros [= <- <-]. apply raise_all_ge. }
  destruct e; try (intros [= <- <-]; lia).
  - apply all_operands_ge. exact IH.
  - apply all_operands_ge. exact IH.
  - destruct e1; try (apply find_domain_with_ge; exact IH). destruct (q_lt 0 q && has x e2); [intros [= <- <-]; lia|apply find_domain_with_ge; exact IH].
  - destruct f; try (intros [= <- <-]; lia); (destruct l as [|a l]; [intros [= <- <-]; lia|]).
    + destruct (ok_argument_factorial x a); [apply IH|intros [= <- <-]; lia].
    + destruct (is_polynomial x a).
      * destruct (on fuel x _ z) as [[b1 z1]|] eqn:E; [|easy]. intros [= <- <-]. eapply IH; eauto.
      * destruct (is_log a); [|intros [= <- <-]; lia]. destruct (on fuel x a z) as [[b1 z1]|] eqn:E; [|easy].
        assert (z <= z1)%Z by (eapply IH; eauto). intros [= <- <-]. unfold raise_e. lia.
Qed.
Theorem find_domain_ge fuel e z b z' : find_domain_in_N G numerator denominator expand roots fuel x e z = Some (b, z') -> (z <= z')%Z.
Proof. apply find_domain_with_ge. intros e0 z0 b0 z1. apply on_expanded_ge. Qed.

Context (I : interp) (rho : string -> R).
Hypothesis Std : standard I.
Hypothesis HG : ginac_ok I G.
(** p - 1 is again a polynomial in x. *)
Hypothesis Hminus : forall p, is_polynomial x p = true -> has x p = true -> is_polynomial x (gsub G p (Num 1)) = true /\ has x (gsub G p (Num 1)) = true.
Local Notation at_x := (at_x I rho x).
Local Notation tame := (tame I rho x G numerator denominator expand roots).
Local Notation defined_after := (defined_after I rho x).

Lemma const_after z nz e v : has x e = false -> eval I rho e = Some v -> (nz = true -> v <> 0) -> defined_after nz z e.
Proof. intros He Hv Hn n _. exists v. split; [|auto]. unfold DomSpec.at_x. now rewrite eval_upd_fresh. Qed.
Lemma poly_values e t : is_polynomial x e = true -> at_x t e <> None -> exists c, forall s, at_x s e = Some (rpoly c s).
Proof. intros P N. destruct (is_polynomial_ok I x e P rho) as [H|[c H]]; [now destruct (N (H t))|exists c; exact H]. Qed.
Lemma all_operands_true rec l : (forall e z b z', rec e z = Some (b, z') -> (z <= z')%Z) -> forall z z', all_operands rec l z = Some (true, z') ->
  Forall (fun a => exists z1 z2, rec a z1 = Some (true, z2) /\ (z2 <= z')%Z) l.
Proof.
  intros Hr. induction l as [|a l IH]; intros z z'; cbn [all_operands]; [constructor|]. destruct (rec a z) as [[[|] z1]|] eqn:E; [| |easy].
  - intros H. constructor; [|now apply IH with z1]. exists z, z1. split; [auto|]. eapply all_operands_ge; eauto.
  - intros [= ].
Qed.
Lemma esum_values (l : list expr) r (P : expr -> R -> Prop) : Forall (fun a => exists v, eval I r a = Some v) l -> exists v, eval I r (Add l) = Some v.
Proof. rewrite eval_Add. induction 1 as [|a l [v Hv] _ [w IH]]; [eexists; reflexivity|]. rewrite esum_cons, Hv, IH. eexists; reflexivity. Qed.
Lemma eprod_values (l : list expr) r nz : Forall (fun a => exists v, eval I r a = Some v /\ (nz = true -> v <> 0)) l -> exists v, eval I r (Mul l) = Some v /\ (nz = true -> v <> 0).
Proof.
  rewrite eval_Mul. induction 1 as [|a l [v [Hv Nv]] _ [w [IH Nw]]]. { exists 1. split; [reflexivity|intros; lra]. }
  rewrite eprod_cons, Hv, IH. exists (v * w). split; [reflexivity|]. intros E. apply Rmult_integral_contrapositive_currified; auto.
Qed.
(** p > 1 *)
Lemma log_above fuel p z0 b z' z m v : is_polynomial x p = true -> has x p = true ->
  (forall t, at_x t p = Some 1 -> exists q, In q (roots x (gsub G p (Num 1))) /\ rv q = t) -> IZR z < m -> at_x m p = Some v -> 1 < v ->
  on fuel x (gsub G p (Num 1)) z0 = Some (b, z') -> (z' <= z)%Z -> forall n, (z < n)%Z -> exists w, at_x (IZR n) p = Some w /\ 1 < w.
Proof.
  intros P Hx Hr Hm Hv Hgt Hon Hz n Hn. destruct fuel as [|fuel]; [discriminate|]. cbn [on_expanded] in Hon. destruct (Hminus p P Hx) as [P1 H1]. rewrite P1, H1 in Hon.
  injection Hon as <- <-. destruct (poly_values p m P) as [c Hc]; [congruence|]. exists (rpoly c (IZR n)). split; [apply Hc|].
  apply stays_above with (z := IZR z) (m := m).
  - auto.
  - now apply IZR_lt.
  - rewrite Hc in Hv. congruence.
  - intros t Ht. destruct (Hr t) as (q & Hq & <-). { now rewrite Hc, Ht. }
    destruct (raise_all_ge (roots x (gsub G p (Num 1))) z0) as [_ H2]. specialize (H2 q Hq). apply IZR_le in Hz. lra.
Qed.
Lemma not_poly_log p : has x p = true -> is_polynomial x (Fun FLog [p]) = false.
Proof. intros H. cbn [is_polynomial]. rewrite orb_false_r. destruct (is_scalar_representation x (Fun FLog [p])) eqn:E; [|auto].
  apply is_scalar_representation_spec in E. cbn [has existsb] in E. rewrite H in E. discriminate. Qed.
Lemma not_poly_fact p : has x p = true -> is_polynomial x (Fun FFact [p]) = false.
Proof. intros H. cbn [is_polynomial]. rewrite orb_false_r. destruct (is_scalar_representation x (Fun FFact [p])) eqn:E; [|auto].
  apply is_scalar_representation_spec in E. cbn [has existsb] in E. rewrite H in E. discriminate. Qed.
(** The arguments of factorials that are accepted. *)
Lemma pos_int_val q : pos_int q = true -> rv q = IZR (q_int q) /\ (0 < q_int q)%Z.
Proof. unfold pos_int. intros H. apply andb_true_iff in H as [H1 H2]. apply q_is_int_spec in H1. now apply Z.ltb_lt in H2. Qed.
Lemma times_number_val t e q : times_number x e = Some q -> at_x t e = Some (rv q * t).
Proof.
  unfold times_number. destruct e; try discriminate. destruct l as [|a [|b [|c l]]]; try discriminate.
  destruct a, b; try discriminate; (destruct (String.eqb s x) eqn:E; [|discriminate]); intros H; assert (Eq : q0 = q) by congruence; subst q0;
    apply String.eqb_eq in E; subst s; unfold DomSpec.at_x; rewrite eval_Mul2; cbn [eval]; unfold upd; rewrite String.eqb_refl; cbn; f_equal; lra.
Qed.
Lemma ok_argument_val a : ok_argument_factorial x a = true -> is_polynomial x a = true /\ exists p q, (0 < p)%Z /\ forall t, at_x t a = Some (IZR p * t + IZR q).
Proof.
  assert (TN : forall e q, times_number x e = Some q -> is_polynomial x e = true).
  { intros e q. unfold times_number. destruct e; try discriminate. destruct l as [|a1 [|b [|c l]]]; try discriminate.
    destruct a1, b; try discriminate; (destruct (String.eqb s x) eqn:E; [|discriminate]); intros _; cbn; rewrite E, ?orb_true_r; reflexivity. }
  assert (AF : forall a b, affine x a b = true -> is_polynomial x a = true /\ is_polynomial x b = true /\ exists p q, (0 < p)%Z /\ forall t, at_x t a = Some (IZR p * t) /\ at_x t b = Some (IZR q)).
  { intros u w. unfold affine. destruct (times_number x u) as [p|] eqn:E; [|easy]. destruct w as [q| | | | | | | |]; try easy. cbn [is_number]. intros H. apply andb_true_iff in H as [H1 H2].
    apply pos_int_val in H1 as [H1 H3]. apply q_is_int_spec in H2. split; [eapply TN; eauto|]. split; [reflexivity|].
    exists (q_int p), (q_int q). split; [auto|]. intros t. rewrite (times_number_val _ _ _ E), H1. split; [reflexivity|]. unfold DomSpec.at_x. cbn. now rewrite H2. }
  assert (SH : forall a b, shifted_symbol x a b = true -> is_polynomial x a = true /\ is_polynomial x b = true /\ exists p q, (0 < p)%Z /\ forall t, at_x t a = Some (IZR p * t) /\ at_x t b = Some (IZR q)).
  { intros u w. unfold shifted_symbol. destruct u; try easy. destruct w; try easy. intros H. apply andb_true_iff in H as [H1 H2]. apply q_is_int_spec in H2.
    split. { cbn. rewrite H1. apply orb_true_r. } split; [reflexivity|]. exists 1%Z, (q_int q). split; [lia|]. intros t. unfold DomSpec.at_x. cbn. unfold upd. rewrite H1, H2. split; [f_equal; lra|reflexivity]. }
  assert (PADD : forall a b, is_polynomial x a = true -> is_polynomial x b = true -> is_polynomial x (Add [a; b]) = true).
  { intros u w Hu Hw. cbn [is_polynomial forallb]. rewrite Hu, Hw. apply orb_true_r. }
  intros H. destruct a; try discriminate.
  - cbn in H. split. { cbn. rewrite H. apply orb_true_r. } exists 1%Z, 0%Z. split; [lia|]. intros t. unfold DomSpec.at_x. cbn. unfold upd. rewrite H. f_equal. lra.
  - destruct l as [|a [|b [|c l]]]; try discriminate. cbn [ok_argument_factorial] in H.
    assert (K : (is_polynomial x a = true /\ is_polynomial x b = true /\ exists p q, (0 < p)%Z /\ forall t, (at_x t a = Some (IZR p * t) /\ at_x t b = Some (IZR q)) \/ (at_x t b = Some (IZR p * t) /\ at_x t a = Some (IZR q)))).
    { apply orb_true_iff in H as [H|H]; [apply orb_true_iff in H as [H|H]; [apply orb_true_iff in H as [H|H]|]|].
      - apply AF in H as (A & B & p & q & Hp & K). repeat split; auto. exists p, q. split; auto.
      - apply AF in H as (A & B & p & q & Hp & K). repeat split; auto. exists p, q. split; auto.
      - apply SH in H as (A & B & p & q & Hp & K). repeat split; auto. exists p, q. split; auto.
      - apply SH in H as (A & B & p & q & Hp & K). repeat split; auto. exists p, q. split; auto. }
    destruct K as (A & B & p & q & Hp & K). split; [now apply PADD|]. exists p, q. split; [auto|]. intros t. unfold DomSpec.at_x in *. rewrite eval_Add2.
    destruct (K t) as [[-> ->]|[-> ->]]; cbn; f_equal; lra.
  - destruct l as [|a [|b [|c l]]]; try discriminate. cbn [ok_argument_factorial] in H. destruct (times_number x (Mul [a; b])) as [q|] eqn:E; [|easy].
    apply pos_int_val in H as [H1 H2]. split; [eapply TN; eauto|]. exists (q_int q), 0%Z. split; [auto|]. intros t. rewrite (times_number_val _ _ _ E), H1. f_equal. lra.
Qed.

Lemma non_poly_has e : is_polynomial x e = false -> has x e = true.
Proof.
  intros H. destruct (has x e) eqn:E; [auto|]. exfalso. assert (S : is_scalar_representation x e = true) by now apply is_scalar_representation_spec.
  destruct e; cbn [is_polynomial] in H; rewrite S in H; discriminate.
Qed.
Lemma forall_after nz z l : Forall (defined_after nz z) l -> forall n, (z < n)%Z -> Forall (fun a => exists v, eval I (upd rho x (IZR n)) a = Some v /\ (nz = true -> v <> 0)) l.
Proof. intros H n Hn. eapply Forall_impl; [|exact H]. intros a Ha. apply Ha. exact Hn. Qed.
Theorem on_expanded_sound fuel : forall nz e z0 z' z, on fuel x e z0 = Some (true, z') -> (z' <= z)%Z -> tame z nz e -> defined_after nz z e.
Proof.
  destruct Std as (S1 & S2 & S3).
  induction fuel as [|fuel IH]; intros nz e z0 z' z Hon Hz T; [discriminate|]. cbn [on_expanded] in Hon.
  assert (GE : forall e z b z', on fuel x e z = Some (b, z') -> (z <= z')%Z) by (intros; eapply on_expanded_ge; eauto).
  assert (FD : forall e, fdw (on fuel x) e z0 = Some (true, z') -> exists z1, on fuel x (expand (numerator e)) z0 = Some (true, z1) /\ (z1 <= z)%Z /\ on fuel x (expand (denominator e)) z1 = Some (true, z')).
  { intros e0. unfold find_domain_with. destruct (on fuel x (expand (numerator e0)) z0) as [[[|] z1]|] eqn:E; try easy. intros H. exists z1. repeat split; auto. apply GE in H. lia. }
  assert (OPS : forall nz l, all_operands (on fuel x) (rev l) z0 = Some (true, z') -> Forall (tame z nz) l -> Forall (defined_after nz z) l).
  { intros nz0 l0 Ho Hl. apply (all_operands_true _ _ GE) in Ho. rewrite Forall_forall in Ho, Hl |- *. intros a Ha. destruct (Ho a) as (z1 & z2 & H1 & H2); [now apply -> in_rev|].
    eapply IH; eauto. lia. }
  destruct T as [nz e v Hx Hv Hn|nz e t Hx Hp Ht Hr|l Hp Hl|nz l Hp Hl|nz p m v Hp Hx Hr Hm Hv Hgt|p T Hp Hx Hlp|nz a Hx Hr|nz q b Hq Hb Hd Hp|nz a b Hq Hp e n d Hf Hn Hd].
  - eapply const_after; eauto.
  - rewrite Hx, Hp in Hon. injection Hon as <-. destruct (poly_values e t Hp Ht) as [c Hc]. intros n Hn. exists (rpoly c (IZR n)). split; [apply Hc|].
    intros Enz E0. specialize (Hr Enz n). rewrite Hc, E0 in Hr. specialize (Hr eq_refl). destruct (raise_all_ge (roots x e) z0) as [_ H2]. specialize (H2 _ Hr). rewrite rv_zq in H2.
    apply le_IZR in H2. lia.
  - rewrite (non_poly_has _ Hp), Hp in Hon. intros n Hn. pose proof (forall_after _ _ _ (OPS _ _ Hon Hl) n Hn) as F. destruct (esum_values l (upd rho x (IZR n)) (fun _ _ => True)) as [v Hv].
    { eapply Forall_impl; [|exact F]. intros a (v & Hv & _). eauto. } exists v. split; [exact Hv|discriminate].
  - rewrite (non_poly_has _ Hp), Hp in Hon. intros n Hn. apply eprod_values. exact (forall_after _ _ _ (OPS _ _ Hon Hl) n Hn).
  - rewrite (not_poly_log p Hx) in Hon. cbn [has existsb] in Hon. rewrite Hx in Hon. cbn [orb] in Hon. rewrite Hp in Hon. destruct (on fuel x (gsub G p (Num 1)) z0) as [[b z1]|] eqn:E; [|easy].
    assert (z1 = z') by congruence. subst z1. intros n Hn. destruct (log_above fuel p z0 b z' z m v Hp Hx Hr Hm Hv Hgt E Hz n Hn) as (w & Hw & Hw1).
    exists (ln w). split. { unfold DomSpec.at_x in *. cbn [eval omap]. rewrite Hw. cbn [obind]. apply S1. lra. } intros _. rewrite <- ln_1. intros E1. apply ln_inv in E1; lra.
  - assert (Hll : has x (Fun FLog [p]) = true) by (cbn [has existsb]; now rewrite Hx). rewrite (not_poly_log _ Hll) in Hon. cbn [has existsb] in Hon. rewrite Hx in Hon. cbn [orb is_log] in Hon. rewrite Hlp in Hon.
    destruct (on fuel x (Fun FLog [p]) z0) as [[b z1]|] eqn:E; [|easy]. assert (Ez : raise_e z1 = z') by congruence. assert (Hz1 : (z1 <= z)%Z) by (unfold raise_e in Ez; lia).
    intros n Hn. inversion T as [ | | | |nz' p' m v Hp' Hx' Hr Hm Hv Hgt| | | | ]; subst.
    1:{ cbn [has existsb] in H. rewrite Hx in H. discriminate. } 1:{ congruence. }
    destruct fuel as [|fuel]; [discriminate|]. cbn [on_expanded] in E. rewrite Hlp, Hp in E. cbn [has existsb] in E. rewrite Hx in E. cbn [orb] in E.
    destruct (on fuel x (gsub G p (Num 1)) z0) as [[b1 z2]|] eqn:E2; [|easy]. assert (z2 = z1) by congruence. subst z2.
    destruct (log_above fuel p z0 b1 z1 z m v Hp Hx Hr Hm Hv Hgt E2 Hz1 n Hn) as (w & Hw & Hw1). exists (ln (ln w)). split; [|discriminate].
    unfold DomSpec.at_x in *. cbn [eval omap]. rewrite Hw. cbn [obind]. rewrite S1 by lra. cbn [obind]. apply S1. rewrite <- ln_1. apply ln_increasing; lra.
  - rewrite (not_poly_fact a Hx) in Hon. cbn [has existsb] in Hon. rewrite Hx in Hon. cbn [orb] in Hon. destruct (ok_argument_factorial x a) eqn:Ea; [|easy].
    destruct (ok_argument_val a Ea) as (Pa & p & q & Hpos & Hval). destruct fuel as [|fuel]; [discriminate|]. cbn [on_expanded] in Hon. rewrite Hx, Pa in Hon.
    assert (Ez : raise_all z0 (roots x a) = z') by congruence. intros n Hn.
    assert (Hpr : 0 < IZR p) by now apply IZR_lt.
    destruct (Hr (- IZR q / IZR p)) as (r & Hr1 & Hr2). { rewrite Hval. f_equal. field. lra. }
    destruct (raise_all_ge (roots x a) z0) as [_ H2]. specialize (H2 _ Hr1). rewrite Ez, Hr2 in H2. apply IZR_le in Hz. apply IZR_lt in Hn.
    assert (H3 : 0 < IZR p * IZR n + IZR q). { apply Rmult_lt_reg_r with (/ IZR p). { now apply Rinv_0_lt_compat. } rewrite Rmult_0_l. replace ((IZR p * IZR n + IZR q) * / IZR p) with (IZR n - (- IZR q / IZR p)) by (field; lra). lra. }
    rewrite <- mult_IZR, <- plus_IZR in H3. apply lt_IZR in H3. exists (INR (fact (Z.to_nat (p * n + q)))). split.
    + unfold DomSpec.at_x in *. cbn [eval omap]. rewrite Hval. cbn [obind]. apply S3. exists (Z.to_nat (p * n + q)). split; [|reflexivity]. rewrite INR_IZR_INZ, Z2Nat.id by lia. rewrite plus_IZR, mult_IZR. reflexivity.
    + intros _. apply not_0_INR. apply fact_neq_0.
  - intros n Hn. destruct (Hd n Hn) as (y & Hy & _). exists (Rpower (rv q) y). unfold DomSpec.at_x in *. cbn [eval]. rewrite Hy. cbn [obind]. rewrite rpow_pos by auto. split; [auto|]. intros _. unfold Rpower. pose proof (exp_pos (y * ln (rv q))). lra.
  - rewrite (non_poly_has _ Hp), Hp in Hon.
    assert (Hon' : fdw (on fuel x) (gmul G b (gfun G FLog [a])) z0 = Some (true, z')).
    { destruct a; auto. destruct (q_lt 0 q && has x b) eqn:Eq; [|auto]. exfalso. apply andb_true_iff in Eq as [E1 E2]. apply q_lt_spec in E1. rewrite rv_0 in E1. destruct (Hq q eq_refl); [lra|congruence]. }
    apply FD in Hon' as (z1 & O1 & Hz1 & O2). intros k Hk. destruct (IH _ _ _ _ _ O1 Hz1 Hn k Hk) as (u & Hu & _). destruct (IH _ _ _ _ _ O2 Hz Hd k Hk) as (w & Hw & Nw).
    destruct (Hf (upd rho x (IZR k)) u w Hu Hw (Nw eq_refl)) as (v & Hv). rewrite eval_Mul2 in Hv. apply olift2_some in Hv as (vb & vl & Hvb & Hvl & _). cbn [eval omap] in Hvl.
    destruct (eval I (upd rho x (IZR k)) a) as [va|] eqn:Eva; [|easy]. cbn [obind] in Hvl.
    assert (Hva : 0 < va). { destruct (Rlt_le_dec 0 va) as [|Hle]; [auto|]. rewrite S2 in Hvl by auto. discriminate. }
    exists (Rpower va vb). unfold DomSpec.at_x. cbn [eval]. rewrite Eva, Hvb. cbn [obind]. rewrite rpow_pos by auto. split; [auto|]. intros _. unfold Rpower. pose proof (exp_pos (vb * ln va)). lra.
Qed.
Theorem find_domain_sound fuel e z0 z : find_domain_in_N G numerator denominator expand roots fuel x e z0 = Some (true, z) ->
  fraction_of I e (expand (numerator e)) (expand (denominator e)) -> tame z false (expand (numerator e)) -> tame z true (expand (denominator e)) ->
  (z0 <= z)%Z /\ forall n, (z < n)%Z -> exists v, at_x (IZR n) e = Some v.
Proof.
  intros H Hf Tn Td. split; [eapply find_domain_ge; eauto|]. intros n Hn. unfold find_domain_in_N, find_domain_with in H.
  destruct (on fuel x (expand (numerator e)) z0) as [[[|] z1]|] eqn:E; try easy.
  assert (Hz1 : (z1 <= z)%Z) by (eapply on_expanded_ge; eauto).
  destruct (on_expanded_sound _ _ _ _ _ _ E Hz1 Tn n Hn) as (u & Hu & _). destruct (on_expanded_sound _ _ _ _ _ _ H (Z.le_refl z) Td n Hn) as (w & Hw & Nw).
  exact (Hf _ u w Hu Hw (Nw eq_refl)).
Qed.
End Proofs.
Theorem find_domain_least : forall G numerator denominator expand roots x fuel e z0 z,
  is_polynomial x (expand (numerator e)) = true -> is_polynomial x (expand (denominator e)) = true ->
  find_domain_in_N G numerator denominator expand roots fuel x e z0 = Some (true, z) ->
  let found q := (has x (expand (numerator e)) = true /\ In q (roots x (expand (numerator e)))) \/ (has x (expand (denominator e)) = true /\ In q (roots x (expand (denominator e)))) in
  ((z0 <= z)%Z /\ forall q, found q -> rv q <= IZR z) /\ forall k, (z0 <= k)%Z -> (forall q, found q -> rv q <= IZR k) -> (z <= k)%Z.
Proof.
  intros G nu de ex roots x fuel e z0 z Pn Pd H found. unfold find_domain_in_N, find_domain_with in H. destruct fuel as [|fuel]; [discriminate|]. cbn [on_expanded] in H. rewrite Pn, Pd in H.
  set (N := ex (nu e)) in *. set (D := ex (de e)) in *.
  assert (E : z = (let z1 := if has x N then raise_all z0 (roots x N) else z0 in if has x D then raise_all z1 (roots x D) else z1)).
  { destruct (has x N), (has x D); cbv zeta in *; congruence. }
  clear H. destruct (raise_all_ge (roots x N) z0) as [A1 A2]. split; [split|].
  - rewrite E. cbv zeta. destruct (has x N), (has x D); try lia; (eapply Z.le_trans; [|apply (proj1 (raise_all_ge _ _))]); lia.
  - intros q [[Hx Hq]|[Hx Hq]]; rewrite E; cbv zeta; rewrite Hx.
    + specialize (A2 q Hq). destruct (has x D); [|exact A2]. pose proof (proj1 (raise_all_ge (roots x D) (raise_all z0 (roots x N)))) as B. apply IZR_le in B. lra.
    + apply raise_all_ge. exact Hq.
  - intros k Hk Hq. rewrite E. cbv zeta. assert (K1 : ((if has x N then raise_all z0 (roots x N) else z0) <= k)%Z).
    { destruct (has x N) eqn:Hx; [|auto]. apply raise_all_least; auto. intros q Hin. apply Hq. left. auto. }
    destruct (has x D) eqn:Hx; [|exact K1]. apply raise_all_least; auto. intros q Hin. apply Hq. right. auto.
Qed.
(** log(log(x)): the index is beyond e, so that the value is not negative from the index on. *)
Theorem find_domain_loglog : forall G numerator denominator expand roots x I rho, (forall v, 0 < v -> ifun I FLog [v] = Some (ln v)) ->
  forall fuel e z0 z, expand (numerator e) = Fun FLog [Fun FLog [Sym x]] ->
  find_domain_in_N G numerator denominator expand roots fuel x e z0 = Some (true, z) ->
  forall n, (z <= n)%Z -> exists v, eval I (upd rho x (IZR n)) (Fun FLog [Fun FLog [Sym x]]) = Some v /\ 0 <= v.
Proof.
  intros G nu de ex roots x I rho S fuel e z0 z En H n Hn. unfold find_domain_in_N, find_domain_with in H. rewrite En in H.
  assert (Hx : has x (Fun FLog [Sym x]) = true) by (cbn [has existsb]; now rewrite String.eqb_refl).
  destruct (on_expanded G nu de ex roots fuel x (Fun FLog [Fun FLog [Sym x]]) z0) as [[[|] z1]|] eqn:E; try easy.
  assert (Hz : (z1 <= z)%Z) by (eapply on_expanded_ge; eauto). clear H.
  assert (Z3 : (3 <= z1)%Z).
  { destruct fuel as [|fuel]; [discriminate|]. cbn [on_expanded] in E. rewrite (not_poly_log x _ Hx) in E. cbn [has existsb] in Hx, E. rewrite Hx in E.
    assert (P : is_polynomial x (Fun FLog [Sym x]) = false) by (apply not_poly_log; cbn [has]; apply String.eqb_refl). 
    cbn [orb] in E. rewrite P in E. cbn [is_log] in E. destruct (on_expanded G nu de ex roots fuel x (Fun FLog [Sym x]) z0) as [[b z2]|]; [|easy].
    assert (Ez : raise_e z2 = z1) by congruence. unfold raise_e in Ez. lia. }
  assert (N3 : 3 <= IZR n) by (apply IZR_le; lia).
  assert (L : 1 <= ln (IZR n)). { rewrite <- (ln_exp 1). pose proof exp_le_3. destruct (Req_dec (exp 1) (IZR n)) as [->|D]; [lra|]. left. apply ln_increasing; [apply exp_pos|lra]. }
  exists (ln (ln (IZR n))). split.
  - cbn [eval omap]. unfold upd. rewrite String.eqb_refl. cbn [obind]. rewrite S by lra. cbn [obind]. apply S. lra.
  - rewrite <- ln_1. destruct (Req_dec 1 (ln (IZR n))) as [<-|D]; [lra|]. left. apply ln_increasing; lra.
Qed.
