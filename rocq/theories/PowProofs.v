(** Proofs for C65. *)
From Coq Require Import ZArith QArith Qcanon Reals List String Bool Lia Lra.
From Verif Require Import Ast ExprModel ExprSpec ExprProofs1 ExprProofs2 ExprProofs3 NonLinProofs PowModel PowSpec.
Import ListNotations.
Local Open Scope list_scope.
Local Open Scope R_scope.

(** * Powers *)
(** [zm]: integer exponents and bases other than 0; otherwise positive bases. *)
Definition mb (zm : bool) (u : R) : Prop := if zm then u <> 0 else 0 < u.
Definition me (zm : bool) (y : R) : Prop := if zm then is_integer y else True.
Lemma rpow_int u z : u <> 0 -> rpow u (IZR z) = Some (powerRZ u z).
Proof. intros H. unfold rpow. rewrite as_int_IZR. destruct (Req_EM_T u 0); [easy|reflexivity]. Qed.
Lemma rpow_mode zm u y : mb zm u -> me zm y -> exists v, rpow u y = Some v /\ mb zm v.
Proof.
  destruct zm; cbn [mb me].
  - intros Hu [z ->]. exists (powerRZ u z). split; [now apply rpow_int|now apply powerRZ_NOR].
  - intros Hu _. exists (Rpower u y). split; [now apply rpow_pos|]. unfold Rpower. apply exp_pos.
Qed.
Lemma me_mul zm y z : me zm y -> me zm z -> me zm (y * z).
Proof. destruct zm; cbn [me]; [|auto]. intros [a ->] [b ->]. exists (a * b)%Z. now rewrite mult_IZR. Qed.
Lemma powerRZ_powerRZ u a b : u <> 0 -> powerRZ (powerRZ u a) b = powerRZ u (a * b).
Proof.
  intros Hu. assert (N : forall k, powerRZ (powerRZ u a) (Z.of_nat k) = powerRZ u (a * Z.of_nat k)).
  { induction k as [|k IH]. { rewrite Z.mul_0_r. reflexivity. } replace (Z.of_nat (S k)) with (Z.of_nat k + 1)%Z by lia. rewrite powerRZ_add by now apply powerRZ_NOR. rewrite IH, powerRZ_1, <- powerRZ_add by auto. f_equal. ring. }
  destruct (Z_le_gt_dec 0 b) as [H|H]. { rewrite <- (Z2Nat.id b H). apply N. }
  replace b with (- Z.of_nat (Z.to_nat (- b)))%Z by lia. rewrite powerRZ_neg by now apply powerRZ_NOR. rewrite powerRZ_inv, N by now apply powerRZ_NOR.
  rewrite <- powerRZ_inv, <- powerRZ_neg by auto. f_equal. ring.
Qed.
Lemma rpow_rpow zm u y z v : mb zm u -> me zm y -> me zm z -> rpow u y = Some v -> rpow v z = rpow u (y * z).
Proof.
  intros Hu Hy Hz Hv. destruct zm; cbn [mb me] in *.
  - destruct Hy as [a ->], Hz as [b ->]. rewrite rpow_int in Hv by auto. injection Hv as <-. rewrite <- mult_IZR, !rpow_int; auto using powerRZ_NOR. f_equal. now apply powerRZ_powerRZ.
  - rewrite rpow_pos in Hv by auto. injection Hv as <-. rewrite !rpow_pos; auto. 2:{ unfold Rpower. apply exp_pos. } f_equal. apply Rpower_mult.
Qed.
Lemma rpow_times zm u w y a b : mb zm u -> mb zm w -> me zm y -> rpow u y = Some a -> rpow w y = Some b -> rpow (u * w) y = Some (a * b).
Proof.
  intros Hu Hw Hy Ha Hb. destruct zm; cbn [mb me] in *.
  - destruct Hy as [z ->]. rewrite rpow_int in Ha, Hb by auto. rewrite rpow_int by (now apply Rmult_integral_contrapositive_currified). rewrite powerRZ_mult. congruence.
  - rewrite rpow_pos in Ha, Hb by auto. rewrite rpow_pos by (now apply Rmult_lt_0_compat). injection Ha as <-. injection Hb as <-. f_equal. symmetry. now apply Rpower_mult_distr.
Qed.
Lemma rpow_one u : rpow u 1 = Some u. Proof. change 1 with (INR 1). now rewrite rpow_nat, pow_1. Qed.
Lemma rpow_1_l y : rpow 1 y = Some 1.
Proof. rewrite rpow_pos by lra. unfold Rpower. rewrite ln_1, Rmult_0_r, exp_0. reflexivity. Qed.

Section Proofs.
Context (I : interp) (G : ginac) (rho : string -> R).
Hypothesis HG : ginac_ok I G.
Hypothesis HK : keeps_integers I G.
Local Notation ev := (eval I rho).
Local Notation int_val := (integer_valued I rho).

Lemma integer_mul u w : is_integer u -> is_integer w -> is_integer (u * w).
Proof. intros [a ->] [b ->]. exists (a * b)%Z. now rewrite mult_IZR. Qed.
Lemma int_product l r : Forall int_val l -> eprod I rho l = Some r -> is_integer r.
Proof.
  intros F. revert r. induction F as [|a l [z Hz] _ IH]; intros r. { rewrite eprod_nil. intros [= <-]. now exists 1%Z. }
  rewrite eprod_cons, Hz. destruct (eprod I rho l) as [s|] eqn:E; [|easy]. cbn. intros [= <-]. destruct (IH s eq_refl) as [w ->]. exists (z * w)%Z. now rewrite mult_IZR.
Qed.
Lemma flat_product l : Forall (fun e => eprod I rho (exponent_factors e) = ev e) l -> eprod I rho (flat_map exponent_factors l) = eprod I rho l.
Proof. induction 1 as [|a l Ha _ IH]; [reflexivity|]. cbn [flat_map]. now rewrite eprod_app, eprod_cons, Ha, IH. Qed.
Lemma factors_val e : eprod I rho (exponent_factors e) = ev e.
Proof. induction e using expr_ind'; cbn [exponent_factors]; rewrite ?eprod_1; try reflexivity. rewrite eval_Mul. now apply flat_product. Qed.
Lemma int_factors e r : Forall int_val (exponent_factors e) -> ev e = Some r -> is_integer r.
Proof. intros F E. rewrite <- factors_val in E. eapply int_product; eauto. Qed.

(** The state: the exponent num * rest has the value rv num * r. *)
Definition st_ok (zm : bool) (st : Qc * expr) (r : R) : Prop :=
  ev (snd st) = Some r /\ (zm = true -> is_integer (rv (fst st)) /\ Forall int_val (exponent_factors (snd st))).
Definition st_me zm st r : st_ok zm st r -> me zm (rv (fst st) * r).
Proof. intros [H1 H2]. destruct zm; cbn [me]; [|auto]. destruct (H2 eq_refl) as [H3 H4]. apply integer_mul; [auto|]. eapply int_factors; eauto. Qed.
Lemma split_exponent_ok zm f st r y : st_ok zm st r -> ev f = Some y -> (zm = true -> Forall int_val (exponent_factors f)) ->
  exists r', st_ok zm (split_exponent G f st) r' /\ rv (fst (split_exponent G f st)) * r' = rv (fst st) * r * y.
Proof.
  intros [Hr Hi] Hy Hz.
  assert (Other : exists r', st_ok zm (fst st, gmul G (snd st) f) r' /\ rv (fst (fst st, gmul G (snd st) f)) * r' = rv (fst st) * r * y).
  { exists (r * y); split; [split; cbn [fst snd]; [now apply gmul_val|intros Ez; destruct (Hi Ez) as [H1 H2]; split; [auto|]; apply HK; auto] | cbn [fst snd]; ring]. }
  unfold split_exponent. destruct f; try exact Other.
  exists r. split. { split; cbn [fst snd]; [auto|]. intros Ez. destruct (Hi Ez) as [H1 H2]. split; [|auto]. rewrite rv_mul. apply integer_mul; [auto|].
    specialize (Hz Ez). inversion Hz as [|? ? [z Hz'] _]. exists z. cbn in Hz'. congruence. }
  cbn [fst snd]. rewrite rv_mul. cbn in Hy. injection Hy as <-. ring.
Qed.
Lemma fold_split_ok zm l st r y : st_ok zm st r -> eprod I rho l = Some y -> (zm = true -> Forall int_val (flat_map exponent_factors l)) ->
  exists r', st_ok zm (fold_right (split_exponent G) st l) r' /\ rv (fst (fold_right (split_exponent G) st l)) * r' = rv (fst st) * r * y.
Proof.
  intros Hst. revert y. induction l as [|f l IH]; intros y Hy Hz; cbn [fold_right].
  - rewrite eprod_nil in Hy. injection Hy as <-. exists r. split; [auto|ring].
  - rewrite eprod_cons in Hy. apply olift2_some in Hy as (a & b & Ha & Hb & ->).
    assert (Hz' : zm = true -> Forall int_val (exponent_factors f) /\ Forall int_val (flat_map exponent_factors l)). { intros Ez. specialize (Hz Ez). cbn [flat_map] in Hz. now apply Forall_app in Hz. }
    destruct (IH b Hb (fun Ez => proj2 (Hz' Ez))) as (r1 & H1 & E1). destruct (split_exponent_ok zm f _ r1 a H1 Ha (fun Ez => proj1 (Hz' Ez))) as (r2 & H2 & E2). exists r2. split; [auto|]. rewrite E2, E1. ring.
Qed.
Lemma add_exponent_ok zm b st r y : st_ok zm st r -> ev b = Some y -> (zm = true -> Forall int_val (exponent_factors b)) ->
  exists r', st_ok zm (add_exponent G b st) r' /\ rv (fst (add_exponent G b st)) * r' = rv (fst st) * r * y.
Proof.
  intros Hst Hy Hz. destruct b; try (now apply split_exponent_ok). cbn [add_exponent]. apply fold_split_ok; auto.
Qed.
Lemma base_mode zm e u v : ev (innermost e) = Some u -> mb zm u -> (zm = true -> Forall int_val (exponents e)) -> ev e = Some v -> mb zm v.
Proof.
  intros Hu Hm. revert v. induction e using expr_ind'; intros v Hz Hv; cbn [innermost exponents] in *; try (assert (u = v) by congruence; subst; auto; fail).
  cbn [eval] in Hv. destruct (ev e1) as [a|] eqn:Ea; [|easy]. destruct (ev e2) as [b|] eqn:Eb; [|easy]. cbn [obind] in Hv.
  assert (Ma : mb zm a). { apply IHe1; auto. intros Ez. specialize (Hz Ez). now apply Forall_app in Hz. }
  destruct (rpow_mode zm a b Ma) as (w & Hw & Mw). { destruct zm; cbn [me]; [|auto]. specialize (Hz eq_refl). apply Forall_app in Hz as [_ Hz]. eapply int_factors; eauto. } congruence.
Qed.
Lemma real_base_ok zm e st r u v : ev (innermost e) = Some u -> mb zm u -> (zm = true -> Forall int_val (exponents e)) -> ev e = Some v -> st_ok zm st r ->
  exists st' r', real_base G e st = (innermost e, st') /\ st_ok zm st' r' /\ rpow v (rv (fst st) * r) = rpow u (rv (fst st') * r').
Proof.
  intros Hu Hm. revert v st r. induction e using expr_ind'; intros v st r Hz Hv Hst; cbn [innermost exponents real_base] in *;
    try (exists st, r; assert (u = v) by congruence; subst; auto; fail).
  cbn [eval] in Hv. destruct (ev e1) as [a|] eqn:Ea; [|easy]. destruct (ev e2) as [b|] eqn:Eb; [|easy]. cbn [obind] in Hv.
  assert (Hz' : zm = true -> Forall int_val (exponents e1) /\ Forall int_val (exponent_factors e2)). { intros Ez. specialize (Hz Ez). now apply Forall_app in Hz. }
  destruct (add_exponent_ok zm e2 st r b Hst Eb (fun Ez => proj2 (Hz' Ez))) as (r1 & H1 & E1).
  destruct (IHe1 Hu a _ r1 (fun Ez => proj1 (Hz' Ez)) eq_refl H1) as (st' & r' & Hr & Hs & Hp). exists st', r'. split; [auto|]. split; [auto|]. rewrite <- Hp, E1.
  assert (Ma : mb zm a). { eapply base_mode; eauto. intros Ez. apply (Hz' Ez). }
  assert (Mb : me zm b). { destruct zm; cbn [me]; [|auto]. eapply int_factors; eauto. apply Hz'. auto. }
  rewrite (rpow_rpow zm a b (rv (fst st) * r) v Ma Mb (st_me _ _ _ Hst) Hv). f_equal. ring.
Qed.

(** erase_factor *)
Lemma fold_left_gmul l acc a r : ev acc = Some a -> eprod I rho l = Some r -> ev (fold_left (gmul G) l acc) = Some (a * r).
Proof.
  revert acc a r. induction l as [|f l IH]; intros acc a r Ha Hr; cbn [fold_left].
  - rewrite eprod_nil in Hr. injection Hr as <-. rewrite Ha. f_equal. ring.
  - rewrite eprod_cons in Hr. apply olift2_some in Hr as (x & y & Hx & Hy & ->). rewrite (IH (gmul G acc f) (a * x) y); [f_equal; ring|now apply gmul_val|auto].
Qed.
Lemma erase_first_ok zm before l e r : erase_first G before l = Some e -> eprod I rho (before ++ l) = Some r -> (zm = true -> Forall int_val (flat_map exponent_factors (before ++ l))) ->
  exists r1, ev e = Some r1 /\ r = r1 * rho "n"%string /\ me zm r1 /\ me zm (rho "n"%string).
Proof.
  revert before. induction l as [|f l IH]; intros before H Hr Hz; cbn [erase_first] in H; [easy|]. destruct (expr_eqb f (Sym "n")) eqn:E.
  - apply expr_eqb_eq in E. subst f. injection H as <-. rewrite eprod_app, eprod_cons in Hr. apply olift2_some in Hr as (b & c & Hb & Hc & ->). apply olift2_some in Hc as (n & d & Hn & Hd & ->). cbn in Hn. injection Hn as <-.
    assert (Hp : eprod I rho (before ++ l) = Some (b * d)) by (rewrite eprod_app, Hb, Hd; reflexivity).
    exists (1 * (b * d)). split; [apply fold_left_gmul; [cbn; now rewrite rv_1|auto]|]. split; [ring|].
    destruct zm; cbn [me]; [|auto]. specialize (Hz eq_refl). rewrite flat_map_app in Hz. apply Forall_app in Hz as [Z1 Z2]. cbn [flat_map exponent_factors app] in Z2. inversion Z2 as [|? ? [z Zn] Z3]; subst.
    split. { rewrite Rmult_1_l. apply (int_product (flat_map exponent_factors (before ++ l))). { rewrite flat_map_app. now apply Forall_app. } rewrite flat_product; [auto|]. apply Forall_forall. intros; apply factors_val. }
    exists z. cbn in Zn. congruence.
  - rewrite <- (app_assoc before [f] l) in IH || idtac. apply (IH (before ++ [f])); auto; rewrite <- app_assoc; cbn [app]; auto.
Qed.
Lemma erase_ok zm rest e r : erase_factor G rest = Some e -> ev rest = Some r -> (zm = true -> Forall int_val (exponent_factors rest)) ->
  exists r1, ev e = Some r1 /\ r = r1 * rho "n"%string /\ me zm r1 /\ me zm (rho "n"%string).
Proof.
  intros H Hr Hz. unfold erase_factor in H. destruct rest; try discriminate.
  - destruct (expr_eqb (Sym s) (Sym "n")) eqn:E; [|discriminate]. apply expr_eqb_eq in E. injection E as ->. injection H as <-. exists 1. cbn in Hr. injection Hr as <-. cbn [eval]. rewrite rv_1. split; [auto|]. split; [ring|].
    destruct zm; cbn [me]; [|auto]. specialize (Hz eq_refl). inversion Hz as [|? ? [z Zn] Z3]; subst. split; [now exists 1%Z|]. exists z. cbn in Zn. congruence.
  - eapply (erase_first_ok zm []); eauto.
Qed.
Lemma return_power_ok zm nb base num rest input u r w : ev base = Some u -> mb zm u -> st_ok zm (num, rest) r -> rpow u (rv num * r) = Some w ->
  ev (return_power G nb base num rest input) = Some w.
Proof.
  intros Hu Hm Hst Hw. pose proof (st_me _ _ _ Hst) as Hme. destruct Hst as [Hr Hi]. cbn [fst snd] in *.
  assert (Mn : me zm (rv num)). { destruct zm; cbn [me]; [|auto]. now apply Hi. }
  assert (Mr : me zm r). { destruct zm; cbn [me]; [|auto]. eapply int_factors; eauto. now apply Hi. }
  unfold return_power. destruct (if input then erase_factor G rest else None) as [e|] eqn:Ee.
  - assert (Ee' : erase_factor G rest = Some e) by (destruct input; congruence). destruct (erase_ok zm rest e r Ee' Hr (fun Ez => proj2 (Hi Ez))) as (r1 & H1 & -> & M1 & Mn1). destruct nb.
    + destruct (rpow_mode zm u (rv num) Hm Mn) as (a & Ha & Ma). destruct (rpow_mode zm a r1 Ma M1) as (b & Hb & Mb).
      apply (gpow_val I G HG rho _ _ b (rho "n"%string)); [|reflexivity|]. { apply (gpow_val I G HG rho _ _ a r1); auto. apply (gpow_val I G HG rho _ _ u (rv num)); auto. }
      rewrite (rpow_rpow zm a r1 _ b) by auto. rewrite (rpow_rpow zm u (rv num) _ a) by auto using me_mul. exact Hw.
    + destruct (rpow_mode zm u (rv num * r1) Hm (me_mul _ _ _ Mn M1)) as (a & Ha & Ma). apply (gpow_val I G HG rho _ _ a (rho "n"%string)); [|reflexivity|].
      { apply (gpow_val I G HG rho _ _ u (rv num * r1)); auto. apply gmul_val; auto. } rewrite (rpow_rpow zm u (rv num * r1) _ a) by auto using me_mul. rewrite Rmult_assoc. exact Hw.
  - destruct nb.
    + destruct (rpow_mode zm u (rv num) Hm Mn) as (a & Ha & Ma). apply (gpow_val I G HG rho _ _ a r); auto. { apply (gpow_val I G HG rho _ _ u (rv num)); auto. } rewrite (rpow_rpow zm u (rv num) _ a) by auto. exact Hw.
    + apply (gpow_val I G HG rho _ _ u (rv num * r)); auto. now apply gmul_val.
Qed.
Lemma combine_mode b xs : combinable I rho b xs -> exists zm u, ev b = Some u /\ mb zm u /\ (zm = true -> Forall int_val xs).
Proof. intros (u & Hu & [H|[H F]]); [exists false, u|exists true, u]; repeat split; auto; discriminate. Qed.
Lemma st_weaken st r : st_ok true st r -> st_ok false st r. Proof. intros [H _]. split; [auto|discriminate]. Qed.
Lemma st_init zm : st_ok zm (1%Qc, Num 1) 1.
Proof. split; cbn [fst snd]. { cbn. now rewrite rv_1. } intros _. split; [exists 1%Z; apply rv_1|]. constructor; [|constructor]. exists 1%Z. cbn. now rewrite rv_1. Qed.
(** [exponents] has more than integers as soon as the state has. *)
Lemma factor_power_ok num rest input f xs r v w : combinable I rho (innermost f) (exponents f ++ xs) -> (Forall int_val xs -> st_ok true (num, rest) r) -> st_ok false (num, rest) r ->
  ev f = Some v -> rpow v (rv num * r) = Some w -> ev (factor_power G num rest input f) = Some w /\ (0 < v \/ (v <> 0 /\ is_integer (rv num * r))).
Proof.
  intros Hc Ht Hf Hv Hw. apply combine_mode in Hc as (zm & u & Hu & Hm & Hz). assert (Hz' : zm = true -> Forall int_val (exponents f) /\ Forall int_val xs) by (intros Ez; specialize (Hz Ez); now apply Forall_app in Hz).
  assert (Hst : st_ok zm (num, rest) r). { destruct zm; [apply Ht; now apply Hz'|exact Hf]. }
  destruct (real_base_ok zm f (num, rest) r u v Hu Hm (fun Ez => proj1 (Hz' Ez)) Hv Hst) as ([num' rest'] & r' & Hrb & Hs & Hp). split.
  - unfold factor_power. rewrite Hrb. cbn [fst snd] in *. eapply return_power_ok; eauto. now rewrite <- Hp.
  - assert (Mv : mb zm v) by (eapply base_mode; eauto; intros Ez; now apply Hz'). destruct zm; [right; split; [auto|]; exact (st_me _ _ _ Hst)|left; auto].
Qed.
Lemma powers_of_factors_ok num rest input l xs r y v : Forall (fun f => combinable I rho (innermost f) (exponents f ++ xs)) l -> (Forall int_val xs -> st_ok true (num, rest) r) -> st_ok false (num, rest) r ->
  eprod I rho l = Some y -> rpow y (rv num * r) = Some v -> ev (powers_of_factors G l num rest input) = Some v.
Proof.
  intros F Ht Hf Hy Hv.
  enough (K : exists w, ev (powers_of_factors G l num rest input) = Some w /\ rpow y (rv num * r) = Some w /\ (0 < y \/ (y <> 0 /\ is_integer (rv num * r)))) by (destruct K as (w & H1 & H2 & _); congruence).
  clear v Hv. revert y Hy. induction F as [|f l Hc F IH]; intros y Hy.
  - rewrite eprod_nil in Hy. injection Hy as <-. exists 1. split; [cbn; now rewrite rv_1|]. split; [apply rpow_1_l|left; lra].
  - rewrite eprod_cons in Hy. apply olift2_some in Hy as (a & b & Ha & Hb & ->). destruct (IH b Hb) as (w & H1 & H2 & H3).
    assert (exists wa, rpow a (rv num * r) = Some wa) as [wa Hwa].
    { apply combine_mode in Hc as (zm & u & Hu & Hm & Hz). assert (Hz' : zm = true -> Forall int_val (exponents f) /\ Forall int_val xs) by (intros Ez; specialize (Hz Ez); now apply Forall_app in Hz).
      assert (Hst : st_ok zm (num, rest) r) by (destruct zm; [apply Ht; now apply Hz'|exact Hf]).
      destruct (rpow_mode zm a (rv num * r)) as (wa & Hwa & _); [eapply base_mode; eauto; intros Ez; now apply Hz'|exact (st_me _ _ _ Hst)|eauto]. }
    destruct (factor_power_ok num rest input f xs r a wa Hc Ht Hf Ha Hwa) as [H4 H5].
    exists (w * wa). split; [cbn [powers_of_factors fold_right]; apply gmul_val; auto|].
    destruct H5 as [P5|[N5 I5]], H3 as [P3|[N3 I3]].
    + split; [|left; now apply Rmult_lt_0_compat]. rewrite (Rmult_comm w wa). apply (rpow_times false); auto. exact Logic.I.
    + split; [|right; split; [apply Rmult_integral_contrapositive_currified; lra|auto]]. rewrite (Rmult_comm w wa). apply (rpow_times true); auto. cbn; lra.
    + split; [|right; split; [apply Rmult_integral_contrapositive_currified; lra|auto]]. rewrite (Rmult_comm w wa). apply (rpow_times true); auto. cbn; lra.
    + split; [|right; split; [apply Rmult_integral_contrapositive_currified; lra|auto]]. rewrite (Rmult_comm w wa). apply (rpow_times true); auto.
Qed.
(** A product of combinable factors is combinable. *)
Lemma product_combinable l xs y : Forall (fun f => combinable I rho (innermost f) (exponents f ++ xs)) l -> eprod I rho l = Some y -> 0 < y \/ (y <> 0 /\ Forall int_val xs).
Proof.
  intros F. revert y. induction F as [|f l Hc F IH]; intros y Hy. { rewrite eprod_nil in Hy. injection Hy as <-. left. lra. }
  rewrite eprod_cons in Hy. apply olift2_some in Hy as (a & b & Ha & Hb & ->). specialize (IH b Hb).
  apply combine_mode in Hc as (zm & u & Hu & Hm & Hz). assert (Hz' : zm = true -> Forall int_val (exponents f) /\ Forall int_val xs) by (intros Ez; specialize (Hz Ez); now apply Forall_app in Hz).
  assert (Mv : mb zm a) by (eapply base_mode; eauto; intros Ez; now apply Hz'). destruct zm; cbn [mb] in Mv.
  - right. split; [apply Rmult_integral_contrapositive_currified; [auto|destruct IH as [|[? _]]; lra]|now apply Hz'].
  - destruct IH as [P|[N Fx]]; [left; now apply Rmult_lt_0_compat|right]. split; [apply Rmult_integral_contrapositive_currified; lra|auto].
Qed.
(** In both modes at once. *)
Lemma real_base_both e u v : ev (innermost e) = Some u -> (0 < u \/ (u <> 0 /\ Forall int_val (exponents e))) -> ev e = Some v ->
  exists num rest r, real_base G e (1%Qc, Num 1) = (innermost e, (num, rest)) /\ st_ok false (num, rest) r /\ (Forall int_val (exponents e) -> u <> 0 -> st_ok true (num, rest) r) /\ rpow u (rv num * r) = Some v.
Proof.
  intros Hu Hm Hv.
  assert (K1 : Forall int_val (exponents e) -> u <> 0 -> exists st' r', real_base G e (1%Qc, Num 1) = (innermost e, st') /\ st_ok true st' r' /\ rpow v (rv 1%Qc * 1) = rpow u (rv (fst st') * r')).
  { intros F N. exact (real_base_ok true e (1%Qc, Num 1) 1 u v Hu N (fun _ => F) Hv (st_init true)). }
  assert (E1 : rpow v (rv 1%Qc * 1) = Some v) by (rewrite rv_1, Rmult_1_r; apply rpow_one).
  destruct Hm as [P|[N F]].
  - destruct (real_base_ok false e (1%Qc, Num 1) 1 u v Hu P ltac:(discriminate) Hv (st_init false)) as ([num rest] & r & H1 & H2 & H3). exists num, rest, r. cbn [fst snd] in *. split; [auto|]. split; [auto|]. split; [|now rewrite <- H3].
    intros F N. destruct (K1 F N) as ([num' rest'] & r' & H1' & H2' & _). assert (E : (num', rest') = (num, rest)) by congruence. injection E as -> ->.
    split; [apply H2|]. intros Ez. now apply H2'.
  - destruct (K1 F N) as ([num rest] & r & H1 & H2 & H3). exists num, rest, r. cbn [fst snd] in *. split; [auto|]. split; [now apply st_weaken|]. split; [auto|]. now rewrite <- H3.
Qed.
Theorem simplify_powers_ok e input v : simplifiable I rho e -> ev e = Some v -> ev (simplify_powers G e input) = Some v.
Proof.
  intros Hs Hv. unfold simplify_powers.
  assert (Single : combinable I rho (innermost e) (exponents e) -> forall nb, exists num rest, real_base G e (1%Qc, Num 1) = (innermost e, (num, rest)) /\ ev (return_power G nb (innermost e) num rest input) = Some v).
  { intros (u & Hu & Hm) nb. destruct (real_base_both e u v Hu Hm Hv) as (num & rest & r & H1 & H2 & H3 & H4). exists num, rest. split; [auto|].
    destruct Hm as [P|[N F]]; [apply (return_power_ok false) with u r; auto|apply (return_power_ok true) with u r; auto]. }
  destruct (innermost e) as [q| | | |l| | | | ] eqn:Ei; unfold simplifiable in Hs; rewrite Ei in Hs.
  5:{ destruct (ev (Mul l)) as [y|] eqn:Ey.
      2:{ exfalso. clear -Hv Ei Ey. revert v Hv. induction e using expr_ind'; intros v Hv; cbn [innermost] in Ei; try congruence. cbn [eval] in Hv. destruct (ev e1) as [a|] eqn:Ea; [|easy]. eapply IHe1; eauto. }
      rewrite eval_Mul in Ey. pose proof (product_combinable _ _ _ Hs Ey) as Hm.
      assert (Hu : ev (innermost e) = Some y) by (rewrite Ei, eval_Mul; exact Ey).
      destruct (real_base_both e y v Hu Hm Hv) as (num & rest & r & H1 & H2 & H3 & H4). rewrite Ei in H1. rewrite H1.
      destruct (minus_something l).
      - rewrite Ei in Hu. destruct Hm as [P|[N F]]; [apply (return_power_ok false) with y r; auto|apply (return_power_ok true) with y r; auto].
      - apply powers_of_factors_ok with (exponents e) r y; auto. intros F. apply H3; auto. destruct Hm as [|[? _]]; lra. }
  1:{ destruct (Single Hs true) as (num & rest & H1 & H2). destruct (Single Hs false) as (num' & rest' & H1' & H2'). rewrite H1 in *. assert (E : (num', rest') = (num, rest)) by congruence. injection E as -> ->.
      destruct (q_is_int num || perfect_root G (Num q) num); auto. }
  all: destruct (Single Hs false) as (num & rest & H1 & H2); rewrite H1; exact H2.
Qed.
End Proofs.
