From Coq Require Import ZArith QArith Qcanon Znumtheory Reals List String Bool Permutation Lia Lra.
From Verif Require Import IntUtilModel IntUtilSpec IntUtilProofs.
From Verif Require Import Ast ExprModel ExprSpec ExprProofs1 ExprProofs2 NonLinModel NonLinProofs ProdProofs ProdProofs2 NumDenProofs FactRwModel FactRwProofs2 CollectModel CollectProofs LogModel LogSpec LogProofs.
Import ListNotations.
Local Open Scope list_scope.
Local Open Scope R_scope.

Lemma ln_powerRZ u z : 0 < u -> ln (powerRZ u z) = IZR z * ln u.
Proof. intros H. rewrite powerRZ_Rpower by auto. unfold Rpower. apply ln_exp. Qed.
Lemma ln_div' x y : 0 < x -> 0 < y -> ln (x / y) = ln x - ln y.
Proof. intros. unfold Rdiv. rewrite ln_mult, ln_Rinv; auto; try lra. now apply Rinv_0_lt_compat. Qed.
(** The logarithm of a positive power. *)
Lemma ln_rpow u y p : u <> 0 -> rpow u y = Some p -> 0 < p -> ln p = y * ln (Rabs u).
Proof.
  intros Hu H P. destruct (Rlt_dec 0 u) as [L|L].
  - rewrite rpow_pos in H by auto. injection H as <-. rewrite Rabs_pos_eq by lra. unfold Rpower. apply ln_exp.
  - unfold rpow in H. destruct (as_int y) as [z|] eqn:Ez.
    + apply as_int_spec in Ez. subst y. destruct (Req_EM_T u 0); [contradiction|]. injection H as <-.
      assert (E : powerRZ u z = powerRZ (Rabs u) z).
      { rewrite <- (Rabs_pos_eq (powerRZ u z)) by lra. destruct z; cbn [powerRZ]; [apply Rabs_R1|now rewrite <- RPow_abs|]. rewrite Rabs_inv, <- RPow_abs. reflexivity. }
      rewrite E. apply ln_powerRZ. now apply Rabs_pos_lt.
    + destruct (Rlt_dec 0 u); [contradiction|]. destruct (Req_EM_T u 0); [contradiction|discriminate].
Qed.
(** A positive power of a fraction. *)
Lemma rpow_fraction n d y p : n <> 0 -> 0 < d -> rpow (n / d) y = Some p -> 0 < p -> exists p1 p2, rpow n y = Some p1 /\ rpow d y = Some p2 /\ 0 < p1 /\ 0 < p2 /\ p = p1 / p2.
Proof.
  intros Hn Hd H P. pose proof (rpow_pos d y Hd) as Ed. assert (Pd : 0 < Rpower d y) by (unfold Rpower; apply exp_pos).
  assert (Q : n / d <> 0) by (apply Rmult_integral_contrapositive_currified; auto; apply Rinv_neq_0_compat; lra).
  pose proof (rpow_mult (n / d) d y p _ Q ltac:(lra) H Ed) as M. replace (n / d * d) with n in M by (field; lra).
  exists (p * Rpower d y), (Rpower d y). split; auto. split; auto. split; [now apply Rmult_lt_0_compat|]. split; auto. field. lra.
Qed.
Lemma prodpow_same x : (0 <= x)%Z -> forall bs xs, List.length bs = List.length xs -> forallb (Z.eqb x) xs = true -> prodpow bs xs = (fold_right Z.mul 1%Z bs ^ x)%Z.
Proof.
  intros Hx. induction bs as [|b bs IH]; intros [|y xs] L F; try discriminate; cbn in *; [now rewrite Z.pow_1_l|].
  apply andb_true_iff in F as [F1 F2]. apply Z.eqb_eq in F1. subst y. rewrite (IH xs) by auto. now rewrite Z.pow_mul_l.
Qed.
Lemma fold_mul b bs : (fold_right Z.mul b bs = b * fold_right Z.mul 1 bs)%Z.
Proof. induction bs as [|c bs IH]; cbn; [ring|]. rewrite IH. ring. Qed.

Section Elementary.
Context (I : interp) (G : ginac) (HG : ginac_ok I G) (HL : log_std I) (simplify_powers : expr -> expr).
Lemma log_inv rho a v : eval I rho (Fun FLog [a]) = Some v -> exists u, eval I rho a = Some u /\ 0 < u /\ v = ln u.
Proof. cbn [eval omap obind]. destruct (eval I rho a) as [u|]; [|discriminate]. cbn [obind]. intros H. apply HL in H as [A B]. eauto. Qed.
Lemma log_v rho a u : eval I rho a = Some u -> 0 < u -> eval I rho (glog G a) = Some (ln u).
Proof. intros H P. apply (gfun_ok _ _ HG). cbn [eval omap obind]. rewrite H. cbn [obind]. now apply HL. Qed.

Theorem factorize_ok rho base x r y p : factorize_base_arg_log G base x = Some r -> eval I rho x = Some y -> rpow (IZR base) y = Some p -> 0 < p -> eval I rho r = Some (ln p).
Proof.
  unfold factorize_base_arg_log. intros H Hy Hp P. destruct (Z.eq_dec base 0) as [->|Nz]; [discriminate|].
  destruct (partial_factor_spec base [] [] Nz) as (bs & es & E & Len & Pr & Pos & _ & _ & Bs & _). cbn [app] in E. rewrite E in H. destruct bs as [|b bs]; [discriminate|]. destruct es as [|e es]; [discriminate|].
  destruct (forallb (Z.eqb e) es) eqn:F.
  - injection H as <-. inversion Pos as [|? ? Pe _]; subst. pose proof (prodpow_same e ltac:(lia) (b :: bs) (e :: es) Len ltac:(cbn; rewrite Z.eqb_refl; exact F)) as Ps. rewrite Pr in Ps. cbn [fold_right] in Ps.
    assert (Pp : (0 < fold_right Z.mul 1 (b :: bs))%Z).
    { assert (X : forall c, In c (b :: bs) -> (0 < c)%Z). { intros c Hc. destruct (Bs c Hc) as [[-> _]|[Pc|[Lc _]]]; try lia. destruct Pc. lia. }
      clear - X. induction (b :: bs) as [|c l IH]; cbn; [lia|]. apply Z.mul_pos_pos; [apply X; now left|apply IH; intros; apply X; now right]. }
    rewrite fold_mul. cbn [fold_right] in Pp. set (N := (b * fold_right Z.mul 1 bs)%Z) in *. clearbody N.
    assert (Ea : ln (Rabs (IZR base)) = IZR e * ln (IZR N)).
    { rewrite <- abs_IZR, Ps. replace e with (Z.of_nat (Z.to_nat e)) at 1 by lia. rewrite <- pow_IZR, pow_powerRZ, ln_powerRZ; [|now apply IZR_lt]. rewrite Z2Nat.id by lia. reflexivity. }
    rewrite (ln_rpow (IZR base) y p); auto; [|now apply not_0_IZR]. rewrite Ea, <- Rmult_assoc. apply (gmul_val _ _ HG).
    + apply (gmul_val _ _ HG); auto. cbn [eval]. now rewrite rv_zq.
    + apply log_v; [cbn [eval]; now rewrite rv_zq|now apply IZR_lt].
  - injection H as <-. apply log_v; auto. apply (gpow_val _ _ HG _ _ _ (IZR base) y); auto. cbn [eval]. now rewrite rv_zq.
Qed.
Lemma one_v rho : eval I rho (Num 1) = Some 1. Proof. cbn [eval]. now rewrite rv_1. Qed.
Lemma rv_num_den q : rv q = IZR (q_num q) / IZR (q_den q). Proof. reflexivity. Qed.
Lemma q_den_pos q : 0 < IZR (q_den q). Proof. apply IZR_lt. reflexivity. Qed.

Lemma product_ok rec rho l : Forall (positive_at I rho) l -> (forall f s v, In f l -> (is_power f || is_number f)%bool = true -> rec (glog G f) = Some s -> eval I rho (glog G f) = Some v -> eval I rho s = Some v) ->
  forall r u, logarithm_of_product G rec l = Some r -> eprod I rho l = Some u -> 0 < u /\ eval I rho r = Some (ln u).
Proof.
  intros F. induction F as [|f l [w [Ew Pw]] F IH]; intros Hr r u H E; cbn [logarithm_of_product fold_right] in H.
  - injection H as <-. rewrite eprod_nil in E. injection E as <-. split; [lra|]. cbn [eval]. rewrite rv_0, ln_1. reflexivity.
  - apply olift_inv in H as (x & y & Hx & Hy & ->). rewrite eprod_cons, Ew in E. destruct (eprod I rho l) as [t|] eqn:Et; [|discriminate]. cbn [olift2] in E. injection E as <-.
    destruct (IH (fun g s v Hg => Hr g s v (or_intror Hg)) x t Hx eq_refl) as [Pt Ex]. split; [now apply Rmult_lt_0_compat|]. rewrite ln_mult, Rplus_comm by auto. apply (gadd_val _ _ HG); auto.
    pose proof (log_v rho f w Ew Pw) as Lf. destruct (is_power f || is_number f)%bool eqn:Q.
    + apply (Hr f y _ (or_introl eq_refl) Q Hy Lf).
    + injection Hy as <-. exact Lf.
Qed.
Theorem elementary_ok rec rho all arg r v : log_fine I simplify_powers rho all arg ->
  (forall l f s v, all = true -> prepared simplify_powers arg = Mul l -> In f l -> (is_power f || is_number f)%bool = true -> rec (glog G f) = Some s -> eval I rho (glog G f) = Some v -> eval I rho s = Some v) ->
  apply_elementary_prop G simplify_powers rec all arg = Some r -> eval I rho (Fun FLog [arg]) = Some v -> eval I rho r = Some v.
Proof.
  intros (Sp & Fb & Fm) Hrec H E. apply log_inv in E as (u & Eu & Pu & ->).
  assert (E' : eval I rho (prepared simplify_powers arg) = Some u) by (unfold prepared; destruct arg; cbn [is_power]; auto; eapply Sp; eauto).
  assert (Ep : prepared simplify_powers arg = match arg with Pow _ _ => simplify_powers arg | _ => arg end) by (destruct arg; reflexivity).
  cbv zeta in Fb, Fm. rewrite <- Ep in Fb, Fm. unfold apply_elementary_prop in H. set (a := prepared simplify_powers arg) in *. clearbody a. clear Sp Ep Eu.
  assert (Plain : eval I rho (glog G a) = Some (ln u)) by (now apply log_v).
  destruct a as [q|c|s|l|l|b x|f l|k lo up b|k lo up b]; try (injection H as <-; exact Plain).
  - cbn [eval] in E'. injection E' as E'. destruct (q_is_int q && q_lt 0 q)%bool eqn:Q.
    + apply andb_true_iff in Q as [Q _]. apply (factorize_ok rho (q_int q) (Num 1) r 1 u); auto; [apply one_v|]. rewrite rpow_1r. f_equal. apply q_is_int_spec in Q. congruence.
    + destruct (all && negb (q_den q =? 1)%Z)%bool; [|injection H as <-; exact Plain].
      assert (Pn : (0 <? q_num q)%Z = true). { apply Z.ltb_lt. apply lt_IZR. pose proof (q_den_pos q). rewrite rv_num_den in E'. apply (Rmult_lt_reg_r (/ IZR (q_den q))); [now apply Rinv_0_lt_compat|]. rewrite Rmult_0_l. unfold Rdiv in E'. lra. }
      rewrite Pn in H. apply Z.ltb_lt in Pn. apply IZR_lt in Pn. apply olift_inv in H as (x & y & Hx & Hy & ->). pose proof (q_den_pos q) as Pd.
      rewrite <- E', rv_num_den, ln_div' by auto. apply (gsub_val _ _ HG).
      * apply (factorize_ok rho _ _ x 1 (IZR (q_num q)) Hx); auto; [apply one_v|apply rpow_1r].
      * apply (factorize_ok rho _ _ y 1 (IZR (q_den q)) Hy); auto; [apply one_v|apply rpow_1r].
  - destruct all; [|injection H as <-; exact Plain]. apply (product_ok rec rho l (Fm l eq_refl eq_refl)); auto. intros f s w Hf. eapply Hrec; eauto.
  - apply power_inv in E' as (w & y & Ew & Ey & Ep).
    assert (Gen : (forall q, b <> Num q) -> r = gmul G x (glog G b) -> eval I rho r = Some (ln u)).
    { intros Nn ->. destruct (Fb b x eq_refl) as [[q ->]|[w' [Ew' Pw]]]; [now destruct (Nn q)|]. assert (w' = w) by congruence. subst w'. rewrite rpow_pos in Ep by auto. injection Ep as <-. unfold Rpower. rewrite ln_exp. apply (gmul_val _ _ HG); auto. now apply log_v. }
    destruct b as [q| | | | | | | |]; try (apply Gen; [discriminate|congruence]).
    cbn [eval] in Ew. injection Ew as <-. destruct (q_is_int q) eqn:Q.
    + apply q_is_int_spec in Q. rewrite Q in Ep. now apply (factorize_ok rho _ _ r y u H).
    + apply olift_inv in H as (r1 & r2 & H1 & H2 & ->). assert (Nq : IZR (q_num q) <> 0).
      { intros Z. assert (X : is_integer (rv q)) by (exists 0%Z; rewrite rv_num_den, Z; unfold Rdiv; now rewrite Rmult_0_l). destruct X as [z Hz]. assert (q = zq z) by (apply rv_inj; now rewrite rv_zq). subst q. rewrite q_is_int_zq in Q. discriminate. }
      rewrite rv_num_den in Ep. destruct (rpow_fraction _ _ y u Nq (q_den_pos q) Ep Pu) as (p1 & p2 & E1 & E2 & P1 & P2 & ->). rewrite ln_div' by auto.
      apply (gsub_val _ _ HG); [now apply (factorize_ok rho _ _ r1 y p1 H1)|now apply (factorize_ok rho _ _ r2 y p2 H2)].
Qed.
End Elementary.
