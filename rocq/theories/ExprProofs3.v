(** Proofs about ExprModel.v: floor, mod, max, min and the predicates. *)
From Coq Require Import ZArith QArith Qcanon Qreals Reals List String Bool Lia Lra.
From Verif Require Import Ast ExprModel ExprSpec ExprProofs1 ExprProofs2.
Import ListNotations.
Local Open Scope R_scope.

Lemma I0_std : std_interp I0.
Proof.
  repeat split; intros; cbn; auto.
  - destruct (Req_EM_T b 0); tauto.
  - rewrite INR_IZR_INZ, as_int_IZR. destruct (Z.ltb_spec (Z.of_nat k) 0); [lia|]. now rewrite Nat2Z.id.
Qed.

Lemma Int_part_bounds v : IZR (Int_part v) <= v < IZR (Int_part v) + 1.
Proof. pose proof (base_Int_part v). lra. Qed.
Lemma Int_part_add v z : Int_part (v + IZR z) = (Int_part v + z)%Z.
Proof. apply floor_unique. rewrite plus_IZR. pose proof (Int_part_bounds v). lra. Qed.
Lemma Int_part_IZR z : Int_part (IZR z) = z.
Proof. apply floor_unique. lra. Qed.
Lemma Int_part_div a b : b <> 0%Z -> Int_part (IZR a / IZR b) = (a / b)%Z.
Proof.
  intros Hb. apply floor_unique. assert (B : IZR b <> 0) by (apply not_0_IZR; auto).
  pose proof (Z.div_mod a b Hb) as E. apply (f_equal IZR) in E. rewrite plus_IZR, mult_IZR in E.
  assert (D : IZR a / IZR b = IZR (a / b) + IZR (a mod b) / IZR b) by (rewrite E at 1; field; auto). rewrite D.
  assert (M : 0 <= IZR (a mod b) / IZR b < 1); [|lra].
  destruct (Z.lt_trichotomy b 0) as [L|[L|L]]; [|lia|].
  - pose proof (Z.mod_neg_bound a b L) as [M1 M2]. apply IZR_lt in M1. apply IZR_le in M2. apply IZR_lt in L.
    replace (IZR (a mod b) / IZR b) with ((- IZR (a mod b)) / (- IZR b)) by (field; auto). split.
    + apply Rmult_le_pos; [lra|]. left. apply Rinv_0_lt_compat. lra.
    + apply (Rmult_lt_reg_r (- IZR b)); [lra|]. unfold Rdiv. rewrite Rmult_assoc, Rinv_l by lra. lra.
  - pose proof (Z.mod_pos_bound a b L) as [M1 M2]. apply IZR_le in M1. apply IZR_lt in M2. apply IZR_lt in L. split.
    + apply Rmult_le_pos; [lra|]. left. apply Rinv_0_lt_compat. lra.
    + apply (Rmult_lt_reg_r (IZR b)); [lra|]. unfold Rdiv. rewrite Rmult_assoc, Rinv_l by lra. lra.
Qed.
Lemma rmod_int a b : b <> 0%Z -> rmod (IZR a) (IZR b) = IZR (a mod b).
Proof.
  intros Hb. unfold rmod. rewrite Int_part_div, Z.mod_eq, minus_IZR, mult_IZR by auto. reflexivity.
Qed.

Section I.
Variable I : interp.
Hypothesis SI : std_interp I.
Theorem floor_eval_ok e : refines I (Fun FFloor [e]) (floor_eval e).
Proof.
  intros rho v H. destruct e; auto. change (obind (omap (eval I rho) [Num q]) (ifun I FFloor) = Some v) in H. rewrite omap_cons, eval_num in H.
  cbn [omap obind] in H. destruct SI as (S1 & _). rewrite S1 in H. injection H as <-. cbn [floor_eval]. destruct (q_is_int q) eqn:E.
  - apply q_is_int_spec in E. rewrite eval_num. f_equal. rewrite E, Int_part_IZR. reflexivity.
  - rewrite eval_num, rv_zq. do 2 f_equal. symmetry. apply floor_unique. apply q_floor.
Qed.
Theorem floor_eval_number q : exists z, floor_eval (Num q) = Num (zq z) /\ IZR z <= rv q < IZR z + 1.
Proof.
  cbn [floor_eval]. destruct (q_is_int q) eqn:E.
  - exists (q_int q). split; [f_equal; now apply zq_q_int|]. apply q_is_int_spec in E. lra.
  - eexists. split; [reflexivity|]. apply q_floor.
Qed.
Theorem mod_eval_integers a b r : q_is_int a = true -> q_is_int b = true -> mod_eval (Num a) (Num b) = Ret r ->
  rv b <> 0 /\ exists m, r = Num m /\ rv m = rmod (rv a) (rv b).
Proof.
  intros Ia Ib. cbn [mod_eval]. unfold num_mod. rewrite Ia, Ib. cbn [andb]. destruct (Z.eqb_spec (q_int b) 0); [discriminate|].
  intros [= <-]. apply q_is_int_spec in Ia, Ib. rewrite Ia, Ib. split; [apply not_0_IZR; auto|]. eexists. split; [reflexivity|].
  rewrite rv_zq, rmod_int; auto.
Qed.
(** GiNaC operands that are numbers inside a sum are integers. *)
Theorem mod_eval_symbolic s h k x r : x = Add [Sym s; Num h] \/ x = Add [Num h; Sym s] ->
  q_is_int h = true -> mod_eval x (Num k) = Ret r -> refines I (Fun FMod [x; Num k]) r.
Proof.
  intros Hx Ih Hr.
  assert (Hr' : (if q_is_int k then match num_mod h k with Throw => Throw
     | Ret m => if Qc_eqb m 0 then Ret (Fun FMod [Sym s; Num k]) else Ret (Fun FMod [x; Num k]) end
     else Ret (Fun FMod [x; Num k])) = Ret r) by (destruct Hx; subst x; exact Hr).
  clear Hr. destruct (q_is_int k) eqn:Ik; [|injection Hr' as <-; intros rho v; auto].
  unfold num_mod in Hr'. rewrite Ih, Ik in Hr'. cbn [andb] in Hr'. destruct (Z.eqb_spec (q_int k) 0) as [|Nk]; [discriminate|].
  destruct (Qc_eqb _ 0) eqn:E; injection Hr' as <-; [|intros rho v; auto].
  apply Qc_eqb_eq in E. apply (f_equal rv) in E. rewrite rv_zq, rv_0 in E. apply eq_IZR in E.
  intros rho v Hv. destruct SI as (_ & S2 & _).
  assert (Nk' : rv k <> 0) by (rewrite (proj1 (q_is_int_spec k) Ik); apply not_0_IZR; auto).
  assert (Ex : eval I rho x = Some (rho s + rv h)). { destruct Hx; subst x; rewrite eval_Add2; cbn; f_equal; lra. }
  assert (Ev : rmod (rho s + rv h) (rv k) = v).
  { change (obind (omap (eval I rho) [x; Num k]) (ifun I FMod) = Some v) in Hv. rewrite !omap_cons, Ex, eval_num in Hv. cbn [omap obind] in Hv. rewrite S2 in Hv by auto. congruence. }
  cbn [eval]. rewrite !omap_cons, eval_num. cbn [eval omap obind]. rewrite S2 by auto. f_equal. rewrite <- Ev. unfold rmod.
  apply q_is_int_spec in Ih. apply q_is_int_spec in Ik.
  assert (Eh : rv h = rv k * IZR (q_int h / q_int k)).
  { rewrite Ih, Ik, <- mult_IZR. f_equal. pose proof (Z.div_mod (q_int h) (q_int k) Nk). lia. }
  rewrite Eh. replace ((rho s + rv k * IZR (q_int h / q_int k)) / rv k) with (rho s / rv k + IZR (q_int h / q_int k)) by (field; auto).
  rewrite Int_part_add, plus_IZR. ring.
Qed.

(** max and min *)
Lemma rpow_nonneg a b v : 0 <= a -> rpow a b = Some v -> 0 <= v.
Proof.
  intros Ha. unfold rpow. destruct (as_int b) as [z|].
  - assert (P : 0 <= powerRZ a z).
    { destruct z; cbn [powerRZ]; [lra|apply pow_le; auto|]. destruct (Req_EM_T a 0) as [->|N].
      - destruct (Pos.to_nat p) eqn:E; [lia|]. rewrite pow_ne_zero by discriminate. rewrite Rinv_0. lra.
      - left. apply Rinv_0_lt_compat, pow_lt. lra. }
    destruct (Req_EM_T a 0); [destruct (Z.ltb z 0); [discriminate|]|]; intros [= <-]; auto.
  - destruct (Rlt_dec 0 a); [intros [= <-]; left; apply exp_pos|]. destruct (Req_EM_T a 0); [|discriminate].
    destruct (Rlt_dec 0 b); [intros [= <-]; lra|discriminate].
Qed.
Theorem preserves_nonnegativity_ok e rho v : (forall s, 0 <= rho s) -> preserves_nonnegativity e = true ->
  eval I rho e = Some v -> 0 <= v.
Proof.
  intros Hr. revert v. induction e using expr_ind'; intros v P E; cbn [preserves_nonnegativity] in P; try discriminate.
  - apply q_lt_spec in P. rewrite rv_0 in P. rewrite eval_num in E. injection E as <-. lra.
  - cbn in E. injection E as <-. auto.
  - rewrite eval_Add in E. revert v E. induction H as [|a l Ha Hl IH]; intros v E.
    + rewrite esum_nil in E. injection E as <-. lra.
    + cbn [forallb] in P. apply andb_true_iff in P as [P1 P2]. rewrite esum_cons in E. apply olift2_some in E as (x & y & Hx & Hy & ->).
      specialize (Ha x P1 Hx). specialize (IH P2 y Hy). lra.
  - rewrite eval_Mul in E. revert v E. induction H as [|a l Ha Hl IH]; intros v E.
    + rewrite eprod_nil in E. injection E as <-. lra.
    + cbn [forallb] in P. apply andb_true_iff in P as [P1 P2]. rewrite eprod_cons in E. apply olift2_some in E as (x & y & Hx & Hy & ->).
      specialize (Ha x P1 Hx). specialize (IH P2 y Hy). now apply Rmult_le_pos.
  - cbn [eval] in E. destruct (eval I rho e1) as [x|]; [|discriminate]. cbn [obind] in E.
    destruct (eval I rho e2) as [y|]; [|discriminate]. cbn [obind] in E. apply (rpow_nonneg x y v); auto.
Qed.
Lemma threshold_val : rv threshold = / 1000000.
Proof. unfold rv, threshold, Q2Qc, this. rewrite (Qeq_eqR _ _ (Qred_correct _)). unfold Q2R. cbn [Qnum Qden]. lra. Qed.
Lemma compare_num_1 d : compare_num d = 1%Z <-> / 1000000 < rv d.
Proof.
  unfold compare_num. destruct (Qc_eqb d 0) eqn:E.
  - apply Qc_eqb_eq in E. subst. rewrite rv_0. split; [discriminate|intros ?; lra].
  - destruct (q_lt 0 d) eqn:A, (q_lt threshold d) eqn:B; cbn [andb];
      rewrite ?q_lt_spec, ?q_lt_false, ?rv_0, ?threshold_val in *;
      try (match goal with |- context [if ?c then _ else _] => destruct c end; (split; [discriminate|intros ?; lra])).
    split; auto.
Qed.
Section MM.
Variable G : ginac.
Hypothesis HG : ginac_ok I G.
Variable rho : string -> R.
Hypothesis rho_nn : forall s, 0 <= rho s.
Lemma max_min_core a b x y : eval I rho a = Some x -> eval I rho b = Some y -> ~ (0 < x - y <= / 1000000) ->
  eval I rho (max_eval G a b) = Some (Rmax x y) /\ eval I rho (min_eval G a b) = Some (Rmin x y).
Proof.
  intros Ha Hb Gap. pose proof (gsub_val I G HG rho a b x y Ha Hb) as Hd.
  destruct SI as (_ & _ & _ & S4 & S5).
  assert (B : forall (p : bool) (P1 : bool), (p = true -> 0 <= x - y) -> (P1 = true -> 0 <= y - x) ->
     eval I rho (if p then a else if P1 then b else Fun FMax [a; b]) = Some (Rmax x y) /\
     eval I rho (if p then b else if P1 then a else Fun FMin [a; b]) = Some (Rmin x y)).
  { intros p P1 H1 H2. destruct p.
    - specialize (H1 eq_refl). rewrite Rmax_left, Rmin_right by lra. auto.
    - destruct P1.
      + specialize (H2 eq_refl). rewrite Rmax_right, Rmin_left by lra. auto.
      + cbn [eval]. rewrite !omap_cons, Ha, Hb. cbn [omap obind]. rewrite S4, S5. auto. }
  assert (C : eval I rho (if preserves_nonnegativity (gsub G a b) then a
         else if preserves_nonnegativity (gmul G (Num (-(1))%Qc) (gsub G a b)) then b else Fun FMax [a; b]) = Some (Rmax x y) /\
     eval I rho (if preserves_nonnegativity (gsub G a b) then b
         else if preserves_nonnegativity (gmul G (Num (-(1))%Qc) (gsub G a b)) then a else Fun FMin [a; b]) = Some (Rmin x y)).
  { apply B.
    - intros P. eapply preserves_nonnegativity_ok; eauto.
    - intros P. replace (y - x) with (-1 * (x - y)) by lra. eapply preserves_nonnegativity_ok; eauto.
      apply (gmul_val _ _ HG); auto. rewrite eval_num, rv_opp, rv_1. reflexivity. }
  unfold max_eval, min_eval. destruct (gsub G a b) as [d| | | | | | | |] eqn:D; auto.
  rewrite eval_num in Hd. injection Hd as Hd. destruct (Z.eqb (compare_num d) 1) eqn:Cm.
  - apply Z.eqb_eq in Cm. apply compare_num_1 in Cm. rewrite Hd in Cm. rewrite Rmax_left, Rmin_right by lra. auto.
  - apply Z.eqb_neq in Cm. rewrite compare_num_1, Hd in Cm. rewrite Rmax_right, Rmin_left by lra. auto.
Qed.
End MM.

(** * Predicates *)
Theorem is_scalar_representation_spec x e : is_scalar_representation x e = true <-> has x e = false.
Proof.
  induction e using expr_ind'; cbn [is_scalar_representation has]; try tauto.
  - rewrite negb_true_iff, String.eqb_sym. tauto.
  - induction H as [|a l Ha Hl IH]; cbn; [tauto|]. rewrite andb_true_iff, orb_false_iff, Ha, IH. tauto.
  - induction H as [|a l Ha Hl IH]; cbn; [tauto|]. rewrite andb_true_iff, orb_false_iff, Ha, IH. tauto.
  - rewrite andb_true_iff, orb_false_iff. tauto.
  - induction H as [|a l Ha Hl IH]; cbn; [tauto|]. rewrite andb_true_iff, orb_false_iff, Ha, IH. tauto.
  - rewrite !andb_true_iff, !orb_false_iff, negb_true_iff, String.eqb_sym. tauto.
  - rewrite !andb_true_iff, !orb_false_iff, negb_true_iff, String.eqb_sym. tauto.
Qed.
Theorem scalar_value_independent x e rho u v : is_scalar_representation x e = true ->
  eval I (upd rho x u) e = eval I (upd rho x v) e.
Proof. intros H. apply is_scalar_representation_spec in H. now rewrite !eval_upd_fresh. Qed.

Fixpoint cadd (p q : list R) : list R :=
  match p, q with [], _ => q | _, [] => p | a :: p, b :: q => (a + b) :: cadd p q end.
Definition cscal (a : R) (p : list R) := map (Rmult a) p.
Fixpoint cmul (p q : list R) : list R := match p with [] => [] | a :: p => cadd (cscal a q) (0 :: cmul p q) end.
Lemma rpoly_cadd p q t : rpoly (cadd p q) t = rpoly p t + rpoly q t.
Proof. revert q. induction p as [|a p IH]; intros [|b q]; cbn; try lra. rewrite IH. lra. Qed.
Lemma rpoly_cscal a p t : rpoly (cscal a p) t = a * rpoly p t.
Proof. induction p; cbn; [lra|]. unfold cscal in IHp. rewrite IHp. lra. Qed.
Lemma rpoly_cmul p q t : rpoly (cmul p q) t = rpoly p t * rpoly q t.
Proof. induction p as [|a p IH]; cbn; [lra|]. rewrite rpoly_cadd, rpoly_cscal. cbn. rewrite IH. lra. Qed.
Fixpoint cpow (p : list R) (n : nat) : list R := match n with O => [1] | S n => cmul p (cpow p n) end.
Lemma rpoly_cpow p n t : rpoly (cpow p n) t = rpoly p t ^ n.
Proof. induction n; cbn; [lra|]. rewrite rpoly_cmul, IHn. reflexivity. Qed.

Lemma pf_scalar x e : has x e = false -> polynomial_function I x e.
Proof.
  intros H rho. destruct (eval I rho e) as [v|] eqn:E.
  - right. exists [v]. intros t. rewrite eval_upd_fresh by auto. rewrite E. cbn. f_equal. lra.
  - left. intros t. rewrite eval_upd_fresh; auto.
Qed.
Theorem is_polynomial_ok x e : is_polynomial x e = true -> polynomial_function I x e.
Proof.
  induction e using expr_ind'; intros P; cbn [is_polynomial] in P; apply orb_true_iff in P as [P|P];
    try (apply pf_scalar, is_scalar_representation_spec, P); try discriminate; intros rho.
  - apply String.eqb_eq in P. subst s. right. exists [0; 1]. intros t. cbn. unfold upd. rewrite String.eqb_refl. f_equal. lra.
  - induction H as [|a l Ha Hl IH].
    + right. exists []. intros t. reflexivity.
    + cbn [forallb] in P. apply andb_true_iff in P as [P1 P2]. destruct (Ha P1 rho) as [N|[c Hc]].
      * left. intros t. rewrite eval_Add, esum_cons, N. reflexivity.
      * destruct (IH P2) as [N|[d Hd]].
        -- left. intros t. specialize (N t). rewrite eval_Add in *. rewrite esum_cons, N. destruct (eval I (upd rho x t) a); auto.
        -- right. exists (cadd c d). intros t. specialize (Hd t). rewrite eval_Add in *. rewrite esum_cons, Hc, Hd. cbn. now rewrite rpoly_cadd.
  - induction H as [|a l Ha Hl IH].
    + right. exists [1]. intros t. cbn. f_equal. lra.
    + cbn [forallb] in P. apply andb_true_iff in P as [P1 P2]. destruct (Ha P1 rho) as [N|[c Hc]].
      * left. intros t. rewrite eval_Mul, eprod_cons, N. reflexivity.
      * destruct (IH P2) as [N|[d Hd]].
        -- left. intros t. specialize (N t). rewrite eval_Mul in *. rewrite eprod_cons, N. destruct (eval I (upd rho x t) a); auto.
        -- right. exists (cmul c d). intros t. specialize (Hd t). rewrite eval_Mul in *. rewrite eprod_cons, Hc, Hd. cbn. now rewrite rpoly_cmul.
  - apply andb_true_iff in P as [P1 P2]. destruct e2; try discriminate. cbn in P2. apply andb_true_iff in P2 as [P2 P3].
    apply q_is_int_spec in P2. apply q_lt_spec in P3. rewrite rv_0 in P3. destruct (IHe1 P1 rho) as [N|[c Hc]].
    + left. intros t. cbn [eval]. rewrite N. reflexivity.
    + right. exists (cpow c (Z.to_nat (q_int q))). intros t. cbn [eval]. rewrite Hc. cbn [obind].
      rewrite rpoly_cpow. replace (rv q) with (INR (Z.to_nat (q_int q))); [apply rpow_nat|].
      rewrite INR_IZR_INZ, Z2Nat.id; auto. apply le_IZR. lra.
Qed.

Lemma integer_add a b : is_integer a -> is_integer b -> is_integer (a + b).
Proof. intros [x ->] [y ->]. exists (x + y)%Z. now rewrite plus_IZR. Qed.
Lemma integer_mul a b : is_integer a -> is_integer b -> is_integer (a * b).
Proof. intros [x ->] [y ->]. exists (x * y)%Z. now rewrite mult_IZR. Qed.
Lemma integer_pow a n : is_integer a -> is_integer (a ^ n).
Proof. intros H. induction n; cbn; [exists 1%Z; auto|]. now apply integer_mul. Qed.
Theorem is_integer_scalar_ok x e : no_functions e -> is_integer_scalar_representation x e = true ->
  has x e = false /\ forall rho v, (forall s, is_integer (rho s)) -> eval I rho e = Some v -> is_integer v.
Proof.
  induction e using expr_ind'; intros NF P; cbn [is_integer_scalar_representation] in P; cbn [no_functions] in NF; try discriminate; try tauto.
  - split; auto. intros rho v _ E. rewrite eval_num in E. injection E as <-. exists (q_int q). now apply q_is_int_spec.
  - split; [cbn; rewrite String.eqb_sym; now apply negb_true_iff|]. intros rho v Hr E. cbn in E. injection E as <-. auto.
  - induction H as [|a l Ha Hl IH].
    + split; auto. intros rho v _ E. cbn in E. injection E as <-. exists 0%Z. auto.
    + cbn [forallb] in P. apply andb_true_iff in P as [P1 P2]. destruct NF as [N1 N2]. destruct (Ha N1 P1) as [A1 A2]. destruct (IH N2 P2) as [B1 B2].
      split; [cbn in *; rewrite A1, B1; auto|]. intros rho v Hr E. rewrite eval_Add, esum_cons in E. apply olift2_some in E as (p & q & Hp & Hq & ->).
      apply integer_add; eauto.
  - induction H as [|a l Ha Hl IH].
    + split; auto. intros rho v _ E. cbn in E. injection E as <-. exists 1%Z. auto.
    + cbn [forallb] in P. apply andb_true_iff in P as [P1 P2]. destruct NF as [N1 N2]. destruct (Ha N1 P1) as [A1 A2]. destruct (IH N2 P2) as [B1 B2].
      split; [cbn in *; rewrite A1, B1; auto|]. intros rho v Hr E. rewrite eval_Mul, eprod_cons in E. apply olift2_some in E as (p & q & Hp & Hq & ->).
      apply integer_mul; eauto.
  - apply andb_true_iff in P as [P1 P2]. destruct NF as [N1 N2]. destruct (IHe1 N1 P1) as [A1 A2]. destruct e2; try discriminate.
    split; [cbn; rewrite A1; auto|]. intros rho v Hr E. cbn [eval] in E. destruct (eval I rho e1) as [b|] eqn:Eb; [|discriminate]. cbn [obind] in E.
    cbn in P2. apply andb_true_iff in P2 as [P2 P3]. apply q_is_int_spec in P2. apply q_lt_spec in P3. rewrite rv_0 in P3.
    replace (rv q) with (INR (Z.to_nat (q_int q))) in E by (rewrite INR_IZR_INZ, Z2Nat.id; auto; apply le_IZR; lra).
    rewrite rpow_nat in E. injection E as <-. apply integer_pow. eauto.
Qed.
Theorem is_integer_polynomial_ok x e : no_functions e -> is_integer_polynomial x e = true ->
  forall rho v, (forall s, is_integer (rho s)) -> eval I rho e = Some v -> is_integer v.
Proof.
  induction e using expr_ind'; intros NF P; cbn [is_integer_polynomial] in P; apply orb_true_iff in P as [P|P];
    try (apply is_integer_scalar_ok in P; tauto); try discriminate; intros rho v Hr E.
  - cbn in E. injection E as <-. auto.
  - rewrite eval_Add in E. revert v E. induction H as [|a l Ha Hl IH]; intros v E.
    + rewrite esum_nil in E. injection E as <-. exists 0%Z. auto.
    + cbn [forallb] in P. apply andb_true_iff in P as [P1 P2]. destruct NF as [N1 N2].
      rewrite esum_cons in E. apply olift2_some in E as (p & q & Hp & Hq & ->). apply integer_add; eauto.
  - rewrite eval_Mul in E. revert v E. induction H as [|a l Ha Hl IH]; intros v E.
    + rewrite eprod_nil in E. injection E as <-. exists 1%Z. auto.
    + cbn [forallb] in P. apply andb_true_iff in P as [P1 P2]. destruct NF as [N1 N2].
      rewrite eprod_cons in E. apply olift2_some in E as (p & q & Hp & Hq & ->). apply integer_mul; eauto.
  - apply andb_true_iff in P as [P1 P2]. destruct NF as [N1 N2]. destruct e2; try discriminate.
    cbn [eval] in E. destruct (eval I rho e1) as [b|] eqn:Eb; [|discriminate]. cbn [obind] in E.
    cbn in P2. apply andb_true_iff in P2 as [P2 P3]. apply q_is_int_spec in P2. apply q_lt_spec in P3. rewrite rv_0 in P3.
    replace (rv q) with (INR (Z.to_nat (q_int q))) in E by (rewrite INR_IZR_INZ, Z2Nat.id; auto; apply le_IZR; lra).
    rewrite rpow_nat in E. injection E as <-. apply integer_pow. eauto.
Qed.

(** has_x_function: without x(.) the value does not depend on the sequence. *)
End I.
Theorem has_x_function_ok I e : has_x_function e = false -> forall x y rho, eval (with_x I x) rho e = eval (with_x I y) rho e.
Proof.
  induction e using expr_ind'; intros P x y rho; cbn [has_x_function] in P; auto.
  - rewrite !eval_Add. induction H as [|a l Ha Hl IH]; auto. cbn [existsb] in P. apply orb_false_iff in P as [P1 P2].
    rewrite !esum_cons, IH, (Ha P1 x y); auto.
  - rewrite !eval_Mul. induction H as [|a l Ha Hl IH]; auto. cbn [existsb] in P. apply orb_false_iff in P as [P1 P2].
    rewrite !eprod_cons, IH, (Ha P1 x y); auto.
  - apply orb_false_iff in P as [P1 P2]. cbn [eval]. rewrite (IHe1 P1 x y), (IHe2 P2 x y). reflexivity.
  - assert (P' : f <> FX /\ existsb has_x_function l = false) by (destruct f; try discriminate; split; auto; discriminate).
    destruct P' as [Nf P']. cbn [eval].
    assert (E : omap (eval (with_x I x) rho) l = omap (eval (with_x I y) rho) l).
    { apply omap_ext. clear P. induction H as [|a l Ha Hl IH]; constructor; cbn [existsb] in P'; apply orb_false_iff in P' as [P1 P2]; auto. }
    rewrite E. unfold obind. destruct (omap (eval (with_x I y) rho) l); auto. cbn [with_x ifun]. destruct f; auto. congruence.
  - apply orb_false_iff in P as [P P3]. apply orb_false_iff in P as [P1 P2]. cbn [eval]. rewrite (IHe1 P1 x y), (IHe2 P2 x y).
    destruct (eval (with_x I y) rho e1); auto. destruct (eval (with_x I y) rho e2); auto. cbn [obind].
    destruct (as_int r); auto. destruct (as_int r0); auto. cbn [obind]. apply osum_ext. intros. apply IHe3. auto.
  - apply orb_false_iff in P as [P P3]. apply orb_false_iff in P as [P1 P2]. cbn [eval]. rewrite (IHe1 P1 x y), (IHe2 P2 x y).
    destruct (eval (with_x I y) rho e1); auto. destruct (eval (with_x I y) rho e2); auto. cbn [obind].
    destruct (as_int r); auto. destruct (as_int r0); auto. cbn [obind]. apply oprod_ext. intros. apply IHe3. auto.
Qed.

Lemma rational_pow v n : is_rational v -> is_rational (v ^ n).
Proof.
  intros (p & q & Hq & ->). induction n as [|n (p' & q' & Hq' & E)]; cbn [pow].
  - exists 1%Z, 1%Z. split; [lia|lra].
  - exists (p * p')%Z, (q * q')%Z. split; [nia|]. rewrite E, !mult_IZR. field. split; now apply not_0_IZR.
Qed.
Theorem is_rational_scalar_ok I x e : positive_integer_powers e -> is_rational_scalar_representation x e = true ->
  has x e = false /\ forall rho v, (forall s, is_rational (rho s)) -> eval I rho e = Some v -> is_rational v.
Proof.
  induction e using expr_ind'; intros PI P; cbn [is_rational_scalar_representation positive_integer_powers] in *; try discriminate.
  - split; auto. intros rho v _ E. rewrite eval_num in E. injection E as <-. exists (Qnum (this q)), (Z.pos (Qden (this q))).
    split; [lia|]. reflexivity.
  - split; [cbn; rewrite String.eqb_sym; now apply negb_true_iff|]. intros rho v Hr E. cbn in E. injection E as <-. auto.
  - destruct PI as [P1 [n ->]]. destruct (is_rational_scalar_representation x e1) eqn:E1; [|discriminate].
    destruct (IHe1 P1 eq_refl) as [A1 A2]. split; [cbn; rewrite A1; auto|]. intros rho v Hr E. cbn [eval] in E.
    destruct (eval I rho e1) as [b|] eqn:Eb; [|discriminate]. cbn [obind] in E. rewrite rv_zq in E.
    replace (IZR (Z.pos n)) with (INR (Pos.to_nat n)) in E by (rewrite INR_IZR_INZ, positive_nat_Z; auto).
    rewrite rpow_nat in E. injection E as <-. apply rational_pow. eauto.
Qed.
