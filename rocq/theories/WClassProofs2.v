From Coq Require Import ZArith QArith Qcanon Reals List String Bool Lia Lra.
From Verif Require Import Ast ExprModel ExprSpec ExprProofs1 ExprProofs2 ExprCases SeqInterp ElimModel ElimSpec ElimProofs NonLinModel NonLinProofs ClassModel VerifySpec VerifyProofs2 WClassModel WClassSpec WClassProofs.
Import ListNotations.
Local Open Scope R_scope.
Local Open Scope list_scope.

(** * Value of the sum *)
Lemma osum_some m (f : nat -> option R) g : (forall i, (i < m)%nat -> f i = Some (g i)) -> osum m f = Some (range_sum g 0 m).
Proof.
  induction m as [|m IH]; intros H; [reflexivity|]. cbn [osum range_sum]. rewrite IH by (intros; apply H; lia). rewrite H by lia. reflexivity.
Qed.
Lemma range_sum_shift x lo m : range_sum (fun i => x (lo + i)%nat) 0 m = range_sum x lo m.
Proof. induction m as [|m IH]; cbn [range_sum]; auto. rewrite IH. reflexivity. Qed.
Lemma sum_val I rho x n k lo up (u : Z) : k <> "n"%string -> at_n I rho x n up = Some (IZR u) ->
  at_n I rho x n (SumE k (Num (zq (Z.of_nat lo))) up (Fun FX [Sym k])) = Some (range_sum x lo (Z.to_nat (u - Z.of_nat lo + 1))).
Proof.
  intros Nk U. unfold at_n in *. cbn [eval]. rewrite U, rv_zq. cbn [obind]. rewrite !as_int_IZR. cbn [obind].
  rewrite (osum_some _ _ (fun i => x (lo + i)%nat)); [now rewrite range_sum_shift|]. intros i Hi.
  cbn [omap obind with_x ifun eval]. unfold upd at 1. rewrite String.eqb_refl. rewrite as_int_IZR.
  replace (0 <=? Z.of_nat lo + Z.of_nat i)%Z with true by (symmetry; apply Z.leb_le; lia). do 2 f_equal. lia.
Qed.

Section W.
Context (I : interp) (rho : string -> R) (G : ginac) (HG : forall x, ginac_ok (with_x I x) G).
Context (si sa ex : expr -> expr) (dom : expr -> expr -> option nat).
Context (Hsa : forall x e, refines (with_x I x) e (sa e)).
Notation at_ := (at_n I rho).

Lemma m1_v x n : at_ x n (Num (-(1))%Qc) = Some (-1). Proof. unfold at_n. cbn [eval]. rewrite rv_opp, rv_1. f_equal; lra. Qed.
Lemma one_v x n : at_ x n (Num 1) = Some 1. Proof. unfold at_n. cbn [eval]. now rewrite rv_1. Qed.
Lemma inv_v a : a <> 0 -> rpow a (-1) = Some (/ a).
Proof.
  intros Ha. unfold rpow. change (-1) with (IZR (-1)). rewrite as_int_IZR. destruct (Req_EM_T a 0); [contradiction|]. f_equal. cbn. change (Pos.to_nat 1) with 1%nat. cbn. now rewrite Rmult_1_r.
Qed.
Lemma div_v x n a b u v : at_ x n a = Some u -> at_ x n b = Some v -> v <> 0 -> at_ x n (gdiv G a b) = Some (u / v).
Proof.
  intros A B N. unfold gdiv, Rdiv. apply (gmul_val _ G (HG x)); auto. apply (gpow_val _ G (HG x) _ _ _ v (-1)); auto; [exact (m1_v x n)|]. now apply inv_v.
Qed.
Lemma shifted_v x n m e z v : not_bound "n" e -> (Z.of_nat n + z = Z.of_nat m)%Z -> at_ x m e = Some v -> at_ x n (shifted G z e) = Some v.
Proof.
  intros NB E V. unfold shifted, at_n in *.
  apply (substitute_ok (with_x I x) G (HG x) "n" (n_plus z) e) with (w := INR m).
  - apply no_capture_only; auto. intros k. unfold n_plus. cbn. rewrite !orb_false_r. apply String.eqb_eq.
  - unfold n_plus. rewrite eval_Add2. cbn [eval olift2]. rewrite rv_zq. change (upd rho "n" (INR n) "n"%string) with (INR n). rewrite !INR_IZR, <- E, plus_IZR. reflexivity.
  - rewrite <- V. apply eval_ext. intros t. apply upd_upd.
Qed.

(** The accepted recurrences. *)
Record input_ok (k : string) (lo : nat) (up rhs addend : expr) : Prop := MkIn {
  in_k : k <> "n"%string;
  in_mult : multiple_of (SumE k (Num (zq (Z.of_nat lo))) up (Fun FX [Sym k])) addend;
  in_term : term_of addend (si rhs);
  in_unit : ~ unit_clash G (SumE k (Num (zq (Z.of_nat lo))) up (Fun FX [Sym k])) si rhs addend }.
Notation S_ k lo up := (SumE k (Num (zq (Z.of_nat lo))) up (Fun FX [Sym k])).
Notation classify rhs addend k lo up := (classify_weighted G si sa ex dom rhs addend k (Num (zq (Z.of_nat lo))) up (Fun FX [Sym k])).

Lemma classify_inv rhs addend k lo up w' h' w h rfo rew :
  classify rhs addend k lo up = Weighted w' h' w h rfo rew ->
  let W := used_weight G (S_ k lo up) si rhs addend in
  let H0 := gsub G (fst (collect_term G si (S_ k lo up) rhs)) (gmul G W (S_ k lo up)) in
  let up_n := expr_eqb up (Sym "n") in
  let l := snd (normal_form G up_n W H0 (Z.of_nat lo)) in
  (up = Sym "n" \/ up = n_plus (-1)) /\ has_x_of "n" W = false /\ has_parameters W = false /\ has_x_of "n" H0 = false /\
  normal_form G up_n W H0 (Z.of_nat lo) = (w, h, l) /\
  w' = (if (0 <? l)%Z then shifted G l w else w) /\ h' = (if (0 <? l)%Z then shifted G l h else h) /\
  (exists z, dom w h = Some z /\ (Z.of_nat z <= l)%Z) /\
  rfo = gadd G (gmul G (first_order_coeff G sa w') (Fun FX [n_plus (-1)])) (first_order_inhom G sa w' h') /\ rew = (up_n || (0 <? l)%Z)%bool.
Proof.
  intros E W H0 up_n l. unfold classify_weighted in E. destruct (has "n" up && has_x_of k (Fun FX [Sym k]))%bool; [|discriminate].
  destruct (collect_term G si (S_ k lo up) rhs) as [r0 w0] eqn:Ct.
  assert (EW : weight_of G addend (S_ k lo up) w0 = W) by (unfold W, used_weight; now rewrite Ct).
  assert (EH : gsub G r0 (gmul G W (S_ k lo up)) = H0) by reflexivity. rewrite EW in E. clearbody W H0. unfold rewrite_weighted_average in E. rewrite q_is_int_zq in E. cbn [negb] in E. rewrite EH in E. fold up_n in E.
  destruct (has_x_of "n" W) eqn:C1; [discriminate|]. destruct (has_x_of "n" H0) eqn:C2; [discriminate|]. destruct (has_parameters W) eqn:C3; [discriminate|]. cbn [orb] in E.
  destruct (up_n || expr_eqb up (n_plus (-1)))%bool eqn:C4; [|discriminate]. cbn [negb] in E.
  destruct (linear_summand G ex k (Fun FX [Sym k])); [|discriminate]. cbn [negb] in E. rewrite q_int_zq in E.
  unfold l in *. clear l. destruct (normal_form G up_n W H0 (Z.of_nat lo)) as [[w1 h1] l1]. cbn [snd].
  destruct (dom w1 h1) as [z|] eqn:Dz; [|discriminate]. destruct (l1 <? Z.of_nat z)%Z eqn:Lz; [discriminate|]. injection E as <- <- <- <- <- <-.
  apply Z.ltb_ge in Lz. repeat split; auto; [|exists z; auto].
  apply orb_true_iff in C4 as [C4|C4]; apply expr_eqb_eq in C4; auto.
Qed.

Lemma up_val x n up : (up = Sym "n" -> at_ x n up = Some (IZR (Z.of_nat n))) /\ (up = n_plus (-1) -> at_ x n up = Some (IZR (Z.of_nat n - 1))).
Proof.
  split; intros ->; unfold at_n.
  - cbn [eval]. change (upd rho "n" (INR n) "n"%string) with (INR n). now rewrite INR_IZR.
  - unfold n_plus. rewrite eval_Add2. cbn [eval olift2]. change (upd rho "n" (INR n) "n"%string) with (INR n). rewrite rv_zq, INR_IZR, minus_IZR. reflexivity.
Qed.
Lemma H0_val rhs addend k lo up x n c r sv : input_ok k lo up rhs addend -> at_ x n (S_ k lo up) = Some sv ->
  has_parts (with_x I x) (upd rho "n" (INR n)) (S_ k lo up) (si rhs) c r ->
  at_ x n (used_weight G (S_ k lo up) si rhs addend) = Some c /\
  at_ x n (gsub G (fst (collect_term G si (S_ k lo up) rhs)) (gmul G (used_weight G (S_ k lo up) si rhs addend) (S_ k lo up))) = Some r.
Proof.
  intros [Hk Hm Ht Hu] Sv P.
  assert (NS : has_x_function (S_ k lo up) = true) by (cbn [has_x_function existsb]; now rewrite orb_true_r).
  assert (NA : forall l, S_ k lo up <> Add l /\ S_ k lo up <> Mul l) by (split; discriminate).
  assert (NP : forall a b, S_ k lo up <> Pow a b) by discriminate.
  destruct (weight_val (with_x I x) G (HG x) (upd rho "n" (INR n)) (S_ k lo up) sv Sv NS NA NP si rhs addend c r Hm Ht Hu P) as [W R].
  split; auto. replace r with (c * sv + r - c * sv) by ring. apply (gsub_val _ G (HG x)); auto. now apply (gmul_val _ G (HG x)).
Qed.
Lemma normal_n_1 W H0 lo : normal_form G false W H0 lo = (W, H0, lo). Proof. reflexivity. Qed.

(** Upper limit n-1. *)
Theorem faithful_below rhs addend k lo w' h' w h rfo rew x n c r v :
  input_ok k lo (n_plus (-1)) rhs addend -> classify rhs addend k lo (n_plus (-1)) = Weighted w' h' w h rfo rew ->
  has_parts (with_x I x) (upd rho "n" (INR n)) (S_ k lo (n_plus (-1))) (si rhs) c r ->
  (forall e, refines (with_x I x) e (si e)) -> at_ x n rhs = Some v ->
  at_ x n w = Some c /\ at_ x n h = Some r /\ v = c * sum_below x lo n + r.
Proof.
  intros Hin E P Hsi V. destruct (classify_inv _ _ _ _ _ _ _ _ _ _ _ E) as (_ & _ & _ & _ & NF & _).
  replace (expr_eqb (n_plus (-1)) (Sym "n")) with false in NF by reflexivity. rewrite normal_n_1 in NF. cbn [snd] in NF. injection NF as <- <-.
  pose proof (sum_val I rho x n k lo _ _ (in_k _ _ _ _ _ Hin) (proj2 (up_val x n _) eq_refl)) as Sv.
  destruct (H0_val rhs addend k lo _ x n c r _ Hin Sv P) as [Wv Hv]. repeat split; auto.
  assert (NS : has_x_function (S_ k lo (n_plus (-1))) = true) by (cbn [has_x_function existsb]; now rewrite orb_true_r).
  pose proof (has_parts_val (with_x I x) (upd rho "n" (INR n)) _ _ Sv (si rhs) c r P) as Pv. apply Hsi in V. unfold at_n in V. rewrite V in Pv. injection Pv as ->.
  unfold sum_below. do 3 f_equal. lia.
Qed.
(** Upper limit n, weight other than 1. *)
Theorem faithful_at rhs addend k lo w' h' w h rfo rew x n c r v : (lo <= n)%nat ->
  input_ok k lo (Sym "n") rhs addend -> classify rhs addend k lo (Sym "n") = Weighted w' h' w h rfo rew ->
  is_num 1 (used_weight G (S_ k lo (Sym "n")) si rhs addend) = false -> c <> 1 ->
  has_parts (with_x I x) (upd rho "n" (INR n)) (S_ k lo (Sym "n")) (si rhs) c r ->
  (forall e, refines (with_x I x) e (si e)) -> at_ x n rhs = Some v ->
  at_ x n w = Some (c / (1 - c)) /\ at_ x n h = Some (r / (1 - c)) /\
  (x n = v <-> x n = c / (1 - c) * sum_below x lo n + r / (1 - c)).
Proof.
  intros Hn Hin E NU Hc P Hsi V. destruct (classify_inv _ _ _ _ _ _ _ _ _ _ _ E) as (_ & _ & _ & _ & NF & _).
  replace (expr_eqb (Sym "n") (Sym "n")) with true in NF by reflexivity. unfold normal_form in NF. rewrite NU in NF. cbn [snd] in NF. injection NF as <- <-.
  pose proof (sum_val I rho x n k lo _ _ (in_k _ _ _ _ _ Hin) (proj1 (up_val x n _) eq_refl)) as Sv.
  destruct (H0_val rhs addend k lo _ x n c r _ Hin Sv P) as [Wv Hv].
  assert (Tv : at_ x n (gsub G (Num 1) (used_weight G (S_ k lo (Sym "n")) si rhs addend)) = Some (1 - c)) by (apply (gsub_val _ G (HG x)); auto; exact (one_v x n)).
  split; [apply div_v; auto; lra|]. split; [apply div_v; auto; lra|].
  pose proof (has_parts_val (with_x I x) (upd rho "n" (INR n)) _ _ Sv (si rhs) c r P) as Pv. apply Hsi in V. unfold at_n in V. rewrite V in Pv. injection Pv as ->.
  replace (Z.to_nat (Z.of_nat n - Z.of_nat lo + 1)) with (S (n - lo)) by lia. rewrite range_sum_S. replace (lo + (n - lo))%nat with n by lia.
  unfold sum_below. split; intros Q.
  - apply (Rmult_eq_reg_l (1 - c)); [|lra]. field_simplify; [lra|lra].
  - apply (Rmult_eq_compat_l (1 - c)) in Q. replace ((1 - c) * (c / (1 - c) * range_sum x lo (n - lo) + r / (1 - c))) with (c * range_sum x lo (n - lo) + r) in Q by (field; lra). lra.
Qed.
(** Upper limit n, weight 1. *)
Theorem faithful_one rhs addend k lo w' h' w h rfo rew x n c r v : (lo <= n)%nat ->
  input_ok k lo (Sym "n") rhs addend -> classify rhs addend k lo (Sym "n") = Weighted w' h' w h rfo rew ->
  used_weight G (S_ k lo (Sym "n")) si rhs addend = Num 1 ->
  not_bound "n" (gsub G (fst (collect_term G si (S_ k lo (Sym "n")) rhs)) (gmul G (Num 1) (S_ k lo (Sym "n")))) ->
  has_parts (with_x I x) (upd rho "n" (INR (S n))) (S_ k lo (Sym "n")) (si rhs) c r ->
  (forall e, refines (with_x I x) e (si e)) -> at_ x (S n) rhs = Some v ->
  at_ x n w = Some (-1) /\ at_ x n h = Some (- r) /\ (x (S n) = v <-> x n = - 1 * sum_below x lo n + - r).
Proof.
  intros Hn Hin E NU NB P Hsi V. destruct (classify_inv _ _ _ _ _ _ _ _ _ _ _ E) as (_ & _ & _ & _ & NF & _).
  replace (expr_eqb (Sym "n") (Sym "n")) with true in NF by reflexivity. unfold normal_form in NF. rewrite NU in NF. replace (is_num 1 (Num 1)) with true in NF by reflexivity. cbn [snd] in NF. injection NF as <- <-.
  pose proof (sum_val I rho x (S n) k lo _ _ (in_k _ _ _ _ _ Hin) (proj1 (up_val x (S n) _) eq_refl)) as Sv.
  destruct (H0_val rhs addend k lo _ x (S n) c r _ Hin Sv P) as [Wv Hv]. rewrite NU in Wv, Hv. rewrite one_v in Wv. injection Wv as <-.
  split; [replace (-1) with (1 * -1) by ring; apply (gmul_val _ G (HG x)); [exact (one_v x n)|exact (m1_v x n)]|]. split.
  { replace (- r) with (-1 * r) by ring. apply (gmul_val _ G (HG x)); [exact (m1_v x n)|]. apply (shifted_v x n (S n)); auto. lia. }
  pose proof (has_parts_val (with_x I x) (upd rho "n" (INR (S n))) _ _ Sv (si rhs) 1 r P) as Pv. apply Hsi in V. unfold at_n in V. rewrite V in Pv. apply (f_equal (fun o => match o with Some a => a | None => 0 end)) in Pv. subst v.
  replace (Z.to_nat (Z.of_nat (S n) - Z.of_nat lo + 1)) with (S (S (n - lo))) by lia. rewrite !range_sum_S. replace (lo + (n - lo))%nat with n by lia. replace (lo + S (n - lo))%nat with (S n) by lia.
  unfold sum_below. split; intros Q; lra.
Qed.
(** The lower limit and the first order recurrence. *)
Theorem shifts_ok rhs addend k lo up w' h' w h rfo rew x n v u : classify rhs addend k lo up = Weighted w' h' w h rfo rew ->
  not_bound "n" w -> not_bound "n" h ->
  let l := (if expr_eqb up (Sym "n") && is_num 1 (used_weight G (S_ k lo up) si rhs addend) then S lo else lo)%nat in
  (at_ x (n + l) w = Some v -> at_ x n w' = Some v) /\ (at_ x (n + l) h = Some u -> at_ x n h' = Some u) /\ rew = (expr_eqb up (Sym "n") || negb (Nat.eqb l 0))%bool.
Proof.
  intros E NB1 NB2 l. destruct (classify_inv _ _ _ _ _ _ _ _ _ _ _ E) as (_ & _ & _ & _ & NF & -> & -> & _ & _ & ->).
  set (W := used_weight G (S_ k lo up) si rhs addend) in *. set (H0 := gsub G _ _) in *.
  assert (L : snd (normal_form G (expr_eqb up (Sym "n")) W H0 (Z.of_nat lo)) = Z.of_nat l).
  { unfold normal_form, l. destruct (expr_eqb up (Sym "n")); [|reflexivity]. cbn [andb]. destruct (is_num 1 W); cbn [snd]; lia. }
  rewrite L. clearbody l. destruct (Z.ltb_spec 0 (Z.of_nat l)) as [Hl|Hl].
  - repeat split; [intros V; apply (shifted_v x n (n + l)); auto; lia|intros V; apply (shifted_v x n (n + l)); auto; lia|].
    replace (Nat.eqb l 0) with false by (symmetry; apply Nat.eqb_neq; lia). reflexivity.
  - assert (l = 0%nat) as -> by lia. rewrite Nat.add_0_r. repeat split; auto.
Qed.
Theorem first_order_ok rhs addend k lo up w' h' w h rfo rew y n f0 f1 g0 g1 : classify rhs addend k lo up = Weighted w' h' w h rfo rew -> (1 <= n)%nat ->
  not_bound "n" w' -> not_bound "n" h' ->
  not_bound "n" (sa (gmul G (gdiv G w' (shifted G (-1) w')) (gadd G (Num 1) (shifted G (-1) w')))) ->
  not_bound "n" (sa (gmul G w' (gsub G (gdiv G h' w') (gdiv G (shifted G (-1) h') (shifted G (-1) w'))))) ->
  at_ y n w' = Some f0 -> at_ y (S n) w' = Some f1 -> at_ y n h' = Some g0 -> at_ y (S n) h' = Some g1 -> f0 <> 0 -> f1 <> 0 ->
  at_ y n rfo = Some (f1 / f0 * (1 + f0) * y (n - 1)%nat + f1 * (g1 / f1 - g0 / f0)).
Proof.
  intros E Hn NB1 NB2 NB3 NB4 F0 F1 G0 G1 N0 N1. destruct (classify_inv _ _ _ _ _ _ _ _ _ _ _ E) as (_ & _ & _ & _ & _ & _ & _ & _ & -> & _).
  assert (Ws : at_ y (S n) (shifted G (-1) w') = Some f0) by (apply (shifted_v y (S n) n); auto; lia).
  assert (Hs : at_ y (S n) (shifted G (-1) h') = Some g0) by (apply (shifted_v y (S n) n); auto; lia).
  apply (gadd_val _ G (HG y)).
  - apply (gmul_val _ G (HG y)).
    + unfold first_order_coeff. apply (shifted_v y n (S n)); auto; [lia|]. apply Hsa. apply (gmul_val _ G (HG y)); [now apply div_v|].
      apply (gadd_val _ G (HG y)); auto. exact (one_v y (S n)).
    + pose proof (x_plus_val I rho y n (-1) (n - 1) ltac:(lia)) as X. exact X.
  - unfold first_order_inhom. apply (shifted_v y n (S n)); auto; [lia|]. apply Hsa. apply (gmul_val _ G (HG y)); auto.
    apply (gsub_val _ G (HG y)); now apply div_v.
Qed.
End W.
