(** The rational root theorem for coefficient lists, and the search of the rational roots. *)
From Coq Require Import ZArith QArith Qcanon Qfield Znumtheory Zpow_facts List Bool Lia Reals Lra Field Arith.
From Coquelicot Require Import Complex.
From Verif Require Import IntUtilModel IntUtilProofs Ast ExprModel ExprProofs1 Fld FPoly PolyMore CplxF FindRootModel FindRootSpec NestedProofs.
Import ListNotations.
Local Open Scope list_scope.
Local Open Scope nat_scope.

Definition intq (x : Qc) : Prop := exists z : Z, x = zq z.
Lemma zq_add a b : zq (a + b) = (zq a + zq b)%Qc.
Proof. apply rv_inj. rewrite rv_add, !rv_zq. apply plus_IZR. Qed.
Lemma zq_mul a b : zq (a * b) = (zq a * zq b)%Qc.
Proof. apply rv_inj. rewrite rv_mul, !rv_zq. apply mult_IZR. Qed.
Lemma zq_opp a : zq (- a) = (- zq a)%Qc.
Proof. apply rv_inj. rewrite rv_opp, !rv_zq. apply opp_IZR. Qed.
Lemma zq_inj a b : zq a = zq b -> a = b.
Proof. intros H. apply eq_IZR. rewrite <- !rv_zq, H. reflexivity. Qed.
Lemma zq_0 : zq 0 = 0%Qc. Proof. apply rv_inj. rewrite rv_zq, rv_0. reflexivity. Qed.
Lemma zq_1 : zq 1 = 1%Qc. Proof. apply rv_inj. rewrite rv_zq, rv_1. reflexivity. Qed.
Lemma zq_neq0 z : z <> 0%Z -> zq z <> 0%Qc.
Proof. intros H E. apply H, zq_inj. rewrite zq_0. exact E. Qed.
Lemma intq_add x y : intq x -> intq y -> intq (x + y)%Qc.
Proof. intros [a ->] [b ->]. exists (a + b)%Z. symmetry. apply zq_add. Qed.
Lemma intq_mul x y : intq x -> intq y -> intq (x * y)%Qc.
Proof. intros [a ->] [b ->]. exists (a * b)%Z. symmetry. apply zq_mul. Qed.
Lemma intq_sub x y : intq x -> intq y -> intq (x - y)%Qc.
Proof. intros [a ->] [b ->]. exists (a - b)%Z. unfold Z.sub. rewrite zq_add, zq_opp. reflexivity. Qed.
Lemma intq_zq z : intq (zq z). Proof. exists z. reflexivity. Qed.
Definition zp (z : Z) (n : nat) : Qc := zq (z ^ Z.of_nat n).
Lemma zp_S z n : zp z (S n) = (zq z * zp z n)%Qc.
Proof. unfold zp. rewrite <- zq_mul, Nat2Z.inj_succ, Z.pow_succ_r by lia. reflexivity. Qed.
Lemma zp_0 z : zp z 0 = 1%Qc. Proof. apply zq_1. Qed.

Section Root.
Variables u v : Z.
Hypothesis Hv : (0 < v)%Z.
Hypothesis Huv : rel_prime u v.
Let a : Qc := (zq u / zq v)%Qc.
Local Lemma v0 : zq v <> 0%Qc. Proof. apply zq_neq0. lia. Qed.

Lemma coprime_int i j x : intq (zp u i * x)%Qc -> intq (zp v j * x)%Qc -> intq x.
Proof.
  intros [s Hs] [t Ht].
  assert (R : rel_prime (u ^ Z.of_nat i) (v ^ Z.of_nat j)) by (apply rel_prime_Zpower; auto; lia).
  apply rel_prime_bezout in R. destruct R as [c d E].
  exists (c * s + d * t)%Z. rewrite zq_add, !zq_mul, <- Hs, <- Ht. unfold zp.
  transitivity (zq (c * u ^ Z.of_nat i + d * v ^ Z.of_nat j) * x)%Qc; [rewrite E, zq_1; ring|].
  rewrite zq_add, !zq_mul. ring.
Qed.
Lemma top_int (p : poly) : integer_coefficients p -> intq (zp v (length p) * peval (K:=QcF) p a)%Qc.
Proof.
  induction 1 as [|c p Hc Hp IH]; cbn [length peval].
  - exists 0%Z. change (@f0 QcF) with 0%Qc. rewrite zq_0. ring.
  - rewrite zp_S. change (@fadd QcF) with Qcplus. change (@fmul QcF) with Qcmult. set (P := peval (K:=QcF) p a) in *. clearbody P.
    assert (EQ : (zq v * zp v (length p) * (c + a * P))%Qc = (zq v * zp v (length p) * c + zq u * (zp v (length p) * P))%Qc) by (unfold a; field; exact v0).
    change (intq (zq v * zp v (length p) * (c + a * P))%Qc). rewrite EQ.
    apply intq_add; apply intq_mul; auto using intq_zq. apply intq_mul; apply intq_zq.
Qed.
Lemma quot_int (p : poly) : integer_coefficients p -> forall j, intq (zp u j * peval (K:=QcF) p a)%Qc ->
  Forall (fun b => intq (b / zq v)%Qc) (quot (K:=QcF) p a).
Proof.
  induction 1 as [|c p Hc Hp IH]; intros j Hj; [constructor|].
  destruct p as [|d p]; [constructor|].
  change (quot (K:=QcF) (c :: d :: p) a) with (peval (K:=QcF) (d :: p) a :: quot (K:=QcF) (d :: p) a).
  pose proof (top_int (d :: p) Hp) as HT.
  change (peval (K:=QcF) (c :: d :: p) a) with (c + a * peval (K:=QcF) (d :: p) a)%Qc in Hj.
  set (P := peval (K:=QcF) (d :: p) a) in *. clearbody P.
  assert (U : intq (zp u (S j) * (P / zq v))%Qc).
  { rewrite zp_S. replace (zq u * zp u j * (P / zq v))%Qc with (zp u j * (c + a * P) - zp u j * c)%Qc.
    - apply intq_sub; auto. apply intq_mul; [apply intq_zq|exact Hc].
    - unfold a. field. exact v0. }
  constructor.
  - apply (coprime_int (S j) (S (length (d :: p)))); auto.
    rewrite zp_S. replace (zq v * zp v (length (d :: p)) * (P / zq v))%Qc with (zp v (length (d :: p)) * P)%Qc; auto.
    field. exact v0.
  - apply (IH (S j)). replace (zp u (S j) * P)%Qc with (zq v * (zp u (S j) * (P / zq v)))%Qc; [|field; exact v0].
    apply intq_mul; auto. apply intq_zq.
Qed.
(** Integer quotient, numerator and denominator of a root. *)
Lemma rational_root_theorem (p : poly) : integer_coefficients p -> 2 <= length p -> peval (K:=QcF) p a = 0%Qc ->
  integer_coefficients (quot (K:=QcF) p a) /\
  (exists c, last p 0%Qc = zq (v * c)) /\ (exists c, coeff p 0 = zq (u * c)).
Proof.
  intros Hp L E.
  assert (Q : Forall (fun b => intq (b / zq v)%Qc) (quot (K:=QcF) p a)).
  { apply (quot_int p Hp 0). rewrite E. exists 0%Z. rewrite zq_0. ring. }
  split; [|split].
  - eapply Forall_impl; [|exact Q]. intros b Hb. cbv beta in Hb. change (intq b).
    replace b with (zq v * (b / zq v))%Qc by (field; exact v0). apply intq_mul; auto. apply intq_zq.
  - pose proof (last_quot (K:=QcF) p a L) as LQ. change (@f0 QcF) with 0%Qc in LQ. rewrite <- LQ.
    assert (N : quot (K:=QcF) p a <> []).
    { intros X. pose proof (length_quot (K:=QcF) p a) as Y. rewrite X in Y. cbn [length] in Y. lia. }
    assert (I : In (last (quot (K:=QcF) p a) 0%Qc) (quot (K:=QcF) p a)).
    { rewrite (app_removelast_last 0%Qc N) at 2. apply in_or_app. right. left. reflexivity. }
    pose proof (proj1 (Forall_forall _ _) Q _ I) as [c Hc]. exists c. rewrite zq_mul, <- Hc.
    change (car QcF) with Qc in *. field. exact v0.
  - destruct p as [|c [|d p]]; cbn [length] in L; try lia.
    change (quot (K:=QcF) (c :: d :: p) a) with (peval (K:=QcF) (d :: p) a :: quot (K:=QcF) (d :: p) a) in Q.
    apply Forall_inv in Q. destruct Q as [e He]. exists (- e)%Z. unfold coeff. cbn [nth].
    change (peval (K:=QcF) (c :: d :: p) a) with (c + a * peval (K:=QcF) (d :: p) a)%Qc in E.
    rewrite zq_mul, zq_opp, <- He. set (P := peval (K:=QcF) (d :: p) a) in *. clearbody P.
    change (car QcF) with Qc in *. replace c with (c + a * P - a * P)%Qc by ring. rewrite E. unfold a. field. exact v0.
Qed.
End Root.
(** Every rational number is a quotient of coprime integers. *)
Lemma rv_inv q : rv (/ q)%Qc = (/ rv q)%R.
Proof.
  destruct (Qc_eq_dec q 0%Qc) as [->|N].
  - rewrite rv_0, Rinv_0. unfold rv. cbn. apply RMicromega.Q2R_0.
  - assert (M : rv q <> 0%R) by (rewrite <- rv_0; intros E; apply N, rv_inj, E).
    apply (Rmult_eq_reg_l (rv q)); auto. rewrite Rinv_r by auto. rewrite <- rv_mul, Qcmult_inv_r, rv_1; auto.
Qed.
Lemma rv_div p q : rv (p / q)%Qc = (rv p / rv q)%R.
Proof. unfold Qcdiv. rewrite rv_mul, rv_inv. reflexivity. Qed.
Lemma rational_form (q : Qc) : exists u v, (0 < v)%Z /\ rel_prime u v /\ q = (zq u / zq v)%Qc.
Proof.
  set (n := Qnum (this q)). set (d := Z.pos (Qden (this q))).
  assert (G : (0 < Z.gcd n d)%Z).
  { pose proof (Z.gcd_nonneg n d). destruct (Z.eq_dec (Z.gcd n d) 0) as [E|]; [|lia]. apply Z.gcd_eq_0_r in E. unfold d in E. discriminate. }
  destruct (Z.gcd_divide_l n d) as [u Hu]. destruct (Z.gcd_divide_r n d) as [v Hv].
  assert (D : (0 < d)%Z) by (unfold d; lia).
  assert (V : (0 < v)%Z) by (rewrite Hv in D; nia).
  exists u, v. split; auto. split.
  - apply Zgcd_1_rel_prime. apply (Z.mul_cancel_r _ _ (Z.gcd n d)); [lia|].
    rewrite <- Z.gcd_mul_mono_r_nonneg by lia. rewrite <- Hu, <- Hv. lia.
  - apply rv_inj. rewrite rv_div, !rv_zq.
    assert (E : rv q = (IZR n / IZR d)%R) by reflexivity. rewrite E.
    clearbody n d. set (g := Z.gcd n d) in *. clearbody g. rewrite Hu, Hv, !mult_IZR.
    assert (IZR v <> 0%R) by (apply not_0_IZR; lia). assert (IZR g <> 0%R) by (apply not_0_IZR; lia).
    field. auto.
Qed.

(** The divisors tried. *)
Lemma divisors_spec q ls : small q = true -> q <> 0%Qc -> divisors q = Some ls ->
  exists z, q = zq z /\ forall d, In d ls <-> (0 < d)%Z /\ (d | z)%Z.
Proof.
  unfold small, divisors. intros HS N H. destruct (q_is_int q) eqn:I; [|discriminate].
  pose proof (zq_q_int q I) as Hz. set (z := q_int q) in *. clearbody z. subst q. exists z. split; auto.
  assert (Z0 : z <> 0%Z) by (intros ->; apply N, zq_0).
  assert (A : qabs (zq z) = zq (Z.abs z)).
  { unfold qabs. destruct (q_lt (zq z) 0) eqn:E.
    - apply q_lt_spec in E. rewrite rv_zq, rv_0 in E. apply lt_IZR in E. rewrite Z.abs_neq by lia. symmetry. apply zq_opp.
    - apply q_lt_false in E. rewrite rv_zq, rv_0 in E. apply le_IZR in E. rewrite Z.abs_eq by lia. reflexivity. }
  rewrite A in HS, H. apply q_lt_spec in HS. rewrite !rv_zq in HS. apply lt_IZR in HS. rewrite q_int_zq in H.
  destruct (find_divisors_small (Z.abs z) []) as (new & E & _ & D); [unfold FIND_DIVISORS_THRESHOLD, FIND_DIVISORS_MAX in HS; lia|].
  rewrite E in H. injection H as <-. intros d. cbn [app]. rewrite D. rewrite Z.divide_abs_r. reflexivity.
Qed.

Definition cands (ls ts : list Z) : list Qc := flat_map (fun l => flat_map (fun t => [(zq t / zq l)%Qc; (- (zq t / zq l))%Qc]) ts) ls.
Definition tries (m : nat) (cs : list Qc) (s : poly * list root) := fold_left (fun s r => try_root m r s) cs s.
Lemma search_tries m ls ts s : search m ls ts s = tries m (cands ls ts) s.
Proof.
  unfold search, tries, cands. revert s. induction ls as [|l ls IH]; intros s; [reflexivity|]. cbn [fold_left flat_map].
  rewrite IH, fold_left_app. f_equal. clear. revert s. induction ts as [|t ts IH]; intros s; [reflexivity|].
  cbn [fold_left flat_map app]. rewrite IH. reflexivity.
Qed.
Lemma all_candidates (p : poly) (ls ts : list Z) r : integer_coefficients p -> 2 <= length p -> normal (K:=QcF) p ->
  coeff p 0 <> 0%Qc -> small (last p 0%Qc) = true -> small (coeff p 0) = true -> divisors (last p 0%Qc) = Some ls -> divisors (coeff p 0) = Some ts ->
  peval (K:=QcF) p r = 0%Qc -> In r (cands ls ts).
Proof.
  intros Hp L [_ HN] H0 S1 S2 D1 D2 E. destruct (rational_form r) as (u & v & Hv & Huv & ->).
  destruct (rational_root_theorem u v Hv Huv p Hp L E) as (_ & [c Hc] & [d Hd]).
  destruct (divisors_spec _ _ S1 HN D1) as (z1 & E1 & I1). destruct (divisors_spec _ _ S2 H0 D2) as (z2 & E2 & I2).
  rewrite E1 in Hc. apply zq_inj in Hc. rewrite E2 in Hd. apply zq_inj in Hd. subst z1 z2.
  assert (U0 : u <> 0%Z). { intros ->. apply H0. rewrite E2, Z.mul_0_l. apply zq_0. }
  unfold cands. apply in_flat_map. exists v. split; [apply I1; split; auto; exists c; lia|].
  apply in_flat_map. exists (Z.abs u). split; [apply I2; split; [lia|]; apply Z.divide_abs_l; exists d; lia|].
  destruct (Z.le_gt_cases 0 u) as [Hu|Hu].
  - left. rewrite Z.abs_eq by lia. reflexivity.
  - right. left. rewrite Z.abs_neq by lia. rewrite zq_opp. field. apply zq_neq0. lia.
Qed.
