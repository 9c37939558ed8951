(** C98: the first step of Gosper's and Zeilberger's algorithms. *)
From Coq Require Import ZArith QArith Qcanon Reals List String Bool Lra Lia.
From Verif Require Import Ast ExprModel ExprSpec RatRootProofs HypModel HypSpec HypProofs HypProofs2 HypCases.
Import ListNotations.
Local Open Scope R_scope.
Local Open Scope list_scope.
Local Open Scope string_scope.
Set Bullet Behavior "Strict Subproofs".

(** gosper_step_one: the value of r is t(m+1) / t(m). *)
Theorem C98_gosper_ratio : forall I G sbfe snum nd, ginac_ok I G -> forall m t r rho a b,
  no_binders t -> gosper_step_one G sbfe snum nd m t = Some r -> fine_quotient I G sbfe snum nd rho (next G m t) t ->
  eval I rho t = Some a -> eval I (upd rho m (rho m + 1)) t = Some b -> a <> 0 -> eval I rho r = Some (b / a).
Proof. exact gosper_ratio. Qed.
(** ... and t is a hypergeometric term: t(m+1) / t(m) is a quotient of two polynomials in m. *)
Theorem C98_hypergeometric : forall I G sbfe snum nd, ginac_ok I G -> forall m t r rho,
  no_binders t -> gosper_step_one G sbfe snum nd m t = Some r ->
  exists cn cd, forall v a b, fine_quotient I G sbfe snum nd (upd rho m v) (next G m t) t ->
    eval I (upd rho m v) t = Some a -> eval I (upd rho m (v + 1)) t = Some b -> a <> 0 ->
    rpoly cd v <> 0 /\ b * rpoly cd v = a * rpoly cn v.
Proof. exact gosper_hypergeometric. Qed.
(** zeilberger_step_one: with t(k) = a_0 F(m, k) + ... + a_J F(m+J, k), t(k+1) / t(k) = p(k+1) / p(k) * r(k) / s(k). *)
Theorem C98_zeilberger : forall I G sbfe snum nd, ginac_ok I G -> plain_steps G sbfe snum nd -> forall F m k coefficients p r s rho f g,
  m <> k -> coefficients <> [] -> ~ In m coefficients -> ~ In k coefficients -> no_binders F ->
  zeilberger_step_one G sbfe snum nd F m k coefficients = Some (p, r, s) ->
  let at_ (e : R) (j : nat) := upd (upd rho k (rho k + e)) m (rho m + INR j) in
  let J1 := List.length coefficients in
  (forall j, (j < J1)%nat -> eval I (at_ 0 j) F = Some (f j) /\ f j <> 0 /\ eval I (at_ 1 j) F = Some (g j) /\ g j <> 0) ->
  fine_quotient I G sbfe snum nd rho (next G k F) F ->
  (forall j e, (1 <= j < J1)%nat -> e = 0 \/ e = 1 -> fine_quotient I G sbfe snum nd (at_ e j) F (previous G m F)) ->
  exists P P1 R1 S1, eval I rho p = Some P /\ eval I (upd rho k (rho k + 1)) p = Some P1 /\ eval I rho r = Some R1 /\ eval I rho s = Some S1 /\ S1 <> 0 /\
    let t h := rsum (fun j => rho (nth j coefficients EmptyString) * h j) J1 in t g * (P * S1) = t f * (P1 * R1).
Proof. intros I G sbfe snum nd HG HP F m k coefficients p r s rho f g. exact (zeilberger_ratio I G sbfe snum nd HG HP F m k coefficients p r s rho f g). Qed.
(** zeilberger_step_one accepts (-1)^(m*k), although F(m, k+1) / F(m, k) = (-1)^m is not a rational function of m. *)
Theorem C98_accepts_refuted : exists G sbfe snum nd F p r s, (forall I, ginac_ok I G) /\ plain_steps G sbfe snum nd /\
  (forall I rho a b, fine_quotient I G sbfe snum nd rho a b) /\
  zeilberger_step_one G sbfe snum nd F "m" "k" ["a0"; "a1"] = Some (p, r, s) /\
  (forall I rho (i j : nat), rho "m" = INR i -> rho "k" = INR j -> eval I rho F = Some ((-1) ^ (i * j))) /\
  ~ exists cn cd, forall i : nat, rpoly cd (INR i) <> 0 /\ (-1) ^ (i * 2) * rpoly cd (INR i) = (-1) ^ (i * 1) * rpoly cn (INR i).
Proof.
  destruct alt_accepted as (p & r & s & E). exists G0, same, snum0, nd0, alt_mk, p, r, s. split; [exact G0_ok|]. split; [exact plain_snum0|]. split; [exact fine_snum0|]. split; [exact E|]. split; [exact alt_value|].
  intros (cn & cd & H). apply (signs_not_rational cn cd). intros i. destruct (H i) as [N Q]. split; [exact N|]. rewrite Nat.mul_1_r, Nat.mul_comm, pow_1_even in Q.
  assert (K : (-1) ^ i * (-1) ^ i = 1) by (rewrite <- Rpow_mult_distr; replace (-1 * -1) with 1 by ring; apply pow1).
  transitivity ((-1) ^ i * ((-1) ^ i * rpoly cn (INR i))); [rewrite <- Q; ring|]. rewrite <- Rmult_assoc, K. ring.
Qed.

(** t(m) = m at 3: the value of r is 4 / 3. *)
Example C98_gosper_case : exists r, gosper_step_one G0 same same nd0 "m" m_ = Some r /\ forall I rho, rho "m" = 3 -> eval I rho r = Some (4 / 3).
Proof.
  eexists. split; [vm_compute; reflexivity|]. intros I rho M. replace (4 / 3) with (4 / 3) by reflexivity.
  eapply (C98_gosper_ratio I G0 same same nd0 (G0_ok I) "m" m_ _ rho 3 4); [exact Logic.I|vm_compute; reflexivity|apply fine_same| | |lra].
  - cbn. rewrite M. reflexivity.
  - cbn. unfold upd. cbn. rewrite M. f_equal. lra.
Qed.
(** F(m, k) = m + k at m = 3, k = 5 with two coefficients. *)
Example C98_zeilberger_case : exists p r s, zeilberger_step_one G0 same same nd0 (Add [m_; k_]) "m" "k" ["a0"; "a1"] = Some (p, r, s) /\
  forall I rho, rho "m" = 3 -> rho "k" = 5 -> exists P P1 R1 S1, eval I rho p = Some P /\ eval I (upd rho "k" (rho "k" + 1)) p = Some P1 /\ eval I rho r = Some R1 /\ eval I rho s = Some S1 /\ S1 <> 0 /\
    (rho "a0" * 9 + rho "a1" * 10) * (P * S1) = (rho "a0" * 8 + rho "a1" * 9) * (P1 * R1).
Proof.
  destruct (zeilberger_step_one G0 same same nd0 (Add [m_; k_]) "m" "k" ["a0"; "a1"]) as [[[p r] s]|] eqn:E; [|vm_compute in E; discriminate].
  exists p, r, s. split; [reflexivity|]. intros I rho M K.
  destruct (C98_zeilberger I G0 same same nd0 (G0_ok I) plain_same (Add [m_; k_]) "m" "k" ["a0"; "a1"] p r s rho (fun j => 8 + INR j) (fun j => 9 + INR j)) as (P & P1 & R1 & S1 & H1 & H2 & H3 & H4 & H5 & H6); try discriminate.
  - cbn. intuition discriminate.
  - cbn. intuition discriminate.
  - cbn. tauto.
  - exact E.
  - intros j L. pose proof (pos_INR j). cbn. unfold upd. cbn. rewrite M, K. repeat split; try lra; f_equal; lra.
  - apply fine_same.
  - intros j e _ _. apply fine_same.
  - exists P, P1, R1, S1. repeat split; auto. cbn in H6. rewrite <- (Rplus_0_l (rho "a0" * 9)), <- (Rplus_0_l (rho "a0" * 8)). lra.
Qed.

Print Assumptions C98_gosper_ratio.
Print Assumptions C98_hypergeometric.
Print Assumptions C98_zeilberger.
Print Assumptions C98_accepts_refuted.
