From Coq Require Import Reals List Arith Bool Lia Lra Psatz.
From Verif Require Import FuncEqModel FuncEqSpec.
Import ListNotations.
Local Open Scope R_scope.

(** ** Powers with real exponents *)
Lemma Rp_pos a x : 0 < Rpower a x. Proof. apply exp_pos. Qed.
Lemma Rltb_true a b : Rltb a b = true <-> a < b.
Proof. unfold Rltb; destruct (Rlt_dec a b); split; intros; try easy; lra. Qed.
Lemma Rltb_false a b : Rltb a b = false <-> b <= a.
Proof. unfold Rltb; destruct (Rlt_dec a b); split; intros; try easy; lra. Qed.
Lemma Reqb_true a b : Reqb a b = true <-> a = b.
Proof. unfold Reqb; destruct (Req_EM_T a b); split; intros; try easy; lra. Qed.
Lemma Reqb_false a b : Reqb a b = false <-> a <> b.
Proof. unfold Reqb; destruct (Req_EM_T a b); split; intros; try easy; lra. Qed.

Lemma ln_le_pred y : 0 < y -> ln y <= y - 1.
Proof. intros Hy. destruct (Req_dec (ln y) 0) as [E|E]. { rewrite E. pose proof (exp_ln y Hy) as W. rewrite E, exp_0 in W. lra. }
  pose proof (exp_ineq1 (ln y) E) as W. rewrite exp_ln in W by easy. lra. Qed.
Lemma ln_mono a b : 0 < a -> a <= b -> ln a <= ln b.
Proof. intros Ha [H|H]. { left. now apply ln_increasing. } subst; lra. Qed.
Lemma exp_mono a b : a <= b -> exp a <= exp b.
Proof. intros [H|H]. { left. now apply exp_increasing. } subst; lra. Qed.
Lemma Rp_mono_base a b x : 0 < a -> a <= b -> 0 <= x -> Rpower a x <= Rpower b x.
Proof. intros Ha Hb Hx. unfold Rpower. apply exp_mono. pose proof (ln_mono a b Ha Hb). nra. Qed.
Lemma ln_nonneg a : 1 <= a -> 0 <= ln a.
Proof. intros. rewrite <- ln_1. apply ln_mono; lra. Qed.
Lemma ln_nonpos a : 0 < a <= 1 -> ln a <= 0.
Proof. intros. rewrite <- ln_1. apply ln_mono; lra. Qed.
Lemma Rp_mono_exp a x y : 1 <= a -> x <= y -> Rpower a x <= Rpower a y.
Proof. intros Ha H. unfold Rpower. apply exp_mono. pose proof (ln_nonneg a Ha). nra. Qed.
Lemma Rp_anti_exp a x y : 0 < a <= 1 -> x <= y -> Rpower a y <= Rpower a x.
Proof. intros Ha H. unfold Rpower. apply exp_mono. pose proof (ln_nonpos a Ha). nra. Qed.
Lemma Rp_div a b x : 0 < a -> 0 < b -> Rpower (a / b) x = Rpower a x / Rpower b x.
Proof. intros Ha Hb. unfold Rpower, Rdiv. rewrite ln_mult by (try apply Rinv_0_lt_compat; lra).
  rewrite ln_Rinv by lra. rewrite <- exp_Ropp, <- exp_plus. f_equal; ring. Qed.
Lemma Rp_minus1 a x : 0 < a -> Rpower a (x - 1) = Rpower a x / a.
Proof. intros Ha. unfold Rminus. rewrite Rpower_plus, Rpower_Ropp, Rpower_1 by lra. reflexivity. Qed.
Lemma Rp_plus1 a x : 0 < a -> Rpower a (x + 1) = Rpower a x * a.
Proof. intros Ha. now rewrite Rpower_plus, Rpower_1 by lra. Qed.
Lemma Rp_inv1 a : 0 < a -> Rpower a (-1) = / a.
Proof. intros Ha. replace (-1) with (- (1)) by ring. now rewrite Rpower_Ropp, Rpower_1 by lra. Qed.
Lemma Rp_two a : 0 < a -> Rpower a 2 = a * a.
Proof. intros Ha. replace 2 with (1 + 1) by ring. now rewrite Rpower_plus, Rpower_1 by lra. Qed.
Lemma Rp_one x : Rpower 1 x = 1.
Proof. unfold Rpower. now rewrite ln_1, Rmult_0_r, exp_0. Qed.
Lemma Rp_zero a : Rpower a 0 = 1.
Proof. unfold Rpower. now rewrite Rmult_0_l, exp_0. Qed.

(** Bernoulli's inequalities *)
Lemma bernoulli_le a p : 0 < a -> 0 <= p <= 1 -> Rpower a p <= 1 + p * (a - 1).
Proof.
  intros Ha Hp. assert (Hc : 0 < 1 + p * (a - 1)) by nra. set (c := 1 + p * (a - 1)) in *.
  rewrite <- (exp_ln c Hc). unfold Rpower. apply exp_mono.
  assert (H1 : ln (a / c) <= a / c - 1) by (apply ln_le_pred, Rdiv_lt_0_compat; easy).
  assert (H2 : ln (1 / c) <= 1 / c - 1) by (apply ln_le_pred, Rdiv_lt_0_compat; lra).
  unfold Rdiv in H1, H2. pose proof (Rinv_0_lt_compat c Hc) as Hi. rewrite ln_mult in H1, H2 by lra. rewrite ln_Rinv in H1, H2 by lra. rewrite ln_1 in H2.
  assert (E : p * (a * / c - 1) + (1 - p) * (1 * / c - 1) = 0). { unfold c. field. fold c. lra. }
  nra.
Qed.
Lemma bernoulli_ge a p : 0 < a -> 1 <= p -> 1 + p * (a - 1) <= Rpower a p.
Proof.
  intros Ha Hp. destruct (Rle_dec (1 + p * (a - 1)) 0) as [H|H]. { pose proof (Rp_pos a p). lra. }
  assert (Hc : 0 < 1 + p * (a - 1)) by lra. set (c := 1 + p * (a - 1)) in *.
  assert (Hip : 0 <= / p <= 1). { pose proof (Rinv_0_lt_compat p ltac:(lra)). split; try lra. rewrite <- Rinv_1. apply Rinv_le_contravar; lra. }
  pose proof (bernoulli_le c (/ p) Hc Hip) as W. replace (1 + / p * (c - 1)) with a in W by (unfold c; field; lra).
  assert (W2 : Rpower (Rpower c (/ p)) p <= Rpower a p) by (apply Rp_mono_base; [apply Rp_pos|easy|lra]).
  rewrite Rpower_mult in W2. replace (/ p * p) with 1 in W2 by (field; lra). now rewrite Rpower_1 in W2.
Qed.
(** the loss of the floor: (m-1)^k *)
Lemma floor_loss_ge1 k m y : 1 <= k -> 1 <= m -> m - 1 <= y -> 1 <= y -> Rpower m k - k * Rpower m (k - 1) <= Rpower y k.
Proof.
  intros Hk Hm Hy Hy1. assert (Hr : 0 < y / m) by (apply Rdiv_lt_0_compat; lra).
  pose proof (bernoulli_ge (y / m) k Hr Hk) as W. rewrite Rp_div in W by lra.
  rewrite Rp_minus1 by lra. pose proof (Rp_pos m k) as Hp. 
  assert (W2 : Rpower m k * (1 + k * (y / m - 1)) <= Rpower y k).
  { replace (Rpower y k) with (Rpower m k * (Rpower y k / Rpower m k)) by (field; lra). apply Rmult_le_compat_l; lra. }
  apply Rle_trans with (2 := W2). replace (Rpower m k - k * (Rpower m k / m)) with (Rpower m k * (1 - k * / m)) by (field; lra).
  apply Rmult_le_compat_l; try lra. assert (- / m <= y / m - 1). { apply Rmult_le_reg_r with m; try lra. replace (- / m * m) with (-1) by (field; lra). replace ((y / m - 1) * m) with (y - m) by (field; lra). lra. }
  nra.
Qed.
Lemma floor_loss_lt1 k m y : 0 <= k <= 1 -> 1 <= m -> m - 1 <= y -> 1 <= y -> Rpower m k - 1 <= Rpower y k.
Proof.
  intros Hk Hm Hy Hy1. pose proof (bernoulli_le (m / y) k ltac:(apply Rdiv_lt_0_compat; lra) Hk) as W. rewrite Rp_div in W by lra.
  pose proof (Rp_pos y k) as Hp.
  assert (W2 : Rpower m k <= Rpower y k * (1 + k * (m / y - 1))).
  { replace (Rpower m k) with (Rpower y k * (Rpower m k / Rpower y k)) by (field; lra). apply Rmult_le_compat_l; lra. }
  assert (Rpower y k * (k * (m / y - 1)) <= 1); [|lra].
  assert (Hy2 : Rpower y k <= y). { rewrite <- (Rpower_1 y) at 2 by lra. apply Rp_mono_exp; lra. }
  assert (0 <= 1/y) by (left; apply Rdiv_lt_0_compat; lra).
  assert (Hq : m / y - 1 <= 1 / y). { apply Rmult_le_reg_r with y; try lra. replace ((m / y - 1) * y) with (m - y) by (field; lra). replace (1 / y * y) with 1 by (field; lra). lra. }
  apply Rle_trans with (Rpower y k * (1 / y)). { apply Rmult_le_compat_l; try lra. destruct (Rle_dec 0 (m / y - 1)); nra. }
  apply Rle_trans with (y * (1 / y)). { apply Rmult_le_compat_r; lra. } right. field; lra.
Qed.

(** ** Finite sums *)
Fixpoint rsum (q : nat) (f : nat -> R) : R := match q with O => 0 | S q => rsum q f + f q end.
Lemma rsum_le q f g : (forall j, (j < q)%nat -> f j <= g j) -> rsum q f <= rsum q g.
Proof. induction q as [|q IH]; intros H; simpl. lra. apply Rplus_le_compat; [apply IH; intros; apply H; lia | apply H; lia]. Qed.
Lemma rsum_ext q f g : (forall j, (j < q)%nat -> f j = g j) -> rsum q f = rsum q g.
Proof. induction q as [|q IH]; intros H; simpl. easy. rewrite IH by (intros; apply H; lia). now rewrite H by lia. Qed.
Lemma rsum_scal q c f : rsum q (fun j => c * f j) = c * rsum q f.
Proof. induction q as [|q IH]; simpl. ring. rewrite IH; ring. Qed.
Lemma rsum_plus q f g : rsum q (fun j => f j + g j) = rsum q f + rsum q g.
Proof. induction q as [|q IH]; simpl. ring. rewrite IH; ring. Qed.
Lemma rsum_nonneg q f : (forall j, (j < q)%nat -> 0 <= f j) -> 0 <= rsum q f.
Proof. induction q as [|q IH]; intros H; simpl. lra. apply Rplus_le_le_0_compat; [apply IH; intros; apply H; lia|apply H; lia]. Qed.
Lemma rsum_first q f : rsum (S q) f = f O + rsum q (fun j => f (S j)).
Proof. induction q as [|q IH]; [simpl; ring|]. change (rsum (S (S q)) f) with (rsum (S q) f + f (S q)). rewrite IH. simpl. ring. Qed.
Lemma geom q r : (r - 1) * rsum q (fun j => r ^ j) = r ^ q - 1.
Proof. induction q as [|q IH]; simpl. ring. rewrite Rmult_plus_distr_l, IH. ring. Qed.
Lemma geom_one q : rsum q (fun j => 1 ^ j) = INR q.
Proof. induction q as [|q IH]. reflexivity. rewrite S_INR. simpl rsum. rewrite IH, pow1. ring. Qed.
Lemma arith_geom q r t : (r - 1) * (r - 1) * rsum q (fun j => r ^ j * (t - INR j)) = (r - 1) * r ^ q * (t - INR q + 1) - (r - 1) * t + r ^ q - r.
Proof. induction q as [|q IH]. { simpl. ring. } simpl rsum. rewrite Rmult_plus_distr_l, IH. rewrite S_INR. simpl pow. ring. Qed.
Lemma arith_sum q t : rsum q (fun j => 1 ^ j * (t - INR j)) = INR q * t - INR q * (INR q - 1) / 2.
Proof. induction q as [|q IH]. { simpl. field. } simpl rsum. rewrite IH, S_INR, pow1. field. Qed.

(** ** The logarithm and the iterated quotient *)
Lemma ilog_aux_spec d : (2 <= d)%nat -> forall fuel n, (1 <= n)%nat -> (n <= fuel)%nat -> (d ^ ilog_aux fuel d n <= n < d ^ S (ilog_aux fuel d n))%nat.
Proof.
  intros Hd. induction fuel as [|fuel IH]; intros n Hn Hf. lia. simpl ilog_aux. destruct (Nat.ltb_spec n d) as [L|L].
  { simpl. lia. }
  assert (H1 : (1 <= n / d)%nat) by (apply Nat.div_le_lower_bound; lia).
  assert (H2 : (n / d < n)%nat) by (apply Nat.div_lt; lia).
  destruct (IH (n / d)%nat H1 ltac:(lia)) as [A B]. set (q := ilog_aux fuel d (n / d)) in *. clearbody q.
  pose proof (Nat.mul_div_le n d ltac:(lia)) as M1. pose proof (Nat.mul_succ_div_gt n d ltac:(lia)) as M2.
  rewrite !Nat.pow_succ_r' in *. split; nia.
Qed.
Lemma ilog_spec d n : (2 <= d)%nat -> (1 <= n)%nat -> (d ^ ilog d n <= n < d ^ S (ilog d n))%nat.
Proof. intros. apply ilog_aux_spec; lia. Qed.
Lemma ilog_uniq d n a b : (2 <= d)%nat -> (d ^ a <= n < d ^ S a)%nat -> (d ^ b <= n < d ^ S b)%nat -> a = b.
Proof.
  intros Hd [A1 A2] [B1 B2]. destruct (Nat.lt_trichotomy a b) as [L|[L|L]]; [|easy|].
  - pose proof (Nat.pow_le_mono_r d (S a) b ltac:(lia) ltac:(lia)). lia.
  - pose proof (Nat.pow_le_mono_r d (S b) a ltac:(lia) ltac:(lia)). lia.
Qed.
Lemma ilog_small d n : (2 <= d)%nat -> (1 <= n < d)%nat -> ilog d n = O.
Proof. intros Hd Hn. apply (ilog_uniq d n); [easy|apply ilog_spec; lia|simpl; lia]. Qed.
Lemma ilog_step d n : (2 <= d)%nat -> (d <= n)%nat -> ilog d n = S (ilog d (n / d)).
Proof.
  intros Hd Hn. assert (H1 : (1 <= n / d)%nat) by (apply Nat.div_le_lower_bound; lia).
  apply (ilog_uniq d n); [easy|apply ilog_spec; lia|]. destruct (ilog_spec d (n / d) Hd H1) as [A B]. set (q := ilog d (n / d)) in *. clearbody q.
  pose proof (Nat.mul_div_le n d ltac:(lia)) as M1. pose proof (Nat.mul_succ_div_gt n d ltac:(lia)) as M2.
  rewrite !Nat.pow_succ_r' in *. split; nia.
Qed.
Lemma ilog_pos d n : (2 <= d)%nat -> (d <= n)%nat -> (1 <= ilog d n)%nat.
Proof. intros. rewrite ilog_step by easy. lia. Qed.

(** The explicit solution. *)
Lemma explicit a b g x : (2 <= b)%nat -> (forall n, (b <= n)%nat -> x n = a * x (n / b)%nat + g n) ->
  forall q n, (1 <= n)%nat -> ilog b n = q -> x n = a ^ q * x (n / b ^ q)%nat + rsum q (fun j => a ^ j * g (n / b ^ j)%nat).
Proof.
  intros Hb Hx. induction q as [|q IH]; intros n Hn Hq. { simpl rsum. simpl pow. rewrite Nat.div_1_r. ring. }
  assert (Hbn : (b <= n)%nat). { destruct (Nat.lt_ge_cases n b) as [L|L]; [|easy]. rewrite ilog_small in Hq by lia. easy. }
  rewrite ilog_step in Hq by easy. injection Hq as Hq.
  assert (H1 : (1 <= n / b)%nat) by (apply Nat.div_le_lower_bound; lia).
  rewrite Hx by easy. rewrite (IH _ H1 Hq). rewrite rsum_first. rewrite Rmult_plus_distr_l, <- rsum_scal.
  rewrite (rsum_ext q _ (fun j => a ^ S j * g (n / b ^ S j)%nat)).
  2:{ intros j _. rewrite Nat.div_div by (try apply Nat.pow_nonzero; lia). rewrite <- Nat.pow_succ_r'. simpl pow. ring. }
  rewrite Nat.div_div by (try apply Nat.pow_nonzero; lia). rewrite <- Nat.pow_succ_r'. change (b ^ 0)%nat with 1%nat. rewrite Nat.div_1_r. simpl (a ^ S q). simpl (a ^ 0). ring.
Qed.

Section Fixed.
Context (al : R) (b n : nat) (Hal : 0 < al) (Hb : (2 <= b)%nat) (Hn : (1 <= n)%nat).
Local Notation B := (INR b).
Local Notation N := (INR n).
Let q := ilog b n.
Let t := ln N / ln B.
Local Notation m := (fun j => INR (n / b ^ j)%nat).
Lemma HB : 2 <= B. Proof. apply (le_INR 2). easy. Qed.
Lemma HN : 1 <= N. Proof. apply (le_INR 1). easy. Qed.
Lemma HlB : 0 < ln B. Proof. rewrite <- ln_1. apply ln_increasing; pose proof HB; lra. Qed.
Lemma HlN : 0 <= ln N. Proof. apply ln_nonneg, HN. Qed.
Lemma N_eq : N = Rpower B t.
Proof. unfold Rpower, t. replace (ln N / ln B * ln B) with (ln N) by (field; pose proof HlB; lra). rewrite exp_ln; pose proof HN; lra. Qed.
Lemma pow_frac p : 0 < p -> Rpower N (ln p / ln B) = Rpower p t.
Proof. intros. unfold Rpower, t. f_equal. field. pose proof HlB; lra. Qed.
Lemma pow_N k : Rpower N k = Rpower (Rpower B k) t.
Proof. rewrite N_eq at 1. rewrite !Rpower_mult. f_equal; ring. Qed.
Lemma q_le_t : INR q <= t.
Proof.
  destruct (ilog_spec b n Hb Hn) as [A _]. apply le_INR in A. rewrite pow_INR in A. fold q in A. rewrite <- Rpower_pow in A by (pose proof HB; lra).
  apply ln_mono in A; [|apply Rp_pos]. unfold Rpower in A. rewrite ln_exp in A. unfold t. apply Rmult_le_reg_r with (ln B); [apply HlB|].
  replace (ln N / ln B * ln B) with (ln N) by (field; pose proof HlB; lra). easy.
Qed.
Lemma t_lt_q : t < INR q + 1.
Proof.
  destruct (ilog_spec b n Hb Hn) as [_ A]. apply lt_INR in A. rewrite pow_INR in A. fold q in A. rewrite <- Rpower_pow in A by (pose proof HB; lra).
  apply ln_increasing in A; [|pose proof HN; lra]. unfold Rpower in A. rewrite ln_exp, S_INR in A. unfold t. apply Rmult_lt_reg_r with (ln B); [apply HlB|].
  replace (ln N / ln B * ln B) with (ln N) by (field; pose proof HlB; lra). easy.
Qed.
Lemma t_nonneg : 0 <= t.
Proof. pose proof q_le_t. pose proof (pos_INR q). lra. Qed.
Lemma m_pos j : (j <= q)%nat -> (1 <= n / b ^ j)%nat.
Proof. intros Hj. destruct (ilog_spec b n Hb Hn) as [A _]. fold q in A. apply Nat.div_le_lower_bound. apply Nat.pow_nonzero; lia.
  rewrite Nat.mul_1_r. apply Nat.le_trans with (2 := A). apply Nat.pow_le_mono_r; lia. Qed.
Lemma m_ge1 j : (j <= q)%nat -> 1 <= m j.
Proof. intros Hj. apply (le_INR 1). now apply m_pos. Qed.
Lemma Bj_pos j : 0 < B ^ j. Proof. apply pow_lt. pose proof HB; lra. Qed.
Lemma m_le j : m j <= N / B ^ j.
Proof. pose proof (Nat.mul_div_le n (b ^ j) ltac:(apply Nat.pow_nonzero; lia)) as W. apply le_INR in W. rewrite mult_INR, pow_INR in W.
  apply Rmult_le_reg_l with (B ^ j); [apply Bj_pos|]. replace (B ^ j * (N / B ^ j)) with N by (field; pose proof (Bj_pos j); lra). easy. Qed.
Lemma m_gt j : N / B ^ j - 1 <= m j.
Proof. pose proof (Nat.mul_succ_div_gt n (b ^ j) ltac:(apply Nat.pow_nonzero; lia)) as W. apply lt_INR in W. rewrite mult_INR, pow_INR, S_INR in W.
  apply Rmult_le_reg_l with (B ^ j); [apply Bj_pos|]. rewrite Rmult_minus_distr_l. replace (B ^ j * (N / B ^ j)) with N by (field; pose proof (Bj_pos j); lra). lra. Qed.
Lemma m_zero : m O = N. Proof. cbv beta. change (b ^ 0)%nat with 1%nat. now rewrite Nat.div_1_r. Qed.
Lemma real_ge1 j : (j <= q)%nat -> 1 <= N / B ^ j.
Proof. intros. pose proof (m_ge1 j H). pose proof (m_le j). lra. Qed.
Lemma m_last : (1 <= n / b ^ q < b)%nat.
Proof. split. apply m_pos; lia. destruct (ilog_spec b n Hb Hn) as [_ A]. fold q in A. apply Nat.div_lt_upper_bound. apply Nat.pow_nonzero; lia.
  rewrite Nat.pow_succ_r', Nat.mul_comm in A. easy. Qed.

Lemma power_term k j : (al ^ j * Rpower (N / B ^ j) k) = Rpower N k * (al / Rpower B k) ^ j.
Proof.
  pose proof HB. pose proof HN. rewrite Rp_div by (try apply Bj_pos; lra). rewrite <- (Rpower_pow j B) by lra. rewrite Rpower_mult, (Rmult_comm (INR j)), <- Rpower_mult.
  rewrite (Rpower_pow j (Rpower B k)) by apply Rp_pos. rewrite <- (Rpower_pow j (_ / _)) by (apply Rdiv_lt_0_compat; [easy|apply Rp_pos]).
  rewrite Rp_div by (try apply Rp_pos; easy). rewrite !Rpower_pow by (try apply Rp_pos; easy). field. apply pow_nonzero. pose proof (Rp_pos B k). lra.
Qed.
Lemma powj_pos j : 0 < al ^ j. Proof. now apply pow_lt. Qed.
Lemma ratio_t p : 0 < p -> Rpower p t * Rpower (al / p) t = Rpower al t.
Proof. intros Hp. rewrite Rp_div by easy. field. pose proof (Rp_pos p t). lra. Qed.
Lemma r_q_le r : 1 <= r -> r ^ q <= Rpower r t.
Proof. intros. rewrite <- Rpower_pow by lra. apply Rp_mono_exp; [easy|apply q_le_t]. Qed.
Lemma r_q_ge r : 1 <= r -> Rpower r t / r <= r ^ q.
Proof. intros. rewrite <- Rp_minus1, <- Rpower_pow by lra. apply Rp_mono_exp; [easy|pose proof t_lt_q; lra]. Qed.
Lemma r_q_ge' r : 0 < r <= 1 -> Rpower r t <= r ^ q.
Proof. intros. rewrite <- Rpower_pow by lra. apply Rp_anti_exp; [easy|apply q_le_t]. Qed.
Lemma r_q_le' r : 0 < r <= 1 -> r ^ q <= Rpower r t / r.
Proof. intros. rewrite <- Rp_minus1, <- Rpower_pow by lra. apply Rp_anti_exp; [easy|pose proof t_lt_q; lra]. Qed.

(** The sum that the bounds are about. *)
Definition SG (g : nat -> R) : R := rsum q (fun j => al ^ j * g (n / b ^ j)%nat).

(** *** Upper bounds *)
Lemma upper_sum_power k : 0 <= k -> SG (fun i => Rpower (INR i) k) <= Rpower N k * rsum q (fun j => (al / Rpower B k) ^ j).
Proof.
  intros Hk. unfold SG. rewrite <- rsum_scal. apply rsum_le. intros j Hj. rewrite <- power_term. apply Rmult_le_compat_l. left; apply powj_pos.
  apply Rp_mono_base; [|apply m_le|easy]. pose proof (m_ge1 j ltac:(lia)). simpl in *. lra.
Qed.
Lemma div_le_bound x y d : 0 < d -> x * d <= y -> x <= y / d.
Proof. intros Hd H. apply Rmult_le_reg_r with d; [easy|]. replace (y / d * d) with y by (field; lra). easy. Qed.
Lemma div_ge_bound x y d : 0 < d -> y <= x * d -> y / d <= x.
Proof. intros Hd H. apply Rmult_le_reg_r with d; [easy|]. replace (y / d * d) with y by (field; lra). easy. Qed.
Lemma upper_power k u : 0 <= k -> power_of_n al B N UPPER_BOUND k = Some u -> SG (fun i => Rpower (INR i) k) <= u.
Proof.
  intros Hk Hu. apply Rle_trans with (1 := upper_sum_power k Hk). unfold power_of_n in Hu.
  pose proof (Rp_pos B k) as Hp. pose proof (Rp_pos N k) as HNk. 
  pose proof (pow_N k) as EN. unfold pow_frac_log, frac_log in Hu. rewrite pow_frac in Hu by easy. fold t in Hu. set (p := Rpower B k) in *. rewrite EN in *. clear EN.
  pose proof (geom q (al / p)) as G. set (s := rsum q (fun j => (al / p) ^ j)) in *.
  assert (Hr : 0 < al / p) by (apply Rdiv_lt_0_compat; easy). pose proof (pow_lt _ q Hr) as Hrq.
  pose proof (ratio_t p Hp) as RT.
  destruct (Rltb al p) eqn:C1; [apply Rltb_true in C1|apply Rltb_false in C1; destruct (Reqb al p) eqn:C2; [apply Reqb_true in C2|apply Reqb_false in C2]]; injection Hu as <-.
  - apply div_le_bound; [lra|]. rewrite !Rmult_assoc. apply Rmult_le_compat_l; [lra|].
    replace (s * (p - al)) with (p * - ((al / p - 1) * s)) by (field; lra). rewrite G. nra.
  - apply Rmult_le_compat_l; [lra|]. unfold s. rewrite C2. replace (p / p) with 1 by (field; lra). rewrite geom_one. apply q_le_t.
  - apply div_le_bound; [lra|]. replace (Rpower p t * s * (al - p)) with (p * (Rpower p t * ((al / p - 1) * s))) by (field; lra). rewrite G.
    apply Rmult_le_compat_l; [lra|]. rewrite <- RT. rewrite Rmult_minus_distr_l, Rmult_1_r. apply Rplus_le_compat_r, Rmult_le_compat_l; [lra|].
    apply r_q_le. apply Rmult_le_reg_r with p; [lra|]. replace (al / p * p) with al by (field; lra). lra.
Qed.
Lemma log_m j : (j < q)%nat -> 0 <= ln (m j) <= ln B * (t - INR j).
Proof.
  intros Hj. pose proof (m_ge1 j ltac:(lia)). split. now apply ln_nonneg. pose proof HB. pose proof HN.
  replace (ln B * (t - INR j)) with (ln (N / B ^ j)). apply ln_mono; [simpl in *; lra|apply m_le].
  unfold Rdiv. rewrite ln_mult by (try apply Rinv_0_lt_compat, Bj_pos; lra). rewrite ln_Rinv by apply Bj_pos. rewrite <- Rpower_pow by lra. unfold Rpower at 1. rewrite ln_exp.
  unfold t. field. pose proof HlB; lra.
Qed.
Lemma upper_sum_log k : 0 <= k -> SG (fun i => Rpower (INR i) k * ln (INR i)) <= Rpower N k * ln B * rsum q (fun j => (al / Rpower B k) ^ j * (t - INR j)).
Proof.
  intros Hk. unfold SG. rewrite <- rsum_scal. apply rsum_le. intros j Hj.
  replace (Rpower N k * ln B * ((al / Rpower B k) ^ j * (t - INR j))) with ((Rpower N k * (al / Rpower B k) ^ j) * (ln B * (t - INR j))) by ring.
  rewrite <- power_term, Rmult_assoc. apply Rmult_le_compat_l. left; apply powj_pos.
  destruct (log_m j Hj) as [L1 L2]. pose proof (m_ge1 j ltac:(lia)). apply Rmult_le_compat; [left; apply Rp_pos|easy| |easy].
  apply Rp_mono_base; [simpl in *; lra|apply m_le|easy].
Qed.
Lemma upper_log_one : rsum q (fun j => 1 ^ j * (t - INR j)) <= t * (t + 1) / 2.
Proof. rewrite arith_sum. pose proof q_le_t. nra. Qed.
Lemma upper_log_ne r : 0 < r -> r <> 1 -> rsum q (fun j => r ^ j * (t - INR j)) * ((r - 1) * (r - 1)) <= r * Rpower r t - (r - 1) * t - r.
Proof.
  intros Hr H1. rewrite Rmult_comm, arith_geom. pose proof q_le_t as Q1.
  assert (E : Rpower r t = r ^ q * Rpower r (t - INR q)). { rewrite <- Rpower_pow by easy. rewrite <- Rpower_plus. f_equal; ring. }
  rewrite E. pose proof (bernoulli_ge r (t - INR q + 1) Hr ltac:(lra)) as W. rewrite Rp_plus1 in W by easy. pose proof (pow_lt r q Hr). nra.
Qed.
Lemma upper_logarithm u : logarithm al B N UPPER_BOUND = Some u -> SG (fun i => Rpower (INR i) 0 * ln (INR i)) <= u.
Proof.
  intros Hu. apply Rle_trans with (1 := upper_sum_log 0 ltac:(lra)). rewrite !Rp_zero. unfold logarithm, pow_frac_log, frac_log in Hu. rewrite pow_frac in Hu by easy. fold t in Hu.
  replace (al / 1) with al by field. rewrite Rmult_1_l. pose proof HlB as HlB.
  destruct (Reqb al 1) eqn:C; [apply Reqb_true in C|apply Reqb_false in C]; injection Hu as <-.
  - rewrite C. replace (1 / 2 * ln N * (t + 1)) with (ln B * (t * (t + 1) / 2)) by (unfold t; field; lra). apply Rmult_le_compat_l; [lra|apply upper_log_one].
  - assert (0 < (al - 1) * (al - 1)) by nra. replace (ln B / ((al - 1) * (al - 1)) * (al * Rpower al t - (al - 1) * ln N / ln B - al)) with (ln B * ((al * Rpower al t - (al - 1) * t - al) / ((al - 1) * (al - 1)))) by (unfold t; field; lra).
    apply Rmult_le_compat_l; [lra|]. apply div_le_bound; [easy|]. now apply upper_log_ne.
Qed.
Lemma upper_powlog k u : 0 <= k -> power_times_logarithm al B N UPPER_BOUND k = Some u -> SG (fun i => Rpower (INR i) k * ln (INR i)) <= u.
Proof.
  intros Hk Hu. apply Rle_trans with (1 := upper_sum_log k Hk). unfold power_times_logarithm, pow_frac_log, frac_log in Hu. rewrite pow_frac in Hu by easy. fold t in Hu.
  pose proof HlB as HlB. pose proof (Rp_pos B k) as Hp. pose proof (ratio_t _ Hp) as RT. pose proof (pow_N k) as EN. rewrite EN in *. clear EN. set (p := Rpower B k) in *.
  assert (H1 : 1 <= Rpower p t). { rewrite <- (Rp_zero p). apply Rp_mono_exp; [|apply t_nonneg]. unfold p. rewrite <- (Rp_zero B). apply Rp_mono_exp; [pose proof HB; lra|easy]. }
  destruct (Reqb al p) eqn:C; [apply Reqb_true in C|apply Reqb_false in C]; injection Hu as <-.
  - rewrite C. replace (p / p) with 1 by (field; lra). replace (1 / 2 * (Rpower p t * ln N) * (t + 1)) with (Rpower p t * ln B * (t * (t + 1) / 2)) by (unfold t; field; lra).
    apply Rmult_le_compat_l; [nra|apply upper_log_one].
  - assert (Hr : 0 < al / p) by (apply Rdiv_lt_0_compat; easy). set (r := al / p) in *.
    assert (Ea : al = r * p) by (unfold r; field; lra). assert (Hr1 : r <> 1). { intros E. apply C. rewrite Ea, E; ring. }
    assert (0 < (r - 1) * (r - 1)) by nra.
    pose proof (upper_log_ne r Hr Hr1) as W. set (s := rsum q _) in *.
    apply Rle_trans with (ln B / ((r - 1) * (r - 1)) * (r * Rpower al t - (r - 1) * (Rpower p t * t) - r * Rpower p t)).
    + rewrite <- RT. replace (ln B / ((r - 1) * (r - 1)) * (r * (Rpower p t * Rpower r t) - (r - 1) * (Rpower p t * t) - r * Rpower p t))
        with (Rpower p t * ln B * ((r * Rpower r t - (r - 1) * t - r) / ((r - 1) * (r - 1)))) by (field; lra).
      apply Rmult_le_compat_l; [nra|]. apply div_le_bound; easy.
    + replace (p * ln B / ((al - p) * (al - p)) * (al * Rpower al t - (al - p) * (Rpower p t * ln N) / ln B - al))
        with (ln B / ((r - 1) * (r - 1)) * (r * Rpower al t - (r - 1) * (Rpower p t * t) - r)).
      2:{ assert (Et : ln N = t * ln B) by (unfold t; field; lra). rewrite Et. clear W RT. generalize (Rpower al t) (Rpower p t). intros X Y. clearbody r t p. rewrite Ea. field. repeat split; try lra. }
      apply Rmult_le_compat_l. { left. apply Rdiv_lt_0_compat; lra. } nra.
Qed.

(** *** The exponential *)
Lemma upper_exp c u : 1 < c -> 1 <= al -> exp_function al B N UPPER_BOUND c = Some u -> SG (fun i => Rpower c (INR i)) <= u.
Proof.
  intros Hc Ha Hu. unfold exp_function in Hu. set (tm := Rpower c (B * B)) in *. set (w := Rpower c B) in *.
  destruct (Rltb (al * w) tm) eqn:C; [apply Rltb_true in C|easy]. injection Hu as <-.
  pose proof (Rp_pos c (B * B) : 0 < tm) as Htm. pose proof (Rp_pos c B : 0 < w) as Hw. pose proof HB. pose proof HN.
  set (rho := al * w / tm). assert (Hrho : 0 < rho < 1). { unfold rho. split. apply Rdiv_lt_0_compat; nra. apply Rmult_lt_reg_r with tm; [easy|]. replace (al * w / tm * tm) with (al * w) by (field; lra). lra. }
  replace (al * tm / (tm - al * w) * Rpower c (N / B)) with (al * Rpower c (N / B) / (1 - rho)) by (unfold rho; field; split; lra).
  assert (Hpos : 0 < al * Rpower c (N / B) / (1 - rho)). { apply Rdiv_lt_0_compat; [|lra]. apply Rmult_lt_0_compat; [easy|apply Rp_pos]. }
  unfold SG. remember q as q0 eqn:Eq. destruct q0 as [|q0]. { simpl. pose proof (Rp_pos c N). lra. }
  rewrite rsum_first. change (b ^ 0)%nat with 1%nat. rewrite Nat.div_1_r. simpl (al ^ 0). rewrite Rmult_1_l. apply Rplus_le_compat_l.
  assert (Hterm : forall j, (j < q0)%nat -> al ^ S j * Rpower c (INR (n / b ^ S j)) <= al * Rpower c (N / B) * rho ^ j).
  { intros j Hj. apply Rle_trans with (al ^ S j * Rpower c (N / B ^ S j)).
    { apply Rmult_le_compat_l; [left; apply powj_pos; easy|]. apply Rp_mono_exp; [lra|apply m_le]. }
    induction j as [|j IHj]. { rewrite !pow_1. change (rho ^ 0) with 1. right; ring. }
    specialize (IHj ltac:(lia)). assert (Hbig : B <= N / B ^ S (S j)).
    { pose proof (real_ge1 (S (S (S j))) ltac:(lia)) as W. apply Rmult_le_compat_l with (r := B) in W; [|lra]. rewrite Rmult_1_r in W.
      replace (B * (N / B ^ S (S (S j)))) with (N / B ^ S (S j)) in W. easy. simpl. field. pose proof (Bj_pos j). lra. }
    assert (Hstep : Rpower c (N / B ^ S (S j)) * tm <= w * Rpower c (N / B ^ S j)).
    { unfold tm, w. rewrite <- !Rpower_plus. apply Rp_mono_exp; [lra|]. replace (N / B ^ S j) with (B * (N / B ^ S (S j))). nra. simpl. field. pose proof (Bj_pos j). lra. }
    replace (al ^ S (S j) * Rpower c (N / B ^ S (S j))) with (al ^ S j * (al * (Rpower c (N / B ^ S (S j)) * tm) / tm)) by (simpl; field; lra).
    apply Rle_trans with ((al ^ S j * Rpower c (N / B ^ S j)) * rho).
    { unfold rho. replace (al ^ S j * Rpower c (N / B ^ S j) * (al * w / tm)) with (al ^ S j * (al * (w * Rpower c (N / B ^ S j)) / tm)) by (field; lra).
      apply Rmult_le_compat_l; [left; apply powj_pos; easy|]. apply Rmult_le_compat_r; [left; apply Rinv_0_lt_compat; easy|]. apply Rmult_le_compat_l; lra. }
    simpl (rho ^ S j). replace (al * Rpower c (N / B) * (rho * rho ^ j)) with (al * Rpower c (N / B) * rho ^ j * rho) by ring. apply Rmult_le_compat_r; lra. }
  apply Rle_trans with (1 := rsum_le _ _ _ Hterm). rewrite rsum_scal. apply div_le_bound; [lra|]. pose proof (Rp_pos c (N / B)).
  rewrite Rmult_assoc. rewrite <- (Rmult_1_r (al * Rpower c (N / B))) at 2. apply Rmult_le_compat_l; [nra|].
  pose proof (geom q0 rho : (rho - 1) * rsum q0 (pow rho) = rho ^ q0 - 1). pose proof (pow_lt rho q0 ltac:(lra)). nra.
Qed.
Lemma SG_first g : (b <= n)%nat -> (forall i, 0 <= g i) -> g n <= SG g.
Proof.
  intros Hbn Hg. pose proof (ilog_pos b n Hb Hbn) as Hq. unfold SG. fold q in Hq. remember q as q0 eqn:Eq. destruct q0 as [|q0]; [lia|]. rewrite rsum_first.
  change (b ^ 0)%nat with 1%nat. rewrite Nat.div_1_r. simpl (al ^ 0). rewrite Rmult_1_l. rewrite <- (Rplus_0_r (g n)) at 1. apply Rplus_le_compat_l.
  apply rsum_nonneg. intros j _. apply Rmult_le_pos; [left; apply powj_pos; easy|apply Hg].
Qed.
Lemma lower_exp c : (b <= n)%nat -> Rpower c N <= SG (fun i => Rpower c (INR i)).
Proof. intros Hbn. apply (SG_first (fun i => Rpower c (INR i)) Hbn). intros; left; apply Rp_pos. Qed.

(** *** Lower bounds for n^k *)
Lemma lower_const u : power_of_n al B N LOWER_BOUND 0 = Some u -> u <= SG (fun i => Rpower (INR i) 0).
Proof.
  unfold power_of_n. replace (Reqb 0 0) with true by (symmetry; now apply Reqb_true). unfold pow_frac_log, frac_log. rewrite pow_frac by easy. fold t. rewrite Rp_inv1 by easy.
  unfold SG. rewrite (rsum_ext q _ (fun j => al ^ j)) by (intros; rewrite Rp_zero; ring). intros Hu.
  destruct (Reqb al 1) eqn:C; [apply Reqb_true in C|apply Reqb_false in C]; injection Hu as <-.
  - rewrite C, geom_one. pose proof t_lt_q. lra.
  - pose proof (geom q al) as G. set (s := rsum q _) in *.
    replace (1 - Rpower al t * / al) with (1 - Rpower al t / al) by reflexivity.
    destruct (Rle_dec 1 al) as [L|L].
    + pose proof (r_q_ge al L) as W. replace ((1 - Rpower al t / al) / (1 - al)) with ((Rpower al t / al - 1) / (al - 1)) by (field; lra). apply div_ge_bound; lra.
    + pose proof (r_q_le' al ltac:(lra)) as W. apply div_ge_bound; lra.
Qed.
(** the sum without its first term, which has no loss *)
Lemma lower_sum_ge1 k : 1 <= k -> (1 <= q)%nat ->
  Rpower N k * rsum q (fun j => (al / Rpower B k) ^ j) - k * Rpower N (k - 1) * (rsum q (fun j => (al / Rpower B (k - 1)) ^ j) - 1) <= SG (fun i => Rpower (INR i) k).
Proof.
  intros Hk Hq. unfold SG. assert (Hm1 : forall j, (j < q)%nat -> 1 <= INR (n / b ^ j)) by (intros j Hj; apply (m_ge1 j); lia).
  assert (Hr1 : forall j, (j < q)%nat -> 1 <= N / B ^ j) by (intros j Hj; apply (real_ge1 j); lia).
  remember q as q0 eqn:Eq. destruct q0 as [|q0]; [lia|]. rewrite !rsum_first. simpl (_ ^ 0). change (b ^ 0)%nat with 1%nat. rewrite Nat.div_1_r.
  rewrite (Rmult_plus_distr_l (Rpower N k)), Rmult_1_r, Rmult_1_l. replace (1 + rsum q0 (fun j => (al / Rpower B (k - 1)) ^ S j) - 1) with (rsum q0 (fun j => (al / Rpower B (k - 1)) ^ S j)) by ring.
  unfold Rminus at 1. rewrite Rplus_assoc. apply Rplus_le_compat_l.
  replace (- (k * Rpower N (k - 1) * rsum q0 (fun j => (al / Rpower B (k - 1)) ^ S j))) with ((- (k * Rpower N (k - 1))) * rsum q0 (fun j => (al / Rpower B (k - 1)) ^ S j)) by ring.
  rewrite <- !rsum_scal, <- rsum_plus. apply rsum_le. intros j Hj.
  replace (Rpower N k * (al / Rpower B k) ^ S j + - (k * Rpower N (k - 1)) * (al / Rpower B (k - 1)) ^ S j) with (Rpower N k * (al / Rpower B k) ^ S j - k * (Rpower N (k - 1) * (al / Rpower B (k - 1)) ^ S j)) by ring.
  rewrite <- !power_term. replace (al ^ S j * Rpower (N / B ^ S j) k - k * (al ^ S j * Rpower (N / B ^ S j) (k - 1))) with (al ^ S j * (Rpower (N / B ^ S j) k - k * Rpower (N / B ^ S j) (k - 1))) by ring.
  apply Rmult_le_compat_l; [left; apply powj_pos; easy|]. apply floor_loss_ge1; [easy|apply Hr1; lia|apply m_gt|apply Hm1; lia].
Qed.
Lemma lower_sum_lt1 k : 0 <= k <= 1 -> (1 <= q)%nat ->
  Rpower N k * rsum q (fun j => (al / Rpower B k) ^ j) - (rsum q (fun j => al ^ j) - 1) <= SG (fun i => Rpower (INR i) k).
Proof.
  intros Hk Hq. unfold SG. assert (Hm1 : forall j, (j < q)%nat -> 1 <= INR (n / b ^ j)) by (intros j Hj; apply (m_ge1 j); lia).
  assert (Hr1 : forall j, (j < q)%nat -> 1 <= N / B ^ j) by (intros j Hj; apply (real_ge1 j); lia).
  remember q as q0 eqn:Eq. destruct q0 as [|q0]; [lia|]. rewrite !rsum_first. simpl (_ ^ 0). change (b ^ 0)%nat with 1%nat. rewrite Nat.div_1_r.
  rewrite (Rmult_plus_distr_l (Rpower N k)), Rmult_1_r, Rmult_1_l. replace (1 + rsum q0 (fun j => al ^ S j) - 1) with (rsum q0 (fun j => al ^ S j)) by ring.
  unfold Rminus at 1. rewrite Rplus_assoc. apply Rplus_le_compat_l.
  replace (- rsum q0 (fun j => al ^ S j)) with ((-1) * rsum q0 (fun j => al ^ S j)) by ring.
  rewrite <- !rsum_scal, <- rsum_plus. apply rsum_le. intros j Hj.
  rewrite <- !power_term. replace (al ^ S j * Rpower (N / B ^ S j) k + -1 * al ^ S j) with (al ^ S j * (Rpower (N / B ^ S j) k - 1)) by ring.
  apply Rmult_le_compat_l; [left; apply powj_pos; easy|]. apply floor_loss_lt1; [easy|apply Hr1; lia|apply m_gt|apply Hm1; lia].
Qed.
Lemma q_cases : (1 <= q)%nat /\ (b <= n)%nat \/ q = O /\ (n < b)%nat.
Proof. destruct (Nat.lt_ge_cases n b) as [L|L]. right; split; [apply ilog_small; lia|easy]. left; split; [now apply ilog_pos|easy]. Qed.
Lemma k_zero k : k <> 0 -> Reqb k 0 = false. Proof. intros; now apply Reqb_false. Qed.

(** 1 <= k, al = b^(k-1): all n *)
Lemma lower_a k u : 1 <= k -> al = Rpower B (k - 1) -> power_of_n al B N LOWER_BOUND k = Some u -> u <= SG (fun i => Rpower (INR i) k).
Proof.
  intros Hk Ea. unfold power_of_n. rewrite k_zero by lra. replace (Rltb k 1) with false by (symmetry; apply Rltb_false; lra).
  replace (Rltb al (Rpower B (k - 1))) with false by (symmetry; apply Rltb_false; lra). replace (Reqb al (Rpower B (k - 1))) with true by (symmetry; now apply Reqb_true).
  intros Hu; injection Hu as <-. unfold frac_log. fold t. pose proof HB as HB2. pose proof HN as HN1. rewrite Rp_two by lra.
  pose proof (Rp_pos N (k - 1)) as HP. set (P := Rpower N (k - 1)) in *.
  assert (EP : Rpower N k = P * N). { unfold P. rewrite Rp_minus1 by lra. field. lra. }
  destruct q_cases as [[Hq Hbn]|[Hq Hbn]].
  - apply Rle_trans with (2 := lower_sum_ge1 k Hk Hq). fold P. rewrite EP.
    assert (E1 : al / Rpower B k = / B). { rewrite Ea, Rp_minus1 by lra. field. split; [lra|]. pose proof (Rp_pos B k); lra. }
    rewrite E1, <- Ea. replace (al / al) with 1 by (field; lra). rewrite geom_one.
    pose proof (geom q (/ B)) as G. set (s := rsum q _) in *.
    assert (Hs : B / (B - 1) - B * B / (B - 1) / N <= s).
    { assert (Hi : 0 < / B <= 1). { split. apply Rinv_0_lt_compat; lra. rewrite <- Rinv_1. apply Rinv_le_contravar; lra. }
      pose proof (r_q_le' (/ B) Hi) as W. unfold Rdiv in W. rewrite Rinv_inv in W.
      assert (EN : Rpower (/ B) t = / N). { rewrite N_eq at 1. unfold Rpower. rewrite ln_Rinv by lra. rewrite <- exp_Ropp. f_equal; ring. }
      rewrite EN in W. replace s with (B / (B - 1) * - ((/ B - 1) * s)) by (field; lra). rewrite G.
      apply Rle_trans with (B / (B - 1) * (1 - / N * B)). { right. field. lra. }
      apply Rmult_le_compat_l. { left. apply Rdiv_lt_0_compat; lra. } lra. }
    pose proof q_le_t. assert (P * N * (B / (B - 1) - B * B / (B - 1) / N) <= P * N * s) by (apply Rmult_le_compat_l; nra).
    replace (P * N * (B / (B - 1) - B * B / (B - 1) / N)) with (B / (B - 1) * (P * N) - B * B / (B - 1) * P) in H0 by (field; lra).
    assert (P * (1 - k * t) <= P * (- k * (INR q - 1))) by (apply Rmult_le_compat_l; nra). lra.
  - unfold SG. rewrite Hq. simpl rsum. rewrite EP. assert (HNB : N <= B - 1). { assert (H : (n + 1 <= b)%nat) by lia. apply le_INR in H. rewrite plus_INR in H. simpl in H. lra. }
    assert (B / (B - 1) * N - B * B / (B - 1) + 1 <= 0).
    { apply Rmult_le_reg_r with (B - 1); [lra|]. rewrite Rmult_0_l. replace ((B / (B - 1) * N - B * B / (B - 1) + 1) * (B - 1)) with (B * N - B * B + (B - 1)) by (field; lra). nra. }
    pose proof t_nonneg. assert (0 <= k * t) by nra.
    replace (B / (B - 1) * (P * N) - (B * B / (B - 1) + k * t - 1) * P) with (P * (B / (B - 1) * N - B * B / (B - 1) + 1 - k * t)) by (field; lra). nra.
Qed.
(** 1 <= k, b^(k-1) < al < b^k, n >= b *)
Lemma lower_b k u : 1 <= k -> (b <= n)%nat -> Rpower B (k - 1) < al < Rpower B k -> power_of_n al B N LOWER_BOUND k = Some u -> u <= SG (fun i => Rpower (INR i) k).
Proof.
  intros Hk Hbn Ea. unfold power_of_n. rewrite k_zero by lra. replace (Rltb k 1) with false by (symmetry; apply Rltb_false; lra).
  replace (Rltb al (Rpower B (k - 1))) with false by (symmetry; apply Rltb_false; lra). replace (Reqb al (Rpower B (k - 1))) with false by (symmetry; apply Reqb_false; lra).
  replace (Rltb al (Rpower B k)) with true by (symmetry; apply Rltb_true; lra). unfold pow_frac_log. rewrite pow_frac by easy.
  intros Hu; assert (Hu2 := f_equal (fun o => match o with Some v => v | None => 0 end) Hu); cbv beta iota in Hu2; rewrite <- Hu2; clear Hu Hu2 u.
  destruct q_cases as [[Hq _]|[_ Hq]]; [|lia]. apply Rle_trans with (2 := lower_sum_ge1 k Hk Hq).
  pose proof (pow_N k) as E1. pose proof (pow_N (k - 1)) as E2. pose proof (Rp_pos B k) as Hp. pose proof (Rp_pos B (k - 1)) as Hp'.
  set (p := Rpower B k) in *. set (p' := Rpower B (k - 1)) in *. rewrite E1, E2. clear E1 E2.
  pose proof (Rp_pos p t). pose proof (Rp_pos p' t). pose proof (ratio_t p Hp) as R1. pose proof (ratio_t p' Hp') as R2.
  assert (Hr : 0 < al / p <= 1). { split. apply Rdiv_lt_0_compat; lra. apply Rmult_le_reg_r with p; [lra|]. replace (al / p * p) with al by (field; lra). lra. }
  assert (Hs : 1 <= al / p'). { apply Rmult_le_reg_r with p'; [lra|]. replace (al / p' * p') with al by (field; lra). lra. }
  pose proof (r_q_le' _ Hr) as W1. pose proof (r_q_le _ Hs) as W2. pose proof (geom q (al / p)) as G1. pose proof (geom q (al / p')) as G2.
  set (s1 := rsum q (fun j => (al / p) ^ j)) in *. set (s2 := rsum q (fun j => (al / p') ^ j)) in *.
  assert (F1 : p / (p - al) * (Rpower p t - Rpower al t * (p / al)) <= Rpower p t * s1).
  { replace (Rpower p t * s1) with (p / (p - al) * (Rpower p t * - ((al / p - 1) * s1))) by (field; lra). rewrite G1. apply Rmult_le_compat_l. left; apply Rdiv_lt_0_compat; lra.
    rewrite <- R1. replace (Rpower p t - Rpower p t * Rpower (al / p) t * (p / al)) with (Rpower p t * (1 - Rpower (al / p) t / (al / p))) by (field; lra). apply Rmult_le_compat_l; lra. }
  assert (F2 : Rpower p' t * (s2 - 1) <= p' / (al - p') * (Rpower al t - al / p' * Rpower p' t)).
  { replace (Rpower p' t * (s2 - 1)) with (p' / (al - p') * (Rpower p' t * ((al / p' - 1) * s2 - (al / p' - 1)))) by (field; lra). rewrite G2. apply Rmult_le_compat_l. left; apply Rdiv_lt_0_compat; lra.
    rewrite <- R2. replace (Rpower p' t * Rpower (al / p') t - al / p' * Rpower p' t) with (Rpower p' t * (Rpower (al / p') t - al / p')) by ring. apply Rmult_le_compat_l; lra. }
  match goal with |- ?L <= _ => replace L with (p / (p - al) * (Rpower p t - Rpower al t * (p / al)) - k * (p' / (al - p') * (Rpower al t - al / p' * Rpower p' t))) end.
  { assert (k * (Rpower p' t * (s2 - 1)) <= k * (p' / (al - p') * (Rpower al t - al / p' * Rpower p' t))) by (apply Rmult_le_compat_l; lra). lra. }
  field. repeat split; lra.
Qed.
(** 1 <= k, al = b^k, n >= b *)
Lemma lower_c k u : 1 <= k -> (b <= n)%nat -> al = Rpower B k -> power_of_n al B N LOWER_BOUND k = Some u -> u <= SG (fun i => Rpower (INR i) k).
Proof.
  intros Hk Hbn Ea. pose proof HB as HB2. pose proof HN as HN1. pose proof (Rp_pos B k) as Hp.
  assert (Ea' : Rpower B (k - 1) = al / B) by (rewrite Rp_minus1, <- Ea by lra; reflexivity).
  assert (Hlt : al / B < al). { apply Rmult_lt_reg_r with B; [lra|]. replace (al / B * B) with al by (field; lra). nra. }
  unfold power_of_n. rewrite k_zero by lra. replace (Rltb k 1) with false by (symmetry; apply Rltb_false; lra).
  rewrite Ea', <- Ea. replace (Rltb al (al / B)) with false by (symmetry; apply Rltb_false; lra). replace (Reqb al (al / B)) with false by (symmetry; apply Reqb_false; lra).
  replace (Rltb al al) with false by (symmetry; apply Rltb_false; lra). replace (Reqb al al) with true by (symmetry; now apply Reqb_true). unfold frac_log. fold t.
  intros Hu; assert (Hu2 := f_equal (fun o => match o with Some v => v | None => 0 end) Hu); cbv beta iota in Hu2; rewrite <- Hu2; clear Hu Hu2 u.
  destruct q_cases as [[Hq _]|[_ Hq]]; [|lia]. apply Rle_trans with (2 := lower_sum_ge1 k Hk Hq). rewrite Ea', <- Ea.
  replace (al / (al / B)) with B by (field; lra). replace (al / al) with 1 by (field; lra). rewrite geom_one.
  pose proof (Rp_pos N (k - 1)) as HP. assert (EP : Rpower N k = Rpower N (k - 1) * N) by (rewrite Rp_minus1 by lra; field; lra). set (P := Rpower N (k - 1)) in *. rewrite EP.
  pose proof (geom q B) as G. set (s := rsum q _) in *.
  assert (HBq : B ^ q <= N). { destruct (ilog_spec b n Hb Hn) as [A _]. apply le_INR in A. rewrite pow_INR in A. exact A. }
  pose proof t_lt_q. 
  assert (F : s - 1 <= (N - B) / (B - 1)). { apply div_le_bound; [lra|]. nra. }
  assert (F2 : k * P * (s - 1) <= k * P * ((N - B) / (B - 1))) by (apply Rmult_le_compat_l; nra).
  assert (F3 : P * N * (t - 1) <= P * N * INR q) by (apply Rmult_le_compat_l; nra).
  replace (P * N * (t - 1 - k / (B - 1)) + k * P * B / (B - 1)) with (P * N * (t - 1) - k * P * ((N - B) / (B - 1))) by (field; lra). lra.
Qed.
(** 0 < k < 1 *)
Lemma lower_lt1 k u : 0 < k < 1 -> al <> Rpower B k -> al < Rpower B k \/ (b <= n)%nat -> al <= 1 \/ al * al <= Rpower B k * Rpower B k * (al - 1) ->
  power_of_n al B N LOWER_BOUND k = Some u -> u <= SG (fun i => Rpower (INR i) k).
Proof.
  intros Hk Hne Hbn Hg. unfold power_of_n. rewrite k_zero by lra. replace (Rltb k 1) with true by (symmetry; apply Rltb_true; lra).
  pose proof HB as HB2. pose proof HN as HN1. unfold pow_frac_log, frac_log. rewrite pow_frac by easy. fold t. rewrite !Rp_one. 
  pose proof (pow_N k) as E1. pose proof (Rp_pos B k) as Hp.
  assert (Hp1 : 1 < Rpower B k). { rewrite <- (Rp_one k). unfold Rpower. apply exp_increasing. rewrite ln_1. pose proof HlB. nra. }
  assert (Hloss : (1 <= q)%nat -> rsum q (fun j => al ^ j) - 1 <= (t - 1) + Rpower al t * (Rpower B k / al) * (Rpower B k / al)).
  { intros Hq. pose proof (Rp_pos al t) as Hat. pose proof q_le_t. assert (1 <= INR q) by (apply (le_INR 1); easy). assert (0 < Rpower B k / al) by (apply Rdiv_lt_0_compat; lra).
    assert (0 < Rpower al t * (Rpower B k / al) * (Rpower B k / al)) by (apply Rmult_lt_0_compat; [apply Rmult_lt_0_compat|]; easy).
    destruct Hg as [Hg|Hg].
    - assert (rsum q (fun j => al ^ j) <= INR q). { rewrite <- geom_one. apply rsum_le. intros j _. apply pow_incr. lra. } lra.
    - destruct (Rle_dec al 1) as [L|L]. { exfalso. assert (0 < Rpower B k * Rpower B k) by nra. set (pp := Rpower B k * Rpower B k) in *. clearbody pp. nra. }
      pose proof (geom q al) as G. set (s := rsum q _) in *. pose proof (r_q_le al ltac:(lra)) as W.
      assert (s <= Rpower al t * (Rpower B k / al) * (Rpower B k / al)); [|lra]. apply Rmult_le_reg_r with (al - 1); [lra|].
      apply Rle_trans with (Rpower al t). { lra. }
      replace (Rpower al t * (Rpower B k / al) * (Rpower B k / al) * (al - 1)) with (Rpower al t * (Rpower B k * Rpower B k * (al - 1) / (al * al))) by (field; lra).
      rewrite <- (Rmult_1_r (Rpower al t)) at 1. apply Rmult_le_compat_l; [lra|]. apply div_le_bound; nra. }
  set (p := Rpower B k) in *. rewrite E1. pose proof (Rp_pos p t) as HP. pose proof (ratio_t p Hp) as R1. pose proof t_nonneg as Ht.
  assert (Hr0 : 0 < al / p) by (apply Rdiv_lt_0_compat; lra). assert (Hr0' : 0 < p / al) by (apply Rdiv_lt_0_compat; lra). rewrite (Rp_two (p / al)) by easy.
  pose proof (geom q (al / p)) as G1. pose proof (lower_sum_lt1 k ltac:(lra)) as LS. fold p in LS. rewrite E1 in LS. set (s1 := rsum q (fun j => (al / p) ^ j)) in *.
  replace (Reqb al p) with false by (symmetry; now apply Reqb_false).
  destruct (Rltb al p) eqn:C; [apply Rltb_true in C|apply Rltb_false in C]; intros Hu; assert (Hu2 := f_equal (fun o => match o with Some v => v | None => 0 end) Hu); cbv beta iota in Hu2; rewrite <- Hu2; clear Hu Hu2 u.
  - assert (Hr : 0 < al / p <= 1). { split; [easy|]. apply Rmult_le_reg_r with p; [lra|]. replace (al / p * p) with al by (field; lra). lra. }
    destruct q_cases as [[Hq _]|[Hq _]].
    + apply Rle_trans with (2 := LS Hq). specialize (Hloss Hq). pose proof (r_q_le' _ Hr) as W1.
      assert (F1 : p / (p - al) * (Rpower p t - Rpower al t * (p / al)) <= Rpower p t * s1).
      { replace (Rpower p t * s1) with (p / (p - al) * (Rpower p t * - ((al / p - 1) * s1))) by (field; lra). rewrite G1. apply Rmult_le_compat_l. left; apply Rdiv_lt_0_compat; lra.
        rewrite <- R1. replace (Rpower p t - Rpower p t * Rpower (al / p) t * (p / al)) with (Rpower p t * (1 - Rpower (al / p) t / (al / p))) by (field; lra). apply Rmult_le_compat_l; lra. }
      match goal with |- ?L <= _ => replace L with (p / (p - al) * (Rpower p t - Rpower al t * (p / al)) - (t - 1 + Rpower al t * (p / al) * (p / al))) by (field; lra) end. lra.
    + unfold SG. rewrite Hq. simpl rsum. assert (Ht1 : t < 1). { pose proof t_lt_q. rewrite Hq in H. simpl in H. lra. }
      assert (HA : Rpower p t <= Rpower al t * (p / al)).
      { rewrite <- R1. rewrite Rmult_assoc. rewrite <- (Rmult_1_r (Rpower p t)) at 1. apply Rmult_le_compat_l; [lra|].
        replace (Rpower (al / p) t * (p / al)) with (Rpower (al / p) (t - 1)) by (rewrite Rp_minus1 by easy; field; lra). apply Rle_trans with (Rpower (al / p) 0); [rewrite Rp_zero; lra|]. apply Rp_anti_exp; [easy|lra]. }
      assert (H1p : 1 <= Rpower p t) by (rewrite <- (Rp_zero p); apply Rp_mono_exp; lra).
      assert (Hpa : 1 <= p / al). { apply Rmult_le_reg_r with al; [lra|]. replace (p / al * al) with p by (field; lra). lra. }
      match goal with |- ?L <= _ => replace L with (p / (p - al) * (Rpower p t - Rpower al t * (p / al)) - (Rpower al t * (p / al)) * (p / al) + 1 - t) by (field; lra) end.
      assert (0 < p / (p - al)) by (apply Rdiv_lt_0_compat; lra).
      assert (p / (p - al) * (Rpower p t - Rpower al t * (p / al)) <= 0) by nra.
      assert (1 <= Rpower al t * (p / al) * (p / al)) by nra. lra.
  - assert (Hr : 1 <= al / p). { apply Rmult_le_reg_r with p; [lra|]. replace (al / p * p) with al by (field; lra). lra. }
    destruct q_cases as [[Hq _]|[Hq _]].
    + apply Rle_trans with (2 := LS Hq). specialize (Hloss Hq). pose proof (r_q_ge _ Hr) as W1.
      assert (F1 : p / (al - p) * (Rpower al t * (p / al) - Rpower p t) <= Rpower p t * s1).
      { replace (Rpower p t * s1) with (p / (al - p) * (Rpower p t * ((al / p - 1) * s1))) by (field; lra). rewrite G1. apply Rmult_le_compat_l. left; apply Rdiv_lt_0_compat; lra.
        rewrite <- R1. replace (Rpower p t * Rpower (al / p) t * (p / al) - Rpower p t) with (Rpower p t * (Rpower (al / p) t / (al / p) - 1)) by (field; lra). apply Rmult_le_compat_l; lra. }
      match goal with |- ?L <= _ => replace L with (p / (al - p) * (Rpower al t * (p / al) - Rpower p t) - (t - 1 + Rpower al t * (p / al) * (p / al))) by (field; lra) end. lra.
    + exfalso. destruct q_cases; destruct Hbn; lra || lia.
Qed.
End Fixed.
