(** C71: the general method for the bounds of x(n) = a x(n/b) + g(n). *)
From Coq Require Import Reals List Arith ZArith Bool Lia Lra FunctionalExtensionality.
From Verif Require Import FuncEqModel FuncEqSpec FuncEqProofs FuncEqProofs2 FuncEqProofs3 GenBndModel GenBndSpec GenBndProofs GenBndProofs2.
Import ListNotations.
Local Open Scope R_scope.

(** The sums of the method enclose the contribution of g, for every non-negative, non-decreasing g. *)
Theorem C71_enclosure : forall a b g x n, 0 < a -> (2 <= b)%nat -> (1 <= n)%nat -> non_negative_non_decreasing g ->
  (forall m, (b <= m)%nat -> x m = a * x (m / b)%nat + g m) ->
  lower_sum a b g (ilog b n) <= x n - a ^ ilog b n * x (n / b ^ ilog b n)%nat <= upper_sum a b g (S (ilog b n)).
Proof.
  intros a b g x n Ha Hb Hn Hg Hx. pose proof (between a b g Ha Hb Hg n Hn) as B. rewrite (explicit a b g x Hb Hx (ilog b n) n Hn eq_refl). unfold SG in B. lra.
Qed.
(** The closed forms are the sums. *)
Theorem C71_closed_form : forall a b dec type s f m, 0 < a -> (2 <= b)%nat -> decomposition_ok a b type s (dec s type) -> compute_sum a dec type s = Some f -> (1 <= m)%nat ->
  f (INR m) = match type with LOWER_BOUND => lower_sum a b s m | UPPER_BOUND => upper_sum a b s m end.
Proof. intros a b dec type s f m Ha Hb D E Hm. apply (compute_sum_ok a b dec Ha Hb type s f m D E). destruct type; cbn [start]; lia. Qed.
(** The bounds found are bounds. Missing: one addend times an exponential, a < 1 with a symbolic sum, a condition above 1 (see below); the Gamma function. *)
Theorem C71_upper_partial : forall a b dec gs x n u, 0 < a -> (2 <= b)%nat -> (1 <= n)%nat -> Forall (group_fine a b n dec UPPER_BOUND) gs ->
  divide_and_conquer a b (groups_at gs) x -> approximate a b dec UPPER_BOUND 1 gs n x = Done u -> x n <= u.
Proof. intros a b dec gs x n u Ha Hb Hn F. exact (bound_side a b n dec Ha Hb Hn UPPER_BOUND ltac:(discriminate) gs x u F). Qed.
Theorem C71_lower_partial : forall a b dec gs x n u, 0 < a -> (2 <= b)%nat -> (b <= n)%nat -> Forall (group_fine a b n dec LOWER_BOUND) gs ->
  divide_and_conquer a b (groups_at gs) x -> approximate a b dec LOWER_BOUND 1 gs n x = Done u -> u <= x n.
Proof. intros a b dec gs x n u Ha Hb Hn F. exact (bound_side a b n dec Ha Hb ltac:(lia) LOWER_BOUND (fun _ => Hn) gs x u F). Qed.

(** x(n) = a x(n/b) + c n^k with a > b^k, the case without sharper lower bound: c b^k (a^t - b^(k t))/(a - b^k), t = log(n)/log(b) - 1, is a lower bound. *)
Definition power_piece (a : R) (b k : nat) (c : R) : piece :=
  {| pbase := INR b ^ k; p_at_0 := c; p_at_1 := c; from_zero := fun t => c * ((Rpower (INR b ^ k / a) (t + 1) - 1) / (INR b ^ k / a - 1)) |}.
Definition power_term (c : R) (k : nat) : term := {| at_ := fun i => c * INR i ^ k; known := Some (Mono c (INR k)); nnd := fun _ => Some 0%Z |}.
Definition single (t : term) : group := {| gbase := Some 1; poly_coeff := One t; no_poly_coeff := Zero |}.
Lemma power_sum r c m : r <> 1 -> 0 < r -> c * ((Rpower r (INR m + 1) - 1) / (r - 1)) = sum_range 0 m (fun k => c * r ^ k).
Proof.
  intros H P. rewrite sum_range_scal. f_equal. induction m as [|m IH].
  - change (INR 0) with 0. rewrite Rplus_0_l, Rpower_1 by easy. unfold sum_range. cbn. field. lra.
  - rewrite sum_range_last, <- IH by lia. rewrite S_INR. rewrite (Rp_plus1 r (INR m + 1)) by easy. replace (INR m + 1) with (INR (S m)) by apply S_INR. rewrite Rpower_pow by easy. field. lra.
Qed.
Lemma power_decomposition a b k c : 0 < a -> INR b ^ k < a -> (2 <= b)%nat -> decomposition_ok a b LOWER_BOUND (fun i => c * INR i ^ k) (Polynomials [power_piece a b k c]).
Proof.
  intros Ha Hk Hb. assert (P : 0 < INR b ^ k). { apply pow_lt. apply (lt_INR 0). lia. } exists [fun _ => c]. split.
  - constructor; [|constructor]. split; [reflexivity|]. split; [reflexivity|]. intros m. cbn [power_piece from_zero pbase]. apply power_sum.
    + intros E. apply (f_equal (fun z => z * a)) in E. replace (INR b ^ k / a * a) with (INR b ^ k) in E by (field; lra). lra.
    + apply Rdiv_lt_0_compat; easy.
  - intros m. cbn. rewrite pow_INR, <- !pow_mult, Nat.mul_comm. ring.
Qed.
Lemma power_rises a B c : 0 < c -> 1 <= B -> B < a -> rises 0 (fun t => rsum_list (fun p => from_zero p t - p_at_0 p - 0) [{| pbase := B; p_at_0 := c; p_at_1 := c; from_zero := fun t => c * ((Rpower (B / a) (t + 1) - 1) / (B / a - 1)) |}] * Rpower a t).
Proof.
  intros Hc HB Ha. assert (E : forall t, rsum_list (fun p => from_zero p t - p_at_0 p - 0) [{| pbase := B; p_at_0 := c; p_at_1 := c; from_zero := fun t => c * ((Rpower (B / a) (t + 1) - 1) / (B / a - 1)) |}] * Rpower a t = c * B / (a - B) * (Rpower a t - Rpower B t)).
  { intros t. cbn. rewrite Rp_plus1 by (apply Rdiv_lt_0_compat; lra). rewrite Rp_div by lra. pose proof (Rp_pos a t). field. repeat split; lra. }
  intros u v Hu Huv. rewrite !E. apply Rmult_le_compat_l. { left. apply Rdiv_lt_0_compat; nra. }
  assert (Ea : Rpower a v = Rpower a u * Rpower a (v - u)) by (rewrite <- Rpower_plus; f_equal; ring). assert (EB : Rpower B v = Rpower B u * Rpower B (v - u)) by (rewrite <- Rpower_plus; f_equal; ring).
  rewrite Ea, EB. pose proof (Rp_mono_base B a u ltac:(lra) ltac:(lra) Hu). pose proof (Rp_mono_base B a (v - u) ltac:(lra) ltac:(lra) ltac:(lra)). pose proof (Rp_mono_exp B 0 (v - u) HB ltac:(lra)) as L. rewrite Rp_zero in L. pose proof (Rp_pos B u). nra.
Qed.
Theorem C71_power_lower : forall a b k c x n dec, (2 <= b)%nat -> (b <= n)%nat -> (1 <= k)%nat -> INR b ^ k < a -> 0 < c ->
  dec (fun i => c * INR i ^ k) LOWER_BOUND = Polynomials [power_piece a b k c] -> decomposition_ok a b UPPER_BOUND (fun i => c * INR i ^ k) (dec (fun i => c * INR i ^ k) UPPER_BOUND) ->
  divide_and_conquer a b (fun i => c * INR i ^ k) x ->
  exists u, approximate a b dec LOWER_BOUND 1 [single (power_term c k)] n x = Done u /\ u <= x n.
Proof.
  intros a b k c x n dec Hb Hn Hk Ha Hc E EU Hx. assert (B1 : 1 <= INR b ^ k). { apply pow_R1_Rle. apply (le_INR 1). lia. } assert (A : 0 < a) by lra. assert (Bp : 0 < INR b) by (apply (lt_INR 0); lia).
  assert (K1 : 1 <= INR k) by (apply (le_INR 1); easy).
  assert (Sh : sharper_for a b (INR n) LOWER_BOUND (power_term c k) = None).
  { cbn [sharper_for power_term known sharper]. assert (Reqb c (-1) = false) as -> by (apply Reqb_false; lra). cbn [andb]. unfold scaled. assert (Rltb 0 c = true) as -> by (apply Rltb_true; lra).
    unfold power_of_n. assert (Reqb (INR k) 0 = false) as -> by (apply Reqb_false; lra). assert (Rltb (INR k) 1 = false) as -> by (apply Rltb_false; lra).
    rewrite (Rpower_pow k (INR b)) by easy. assert (M : Rpower (INR b) (INR k - 1) <= INR b ^ k). { rewrite <- Rpower_pow by easy. apply Rp_mono_exp; [apply (le_INR 1); lia|lra]. }
    assert (Rltb a (Rpower (INR b) (INR k - 1)) = false) as -> by (apply Rltb_false; lra). assert (Reqb a (Rpower (INR b) (INR k - 1)) = false) as -> by (apply Reqb_false; lra).
    assert (Rltb a (INR b ^ k) = false) as -> by (apply Rltb_false; lra). assert (Reqb a (INR b ^ k) = false) as -> by (apply Reqb_false; lra). reflexivity. }
  assert (Ex : exists u, approximate a b dec LOWER_BOUND 1 [single (power_term c k)] n x = Done u).
  { unfold approximate. cbn [compute_non_homogeneous_part one_group single gbase poly_coeff no_poly_coeff]. assert (Rltb 0 1 = true) as -> by (apply Rltb_true; lra). assert (Reqb 1 1 = true) as -> by (apply Reqb_true; reflexivity). cbn [negb].
    unfold poly_or_no_poly. cbv zeta. rewrite Sh. cbn [power_term nnd lift bind snd fst]. eexists. reflexivity. }
  destruct Ex as [u Hu]. exists u. split; [exact Hu|]. refine (C71_lower_partial a b dec [single (power_term c k)] x n u A Hb Hn _ _ Hu).
  - constructor; [|constructor]. exists 1. split; [reflexivity|]. split; [exact Logic.I|]. left. cbn [single poly_coeff coefficient_fine]. split; [reflexivity|]. split; [|split].
    + intros g [= <-]. cbn [increasing coef]. split; [lra|]. split; [easy|]. split. { intros i Hi. cbn. rewrite Rpower_pow by (apply (lt_INR 0); lia). reflexivity. } intros _. split; [reflexivity|]. intros v V. exfalso. cbn [sharper_for power_term known] in Sh. rewrite V in Sh. discriminate.
    + intros _. split; [|split].
      * intros i j Hi Hij. cbn [power_term at_]. assert (0 < INR i) by (apply (lt_INR 0); lia). assert (INR i <= INR j) by (apply le_INR; easy). pose proof (pow_lt (INR i) k H). pose proof (pow_incr (INR i) (INR j) k ltac:(lra)). nra.
      * intros [|]; [|exact EU]. cbn [power_term at_]. rewrite E. now apply power_decomposition.
      * intros f Hf. cbn [power_term at_] in Hf. unfold compute_sum in Hf. rewrite E in Hf. destruct Hf as [Hf|[Hf _]]; [|discriminate]. assert (F : f = fun n => rsum_list (fun p => from_zero p n - p_at_0 p - 0) [power_piece a b k c] * Rpower a n) by congruence.
        rewrite F. now apply power_rises.
    + intros z z' _ H. cbn in H. assert (z' = 0%Z) as -> by congruence. lia.
  - destruct Hx as [H1 H2]. split; [|exact H2]. intros m Hm. rewrite H1 by easy. f_equal. unfold groups_at, group_at, rsum_list. cbn. rewrite Rp_one. ring.
Qed.
(** x(n) = 5 x(n/2) + 3 n^2. *)
Definition dec5 (s : nat -> R) (type : bound_type) : decomposition := match type with LOWER_BOUND => Polynomials [power_piece 5 2 2 3] | UPPER_BOUND => Mixed end.
Example C71_power_used : forall x0 : R, 0 <= x0 -> let x := dc_solution 5 2 (fun i => 3 * INR i ^ 2) (fun _ => x0) in
  exists u, approximate 5 2 dec5 LOWER_BOUND 1 [single (power_term 3 2)] 100 x = Done u /\ u <= x 100%nat.
Proof.
  intros x0 H x. apply (C71_power_lower 5 2 2 3 x 100 dec5); try lia; try lra; try reflexivity; try exact Logic.I. { cbn. lra. } apply dc_solution_ok; [lia|easy].
Qed.
(** The other bound with a symbolic sum: x(n) = 2 x(n/2) + log(n)^2. *)
Definition log_squared : term := {| at_ := fun i => ln (INR i) ^ 2; known := None; nnd := fun _ => Some 0%Z |}.
Definition dec_none (s : nat -> R) (type : bound_type) : decomposition := NoPolynomial 1 None.
Definition log_group : group := {| gbase := Some 1; poly_coeff := Zero; no_poly_coeff := One log_squared |}.
Lemma log_done a b type n x : exists u, approximate a b dec_none type 1 [log_group] n x = Done u.
Proof.
  unfold approximate. cbn [compute_non_homogeneous_part one_group log_group gbase poly_coeff no_poly_coeff]. assert (Rltb 0 1 = true) as -> by (apply Rltb_true; lra). assert (Reqb 1 1 = true) as -> by (apply Reqb_true; reflexivity). cbn [negb].
  eexists. reflexivity.
Qed.
Lemma log_nnd : non_negative_non_decreasing (at_ log_squared).
Proof.
  intros i j Hi Hij. cbn [log_squared at_]. assert (1 <= INR i) by (apply (le_INR 1); easy). assert (INR i <= INR j) by (apply le_INR; easy).
  pose proof (ln_nonneg (INR i) H). pose proof (ln_mono (INR i) (INR j) ltac:(lra) H0). split; [apply pow_le; easy|]. apply pow_incr. lra.
Qed.
Example C71_symbolic_used : let x := dc_solution 2 2 (groups_at [log_group]) (fun _ => 1) in
  exists l u, approximate 2 2 dec_none LOWER_BOUND 1 [log_group] 100 x = Done l /\ approximate 2 2 dec_none UPPER_BOUND 1 [log_group] 100 x = Done u /\ l <= x 100%nat <= u.
Proof.
  intros x. destruct (log_done 2 2 LOWER_BOUND 100 x) as [l Hl]. destruct (log_done 2 2 UPPER_BOUND 100 x) as [u Hu]. exists l, u. split; [exact Hl|]. split; [exact Hu|].
  assert (D : divide_and_conquer 2 2 (groups_at [log_group]) x) by (apply dc_solution_ok; [lia|intros; lra]).
  assert (F : forall type, Forall (group_fine 2 2 100 dec_none type) [log_group]).
  { intros type. constructor; [|constructor]. exists 1. split; [reflexivity|]. split; [|left; exact Logic.I]. cbn [log_group no_poly_coeff coefficient_fine]. split; [reflexivity|]. split; [discriminate|]. split.
    - intros _. split; [exact log_nnd|]. split; [intros ty; exact Logic.I|]. destruct type; [|split; [|left; lra]]; intros f [H|[_ H]]; discriminate.
    - intros z z' _ H. cbn in H. assert (z' = 0%Z) as -> by congruence. lia. }
  split; [exact (C71_lower_partial 2 2 dec_none _ x 100 l ltac:(lra) ltac:(lia) ltac:(lia) (F _) D Hl)|exact (C71_upper_partial 2 2 dec_none _ x 100 u ltac:(lra) ltac:(lia) ltac:(lia) (F _) D Hu)].
Qed.

(** * Where the bounds are wrong *)
Lemma Rdiv_1_r' r : r / 1 = r. Proof. field. Qed.
Lemma ln4 : ln (INR 4) / ln (INR 2) = 2.
Proof. replace (INR 4) with (INR 2 * INR 2) by (cbn; ring). assert (0 < ln (INR 2)). { rewrite <- ln_1. apply ln_increasing; cbn; lra. } rewrite ln_mult by (cbn; lra). field. lra. Qed.
(** x(n) = x(n/2) + n 2^n: the bound is computed for n in place of n 2^n (and n is counted twice): 18 is given as an upper bound of x(4) = 72. *)
Definition n_term : term := {| at_ := INR; known := Some (Mono 1 1); nnd := fun _ => Some 0%Z |}.
Definition n_2n : group := {| gbase := Some 2; poly_coeff := One n_term; no_poly_coeff := Zero |}.
Definition dec_n (s : nat -> R) (type : bound_type) : decomposition :=
  Polynomials ({| pbase := 2; p_at_0 := 1; p_at_1 := 1; from_zero := fun t => Rpower 2 (t + 1) - 1 |} ::
    match type with LOWER_BOUND => [] | UPPER_BOUND => [{| pbase := 1; p_at_0 := -1; p_at_1 := -1; from_zero := fun t => - (t + 1) |}] end).
Lemma dec_n_ok type : decomposition_ok 1 2 type INR (dec_n INR type).
Proof.
  assert (P : piece_ok 1 {| pbase := 2; p_at_0 := 1; p_at_1 := 1; from_zero := fun t => Rpower 2 (t + 1) - 1 |} (fun _ => 1)).
  { split; [reflexivity|]. split; [reflexivity|]. intros m. cbn [from_zero pbase]. rewrite (sum_range_ext _ _ _ (fun k => 1 * 2 ^ k)) by (intros; rewrite Rdiv_1_r'; ring). rewrite <- (power_sum 2 1 m) by lra. field. }
  destruct type; cbn [dec_n].
  - exists [fun _ => 1]. split; [constructor; [exact P|constructor]|]. intros k. cbn [argument combine fold_right fst snd pbase]. rewrite pow_INR. replace (INR 2) with 2 by (cbn; ring). ring.
  - exists [fun _ => 1; fun _ => -1]. split.
    + constructor; [exact P|]. constructor; [|constructor]. split; [reflexivity|]. split; [reflexivity|]. intros m. cbn [from_zero pbase]. induction m as [|m IH].
      * unfold sum_range. cbn. field.
      * rewrite sum_range_last, <- IH, S_INR by lia. rewrite Rdiv_1_r', pow1. ring.
    + intros k. cbn [argument combine fold_right fst snd pbase]. rewrite minus_INR, pow_INR, pow1 by (pose proof (Nat.pow_nonzero 2 k); lia). replace (INR 2) with 2 by (cbn; ring). cbn [INR]. ring.
Qed.
Theorem C71_exponential_forgotten_refuted : let x := dc_solution 1 2 (fun i => INR i * 2 ^ i) (fun _ => 0) in
  divide_and_conquer 1 2 (groups_at [n_2n]) x /\ (forall type, decomposition_ok 1 2 type INR (dec_n INR type)) /\
  approximate 1 2 dec_n UPPER_BOUND 1 [n_2n] 4 x = Done 18 /\ x 4%nat = 72.
Proof.
  intros x. split; [|split; [exact dec_n_ok|]].
  - destruct (dc_solution_ok 1 2 (fun i => INR i * 2 ^ i) (fun _ => 0) ltac:(lia) ltac:(intros; lra)) as [H1 H2]. split; [|exact H2]. intros n Hn. unfold x. rewrite H1 by easy. f_equal.
    unfold groups_at, group_at, rsum_list. cbn [n_2n gbase poly_coeff no_poly_coeff terms_of app fold_right n_term at_]. rewrite Rpower_pow by lra. ring.
  - split; [|unfold x, dc_solution; cbn; ring].
    unfold approximate. cbn [compute_non_homogeneous_part one_group n_2n gbase poly_coeff no_poly_coeff].
    assert (Rltb 0 2 = true) as -> by (apply Rltb_true; lra). assert (B : Reqb 2 1 = false) by (apply Reqb_false; lra). rewrite B. cbn [negb]. unfold sharper_exponential.
    assert (Rltb 1 1 = false) as E1 by (apply Rltb_false; lra). rewrite E1. cbn [n_term known]. assert (E2 : Reqb 1 0 = false) by (apply Reqb_false; lra). rewrite E2.
    unfold poly_or_no_poly. cbn [sharper_for n_term known nnd snd fst]. fold n_term.
    assert (S1 : sharper 1 (INR 2) (INR 4) UPPER_BOUND (Mono 1 1) = Some 8).
    { cbn [sharper]. assert (Reqb 1 (-1) = false) as -> by (apply Reqb_false; lra). cbn [andb]. unfold scaled. assert (Rltb 0 1 = true) as -> by (apply Rltb_true; lra). unfold power_of_n. rewrite !Rpower_1 by (cbn; lra).
      assert (Rltb 1 (INR 2) = true) as -> by (apply Rltb_true; cbn; lra). cbn [option_map]. f_equal. cbn. field. }
    rewrite S1. rewrite B. cbn [negb bind lift]. unfold general, try_to_compute_sum, compute_sum. cbn [dec_n]. rewrite ln4. cbn [fst snd]. f_equal.
    unfold initial_condition_term. cbn [Nat.eqb]. cbn [Z.ltb Z.compare Nat.ltb Nat.leb]. unfold x at 1. unfold dc_solution. cbn [dc_aux Nat.ltb Nat.leb]. rewrite Rmult_0_r, Rp_one.
    cbn [rsum_list fold_right from_zero p_at_0 p_at_1 pbase]. replace (2 + 1 + 1) with (INR 4) by (cbn; ring). rewrite Rpower_pow by lra. cbn. field.
Qed.
(** x(n) = 1/2 x(n/2) + log(n)^2: the factor a^(t - floor(t)) of the symbolic sum makes the upper bound too small at n = 3. *)
Theorem C71_small_coefficient_refuted : let x := dc_solution (1 / 2) 2 (groups_at [log_group]) (fun _ => 0) in
  divide_and_conquer (1 / 2) 2 (groups_at [log_group]) x /\ exists u, approximate (1 / 2) 2 dec_none UPPER_BOUND 1 [log_group] 3 x = Done u /\ u < x 3%nat.
Proof.
  intros x. split; [apply dc_solution_ok; [lia|intros; lra]|].
  unfold approximate. cbn [compute_non_homogeneous_part one_group log_group gbase poly_coeff no_poly_coeff]. assert (Rltb 0 1 = true) as -> by (apply Rltb_true; lra). assert (Reqb 1 1 = true) as E1 by (apply Reqb_true; reflexivity). rewrite E1. cbn [negb].
  cbn [poly_or_no_poly sharper_for log_squared known nnd snd fst lift bind]. fold log_squared. eexists. split; [reflexivity|].
  pose proof (q_le_t 2 3 ltac:(lia) ltac:(lia)) as Q1. pose proof (t_lt_q 2 3 ltac:(lia) ltac:(lia)) as Q2. change (ilog 2 3) with 1%nat in Q1, Q2. cbn [INR] in Q1, Q2.
  assert (L2 : 0 < ln (INR 2)). { rewrite <- ln_1. apply ln_increasing; cbn; lra. } assert (L3 : ln (INR 2) < ln (INR 3)). { apply ln_increasing; cbn; lra. }
  assert (T : 1 < ln (INR 3) / ln (INR 2)). { apply Rmult_lt_reg_r with (ln (INR 2)); [easy|]. unfold Rdiv. rewrite Rmult_assoc, Rinv_l by lra. lra. }
  replace (1 + 1 + 1) with (INR 3) in Q2 by (cbn; ring). replace (1 + 1) with (INR 2) in Q2 by (cbn; ring). unfold general, try_to_compute_sum, compute_sum. cbn [dec_none swap_type]. cbv zeta. set (t := ln (INR 3) / ln (INR 2)) in *. cbn [INR] in Q2.
  rewrite (symbolic_eq (1 / 2) 2 ltac:(lra) ltac:(lia) 1 ltac:(lia) (at_ log_squared) UPPER_BOUND (t + 1) 2). 2:{ apply (floor_spec 2 ltac:(lia) 1 ltac:(lia)); cbn [INR]; lra. }
  assert (X1 : forall i, initial_condition_term (1 / 2) 2 UPPER_BOUND i 3 x = 0 \/ i <> 1%nat) by (intros i; destruct (Nat.eq_dec i 1) as [->|]; [left|now right]; unfold initial_condition_term; cbn [Nat.eqb Nat.ltb Nat.leb]; unfold x at 1, dc_solution; cbn [dc_aux Nat.ltb Nat.leb]; ring).
  cbn [Z.ltb Z.compare]. destruct (X1 1%nat) as [->|X]; [|easy]. cbn [the_sum]. rewrite upper_S, upper_1 by lia. cbn [log_squared at_]. change (2 ^ 2 - 1)%nat with 3%nat.
  assert (Ex : x 3%nat = ln (INR 3) ^ 2). { unfold x, dc_solution. cbn [dc_aux Nat.ltb Nat.leb]. change (3 / 2)%nat with 1%nat. cbn [dc_aux Nat.ltb Nat.leb]. unfold groups_at, group_at, rsum_list. cbn [log_group gbase poly_coeff no_poly_coeff terms_of app fold_right log_squared at_]. rewrite Rp_one. ring. }
  rewrite Ex. assert (P : Rpower (1 / 2) (t + 1 - INR 2) < 1). { assert (L : ln (1 / 2) < 0). { pose proof (ln_increasing (1 / 2) 1 ltac:(lra) ltac:(lra)) as L. rewrite ln_1 in L. exact L. } unfold Rpower. pose proof (exp_increasing ((t + 1 - INR 2) * ln (1 / 2)) 0) as M. rewrite exp_0 in M. apply M. cbn [INR]. nra. }
  assert (0 < ln (INR 3) ^ 2) by (apply pow_lt; lra). nra.
Qed.
(** x(n) = x(n/2) + log(n - 2): the condition is 3, and x(3) takes the place of x(1) and x(2). *)
Definition log_shifted : term := {| at_ := fun i => ln (INR i - 2); known := None; nnd := fun _ => Some 3%Z |}.
Theorem C71_condition_refuted : let gs := [{| gbase := Some 1; poly_coeff := Zero; no_poly_coeff := One log_shifted |}] in
  exists x, (forall n, (3 <= n)%nat -> x n = 1 * x (n / 2)%nat + ln (INR n - 2)) /\ (forall n, 0 <= x n) /\
  exists u, approximate 1 2 dec_none UPPER_BOUND 1 gs 4 x = Done u /\ u < x 4%nat.
Proof.
  intros gs. set (g := fun i => if (i <? 3)%nat then 0 else ln (INR i - 2)). set (x := fun i => match i with O => 0 | _ => dc_solution 1 2 (fun i => if (i =? 2)%nat then 10 else g i) (fun _ => 0) i end).
  assert (G0' : forall i, 0 <= g i). { intros i. unfold g. destruct (Nat.ltb_spec i 3); [lra|]. apply ln_nonneg. apply le_INR in H. cbn in H. lra. }
  destruct (dc_solution_ok 1 2 (fun i => if (i =? 2)%nat then 10 else g i) (fun _ => 0) ltac:(lia) ltac:(intros; lra)) as [H1 H2]. exists x. split; [|split].
  - intros n Hn. unfold x. destruct n as [|n]; [lia|]. rewrite H1 by lia. destruct (Nat.eqb_spec (S n) 2); [lia|]. unfold g at 2. destruct (Nat.ltb_spec (S n) 3); [lia|]. f_equal. f_equal.
    destruct (S n / 2)%nat eqn:E; [|reflexivity]. assert (1 <= S n / 2)%nat by (apply Nat.div_le_lower_bound; lia). lia.
  - intros n. induction n as [n IH] using lt_wf_ind. unfold x. destruct n as [|n]; [lra|]. destruct (Nat.lt_ge_cases (S n) 2) as [L|L]. { apply H2. lia. } rewrite H1 by lia.
    assert (P : 0 <= x (S n / 2)%nat) by (apply IH; apply Nat.div_lt; lia). assert (1 <= S n / 2)%nat by (apply Nat.div_le_lower_bound; lia). unfold x in P. destruct (S n / 2)%nat; [lia|]. pose proof (G0' (S n)). destruct (S n =? 2)%nat; lra.
  - assert (X2 : x 2%nat = 10) by (unfold x, dc_solution, g; cbn; ring). assert (X4 : x 4%nat = 10 + ln 2). { unfold x, dc_solution, g. cbn. replace (1 + 1 + 1 + 1 - 2) with 2 by ring. ring. }
    assert (X3 : x 3%nat = 0). { unfold x, dc_solution, g. cbn. replace (1 + 1 + 1 - 2) with 1 by ring. rewrite ln_1. ring. }
    unfold approximate, gs. cbn [compute_non_homogeneous_part one_group gbase poly_coeff no_poly_coeff]. assert (Rltb 0 1 = true) as -> by (apply Rltb_true; lra). assert (Reqb 1 1 = true) as E1 by (apply Reqb_true; reflexivity). rewrite E1. cbn [negb].
    cbn [poly_or_no_poly sharper_for log_shifted known nnd snd fst lift bind]. fold log_shifted. eexists. split; [reflexivity|]. rewrite X4. change (1 <? 3)%Z with true. cbv iota. change (Z.to_nat 3) with 3%nat.
    unfold initial_condition_term. cbn [Nat.eqb Nat.ltb Nat.leb]. rewrite X3, Rmult_0_r. unfold general, try_to_compute_sum, compute_sum. cbn [dec_none swap_type]. cbv zeta. rewrite ln4.
    rewrite (symbolic_eq 1 2 ltac:(lra) ltac:(lia) 1 ltac:(lia) (at_ log_shifted) UPPER_BOUND (2 + 1) 3). 2:{ apply (floor_spec 2 ltac:(lia) 1 ltac:(lia)); cbn [INR]; lra. }
    rewrite Rp_one. cbn [the_sum]. rewrite !upper_S, upper_1 by lia. cbn [log_shifted at_]. change (2 ^ 2 - 1)%nat with 3%nat. change (2 ^ 3 - 1)%nat with 7%nat.
    replace (INR 3 - 2) with 1 by (cbn; ring). replace (INR 7 - 2) with 5 by (cbn; ring). rewrite ln_1. pose proof (ln_le_pred 5 ltac:(lra)). assert (0 < ln 2). { rewrite <- ln_1. apply ln_increasing; lra. } lra.
Qed.
Print Assumptions C71_enclosure.
Print Assumptions C71_closed_form.
Print Assumptions C71_upper_partial.
Print Assumptions C71_lower_partial.
Print Assumptions C71_power_lower.
Print Assumptions C71_exponential_forgotten_refuted.
Print Assumptions C71_small_coefficient_refuted.
Print Assumptions C71_condition_refuted.
