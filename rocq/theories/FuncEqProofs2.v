From Coq Require Import Reals List Arith Bool Lia Lra Psatz.
From Verif Require Import FuncEqModel FuncEqSpec FuncEqProofs.
Import ListNotations.
Local Open Scope R_scope.

Lemma dc_aux_fuel a b g x0 : (2 <= b)%nat -> forall f1 f2 n, (n <= f1)%nat -> (n <= f2)%nat -> (1 <= n)%nat -> dc_aux f1 a b g x0 n = dc_aux f2 a b g x0 n.
Proof.
  intros Hb. induction f1 as [|f1 IH]; intros f2 n H1 H2 Hn; [lia|]. destruct f2 as [|f2]; [lia|]. simpl. destruct (Nat.ltb_spec n b) as [L|L]; [easy|].
  assert ((1 <= n / b)%nat) by (apply Nat.div_le_lower_bound; lia). assert ((n / b < n)%nat) by (apply Nat.div_lt; lia).
  rewrite (IH f2 (n / b)%nat) by lia. easy.
Qed.
Lemma dc_solution_ok a b g x0 : (2 <= b)%nat -> (forall i, (1 <= i < b)%nat -> 0 <= x0 i) -> divide_and_conquer a b g (dc_solution a b g x0).
Proof.
  intros Hb H0. split.
  - intros n Hn. unfold dc_solution at 1. destruct n as [|n]; [lia|]. simpl dc_aux. destruct (Nat.ltb_spec (S n) b) as [L|L]; [lia|].
    assert ((1 <= S n / b)%nat) by (apply Nat.div_le_lower_bound; lia). assert ((S n / b < S n)%nat) by (apply Nat.div_lt; lia).
    unfold dc_solution. rewrite (dc_aux_fuel a b g x0 Hb n (S n / b)%nat) by lia. easy.
  - intros i Hi. unfold dc_solution. destruct i as [|i]; [lia|]. simpl. destruct (Nat.ltb_spec (S i) b) as [L|L]; [|lia]. now apply H0.
Qed.
Lemma dc_solution_init a b g x0 i : (1 <= i < b)%nat -> dc_solution a b g x0 i = x0 i.
Proof. intros Hi. unfold dc_solution. destruct i as [|i]; [lia|]. simpl. destruct (Nat.ltb_spec (S i) b) as [L|L]; [easy|lia]. Qed.

Section Fixed.
Context (al : R) (b n : nat) (Hal : 0 < al) (Hb : (2 <= b)%nat) (Hn : (1 <= n)%nat).
Local Notation B := (INR b).
Local Notation N := (INR n).
Local Notation G g := (SG al b n g).

Lemma SG_scal c g h : (forall i, h i = c * g i) -> G h = c * G g.
Proof. intros H. unfold SG. rewrite <- rsum_scal. apply rsum_ext. intros j _. rewrite H. ring. Qed.
Lemma SG_inhom g gs : G (inhomogeneous (g :: gs)) = G (addend_at g) + G (inhomogeneous gs).
Proof. unfold SG. rewrite <- rsum_plus. apply rsum_ext. intros j _. simpl. ring. Qed.
Lemma SG_nil : G (inhomogeneous []) = 0.
Proof. unfold SG. rewrite (rsum_ext _ _ (fun j => 0 * 0)) by (intros; simpl; ring). rewrite rsum_scal. ring. Qed.

(** [f] gives the bounds of G g that are wanted. *)
Lemma scaled_upper f g a v : (0 < a -> forall u, f UPPER_BOUND = Some u -> G g <= u) -> (a < 0 -> forall u, f LOWER_BOUND = Some u -> u <= G g) ->
  scaled f UPPER_BOUND a = Some v -> a * G g <= v.
Proof.
  intros HU HL. unfold scaled. destruct (Rltb 0 a) eqn:C; [apply Rltb_true in C|apply Rltb_false in C; destruct (Rltb a 0) eqn:C2; [apply Rltb_true in C2|easy]].
  - destruct (f UPPER_BOUND) as [u|] eqn:E; [|easy]. simpl. intros [= <-]. pose proof (HU C u eq_refl). nra.
  - simpl. destruct (f LOWER_BOUND) as [u|] eqn:E; [|easy]. simpl. intros [= <-]. pose proof (HL C2 u eq_refl). nra.
Qed.
Lemma scaled_lower f g a v : (a < 0 -> forall u, f UPPER_BOUND = Some u -> G g <= u) -> (0 < a -> forall u, f LOWER_BOUND = Some u -> u <= G g) ->
  scaled f LOWER_BOUND a = Some v -> v <= a * G g.
Proof.
  intros HU HL. unfold scaled. destruct (Rltb 0 a) eqn:C; [apply Rltb_true in C|apply Rltb_false in C; destruct (Rltb a 0) eqn:C2; [apply Rltb_true in C2|easy]].
  - destruct (f LOWER_BOUND) as [u|] eqn:E; [|easy]. simpl. intros [= <-]. pose proof (HL C u eq_refl). nra.
  - simpl. destruct (f UPPER_BOUND) as [u|] eqn:E; [|easy]. simpl. intros [= <-]. pose proof (HU C2 u eq_refl). nra.
Qed.
Lemma lower_power k u : lower_right al b n k -> power_of_n al B N LOWER_BOUND k = Some u -> u <= G (fun i => Rpower (INR i) k).
Proof.
  intros [->|[(H1 & H2 & H3 & H4)|(H1 & [H2|(H2 & H3 & H4)])]] Hu.
  - now apply lower_const. 
  - now apply lower_lt1. 
  - now apply lower_a.
  - destruct H4 as [H4|H4]; [now apply lower_b|now apply lower_c].
Qed.

Lemma sharper_upper g v : increasing g -> ~ (exists c, g = Mono c 1 /\ c = -1) -> (coef g < 0 -> lower_right_for al b n g) -> sharper al B N UPPER_BOUND g = Some v -> G (addend_at g) <= v.
Proof.
  intros Hi Hm Hl Hs. destruct g as [a k|a k|a c]; simpl in *.
  - rewrite (SG_scal a (fun i => Rpower (INR i) k)) by reflexivity.
    destruct (Reqb a (-1) && Reqb k 1) eqn:C. { apply andb_true_iff in C as [C1 C2]. apply Reqb_true in C1, C2. destruct Hm. exists a. now subst. }
    revert Hs. apply scaled_upper. intros _ u Hu. now apply upper_power. intros Ha u Hu. apply lower_power; auto.
  - rewrite (SG_scal a (fun i => Rpower (INR i) k * ln (INR i))) by reflexivity.
    destruct (Reqb k 0) eqn:C; [apply Reqb_true in C; subst k|]; revert Hs; apply scaled_upper; try (intros _ u Hu; easy); intros _ u Hu. now apply upper_logarithm. now apply upper_powlog.
  - rewrite (SG_scal a (fun i => Rpower c (INR i))) by reflexivity. destruct (Rltb al 1) eqn:C; [easy|]. apply Rltb_false in C. revert Hs. apply scaled_upper.
    intros _ u Hu. now apply upper_exp. intros Ha u Hu. simpl in Hu. injection Hu as <-. apply lower_exp; auto.
Qed.
Lemma sharper_lower g v : increasing g -> ~ (exists c, g = Mono c 1 /\ c = -1) -> (0 < coef g -> lower_right_for al b n g) -> sharper al B N LOWER_BOUND g = Some v -> v <= G (addend_at g).
Proof.
  intros Hi Hm Hl Hs. destruct g as [a k|a k|a c]; simpl in *.
  - rewrite (SG_scal a (fun i => Rpower (INR i) k)) by reflexivity.
    destruct (Reqb a (-1) && Reqb k 1) eqn:C. { apply andb_true_iff in C as [C1 C2]. apply Reqb_true in C1, C2. destruct Hm. exists a. now subst. }
    revert Hs. apply scaled_lower. intros _ u Hu. now apply upper_power. intros Ha u Hu. apply lower_power; auto.
  - rewrite (SG_scal a (fun i => Rpower (INR i) k * ln (INR i))) by reflexivity.
    destruct (Reqb k 0) eqn:C; [apply Reqb_true in C; subst k|]; revert Hs; apply scaled_lower; try (intros _ u Hu; easy); intros _ u Hu. now apply upper_logarithm. now apply upper_powlog.
  - rewrite (SG_scal a (fun i => Rpower c (INR i))) by reflexivity. destruct (Rltb al 1) eqn:C; [easy|]. apply Rltb_false in C. revert Hs. apply scaled_lower.
    intros _ u Hu. now apply upper_exp. intros Ha u Hu. simpl in Hu. injection Hu as <-. apply lower_exp; auto.
Qed.
Lemma nhp_upper gs : Forall (fun g => increasing g /\ ~ (exists c, g = Mono c 1 /\ c = -1) /\ (coef g < 0 -> lower_right_for al b n g)) gs ->
  forall acc v, non_homogeneous_part al B N UPPER_BOUND gs acc = Some v -> acc + G (inhomogeneous gs) <= v.
Proof.
  induction 1 as [|g gs (H1 & H2 & H3) _ IH]; intros acc v; simpl. { intros [= <-]. rewrite SG_nil. lra. }
  destruct (sharper al B N UPPER_BOUND g) as [u|] eqn:E; [|easy]. intros Hv. apply IH in Hv. pose proof (sharper_upper g u H1 H2 H3 E). rewrite SG_inhom. lra.
Qed.
Lemma nhp_lower gs : Forall (fun g => increasing g /\ ~ (exists c, g = Mono c 1 /\ c = -1) /\ (0 < coef g -> lower_right_for al b n g)) gs ->
  forall acc v, non_homogeneous_part al B N LOWER_BOUND gs acc = Some v -> v <= acc + G (inhomogeneous gs).
Proof.
  induction 1 as [|g gs (H1 & H2 & H3) _ IH]; intros acc v; simpl. { intros [= <-]. rewrite SG_nil. lra. }
  destruct (sharper al B N LOWER_BOUND g) as [u|] eqn:E; [|easy]. intros Hv. apply IH in Hv. pose proof (sharper_lower g u H1 H2 H3 E). rewrite SG_inhom. lra.
Qed.
(** The index of the initial value. *)
Lemma index_ic : (if (b =? 2)%nat then 1%nat else Sc n b) = (n / b ^ ilog b n)%nat.
Proof. destruct (Nat.eqb_spec b 2) as [E|E]; [|reflexivity]. pose proof (m_last b n Hb Hn). lia. Qed.
Lemma ic_upper x : (forall i, (1 <= i < b)%nat -> 0 <= x i) -> al ^ ilog b n * x (n / b ^ ilog b n)%nat <= term_about_initial_condition UPPER_BOUND al b n x.
Proof.
  intros Hx. unfold term_about_initial_condition. rewrite index_ic. apply Rmult_le_compat_r. { apply Hx, m_last; easy. }
  destruct (Rltb al 1) eqn:C; [apply Rltb_true in C|apply Rltb_false in C].
  - rewrite Rp_minus1 by easy. apply r_q_le'; [easy|easy|lra].
  - now apply r_q_le.
Qed.
Lemma ic_lower x : (forall i, (1 <= i < b)%nat -> 0 <= x i) -> term_about_initial_condition LOWER_BOUND al b n x <= al ^ ilog b n * x (n / b ^ ilog b n)%nat.
Proof.
  intros Hx. unfold term_about_initial_condition. rewrite index_ic. apply Rmult_le_compat_r. { apply Hx, m_last; easy. }
  destruct (Rltb 1 al) eqn:C; [apply Rltb_true in C|apply Rltb_false in C].
  - rewrite Rp_minus1 by easy. apply r_q_ge; [easy|easy|lra].
  - apply r_q_ge'; [easy|easy|lra].
Qed.
End Fixed.

Theorem upper_main a b gs x n u : 0 < a -> (2 <= b)%nat -> (1 <= n)%nat ->
  Forall (fun g => increasing g /\ ~ (exists c, g = Mono c 1 /\ c = -1) /\ (coef g < 0 -> lower_right_for a b n g)) gs ->
  divide_and_conquer a b (inhomogeneous gs) x -> approximate_functional_equation UPPER_BOUND a b gs n x = Some u -> x n <= u.
Proof.
  intros Ha Hb Hn Hg [Hx H0] Hu. unfold approximate_functional_equation in Hu. destruct (non_homogeneous_part _ _ _ _ _ _) as [v|] eqn:E; [|easy]. injection Hu as <-.
  rewrite (explicit a b _ x Hb Hx (ilog b n) n Hn eq_refl). pose proof (nhp_upper a b n Ha Hb Hn gs Hg 0 v E) as H1. pose proof (ic_upper a b n Ha Hb Hn x H0) as H2. unfold SG in H1. lra.
Qed.
Theorem lower_main a b gs x n u : 0 < a -> (2 <= b)%nat -> (1 <= n)%nat ->
  Forall (fun g => increasing g /\ ~ (exists c, g = Mono c 1 /\ c = -1) /\ (0 < coef g -> lower_right_for a b n g)) gs ->
  divide_and_conquer a b (inhomogeneous gs) x -> approximate_functional_equation LOWER_BOUND a b gs n x = Some u -> u <= x n.
Proof.
  intros Ha Hb Hn Hg [Hx H0] Hu. unfold approximate_functional_equation in Hu. destruct (non_homogeneous_part _ _ _ _ _ _) as [v|] eqn:E; [|easy]. injection Hu as <-.
  rewrite (explicit a b _ x Hb Hx (ilog b n) n Hn eq_refl). pose proof (nhp_lower a b n Ha Hb Hn gs Hg 0 v E) as H1. pose proof (ic_lower a b n Ha Hb Hn x H0) as H2. unfold SG in H1. lra.
Qed.
(** An upper bound is found when there are no exponentials and no negative coefficients. *)
Theorem upper_found a b n x gs : Forall (fun g => 0 < coef g /\ match g with Expn _ _ => False | _ => True end) gs -> exists u, approximate_functional_equation UPPER_BOUND a b gs n x = Some u.
Proof.
  intros Hg. unfold approximate_functional_equation.
  assert (H : forall acc, exists v, non_homogeneous_part a (INR b) (INR n) UPPER_BOUND gs acc = Some v).
  { induction Hg as [|g gs (Hc & Hk) _ IH]; intros acc; simpl. { eauto. } destruct g as [c k|c k|c d]; [| |easy]; simpl in *.
    - replace (Reqb c (-1)) with false by (symmetry; apply Reqb_false; lra). simpl. unfold scaled. replace (Rltb 0 c) with true by (symmetry; now apply Rltb_true). unfold power_of_n.
      destruct (Rltb _ _); [|destruct (Reqb _ _)]; simpl; apply IH.
    - unfold scaled. replace (Rltb 0 c) with true by (symmetry; now apply Rltb_true). unfold logarithm, power_times_logarithm.
      destruct (Reqb k 0); destruct (Reqb _ _); simpl; apply IH. }
  destruct (H 0) as [v ->]. eauto.
Qed.
