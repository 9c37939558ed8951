(** Proofs for C71: the loops over the addends. *)
From Coq Require Import Reals List Arith ZArith Bool Lia Lra.
From Verif Require Import FuncEqModel FuncEqSpec FuncEqProofs FuncEqProofs2 GenBndModel GenBndSpec GenBndProofs.
Import ListNotations.
Local Open Scope R_scope.

Section At.
Context (a : R) (b n : nat) (dec : (nat -> R) -> bound_type -> decomposition) (Ha : 0 < a) (Hb : (2 <= b)%nat) (Hn : (1 <= n)%nat).
Local Notation G := (SG a b n).
Lemma SG_ext f g : (forall i, (1 <= i)%nat -> f i = g i) -> G f = G g.
Proof. intros H. unfold SG. apply rsum_ext. intros j Hj. rewrite H; [reflexivity|]. apply m_pos; try easy. lia. Qed.
Lemma SG_plus f g : G (fun i => f i + g i) = G f + G g.
Proof. unfold SG. rewrite <- rsum_plus. apply rsum_ext. intros j _. ring. Qed.
Lemma SG_zero : G (fun _ => 0) = 0.
Proof. unfold SG. rewrite (rsum_ext _ _ (fun j => 0 * 0)) by (intros; ring). rewrite rsum_scal. ring. Qed.
Lemma SG_nonneg f : (forall i, (1 <= i)%nat -> 0 <= f i) -> 0 <= G f.
Proof. intros H. unfold SG. apply rsum_nonneg. intros j Hj. apply Rmult_le_pos; [apply pow_le; lra|]. apply H. apply m_pos; try easy. lia. Qed.

(** What is added is on the right side of G. *)
Definition side (type : bound_type) (v s : R) : Prop := match type with LOWER_BOUND => v <= s | UPPER_BOUND => s <= v end.
Context (type : bound_type) (Hlow : type = LOWER_BOUND -> (b <= n)%nat).

Lemma general_side s : fine a b dec type s -> side type (general a b dec (INR n) type s) (G s).
Proof.
  intros (H1 & H2 & H3). destruct type; cbn [side].
  - apply general_lower; auto.
  - destruct H3. apply general_upper; auto.
Qed.
Lemma pos_coef_mono g : 0 < coef g -> ~ (exists c, g = Mono c 1 /\ c = -1).
Proof. intros H (c & -> & ->). cbn in H. lra. Qed.
Lemma addend_nonneg g i : increasing g -> 0 < coef g -> (1 <= i)%nat -> 0 <= addend_at g i.
Proof.
  intros H C Hi. assert (1 <= INR i) by (apply (le_INR 1); easy). destruct g as [c k|c k|c k]; cbn in *; pose proof (Rp_pos (INR i) k); try nra.
  - pose proof (ln_nonneg (INR i) H0). apply Rmult_le_pos; [lra|]. apply Rmult_le_pos; lra.
  - pose proof (Rp_pos k (INR i)). nra.
Qed.
Lemma step_side base s t bound c bound' c' : term_fine a b n dec type base s t -> (forall i, (1 <= i)%nat -> s i = at_ t i * Rpower base (INR i)) -> (c <= 1)%Z ->
  (let r := sharper_for a b (INR n) type t in
   let bd := match r with Some v => bound + v | None => bound end in
   if match r with Some _ => negb (Reqb base 1) | None => true end then
     match nnd t c with Some c => Some (bd + general a b dec (INR n) type s, c) | None => None end
   else Some (bd, c)) = Some (bound', c') ->
  side type (bound' - bound) (G s) /\ (c' <= 1)%Z.
Proof.
  intros (K & F & N) Es Hc. cbv zeta. unfold sharper_for in *. destruct (known t) as [g|] eqn:Eg.
  - destruct (K g eq_refl) as (I & C & E & L). destruct (sharper a (INR b) (INR n) type g) as [v|] eqn:Ev.
    + assert (S1 : side type v (G (addend_at g))).
      { revert Ev L. destruct type; intros Ev L; cbn [side].
        - destruct (L eq_refl) as [_ L1]. apply (sharper_lower a b n Ha Hb Hn g v I (pos_coef_mono g C) (fun _ => L1 v Ev) Ev).
        - apply (sharper_upper a b n Ha Hb Hn g v I (pos_coef_mono g C) ltac:(lra) Ev). }
      destruct (Reqb base 1) eqn:B; cbn [negb].
      * intros H. apply Reqb_true in B. assert (bound + v = bound' /\ c = c') as [<- <-] by (split; congruence). split; [|exact Hc].
        rewrite (SG_ext s (addend_at g)). { revert S1. destruct type; cbn [side]; lra. } intros i Hi. rewrite Es, B, Rp_one, E by easy. ring.
      * apply Reqb_false in B. specialize (F (or_introl B)). destruct (nnd t c) as [c2|] eqn:En; [|discriminate]. intros H. assert (Eb : bound' = bound + v + general a b dec (INR n) type s) by congruence.
        assert (c2 = c') as -> by congruence. split; [|exact (N c c' Hc En)]. pose proof (general_side s F) as S2. pose proof (SG_nonneg (addend_at g) (fun i Hi => addend_nonneg g i I C Hi)) as P.
        revert S1 S2 L. rewrite Eb. destruct type; cbn [side]; intros S1 S2 L; [destruct (L eq_refl); lra|lra].
    + specialize (F (or_intror eq_refl)). destruct (nnd t c) as [c2|] eqn:En; [|discriminate]. intros H. assert (Eb : bound' = bound + general a b dec (INR n) type s) by congruence.
      assert (c2 = c') as -> by congruence. split; [|exact (N c c' Hc En)]. pose proof (general_side s F) as S2. revert S2. rewrite Eb. destruct type; cbn [side]; lra.
  - specialize (F (or_intror eq_refl)). destruct (nnd t c) as [c2|] eqn:En; [|discriminate]. intros H. assert (Eb : bound' = bound + general a b dec (INR n) type s) by congruence.
    assert (c2 = c') as -> by congruence. split; [|exact (N c c' Hc En)]. pose proof (general_side s F) as S2. revert S2. rewrite Eb. destruct type; cbn [side]; lra.
Qed.
Lemma side_plus u v x y : side type u x -> side type v y -> side type (u + v) (x + y).
Proof. destruct type; cbn [side]; lra. Qed.
Lemma side_eq u v x y : side type u x -> u = v -> x = y -> side type v y. Proof. intros H -> ->. exact H. Qed.
Lemma SG_cons base t l : G (fun i => rsum_list (fun t => at_ t i * Rpower base (INR i)) (t :: l)) = G (fun i => at_ t i * Rpower base (INR i)) + G (fun i => rsum_list (fun t => at_ t i * Rpower base (INR i)) l).
Proof. rewrite <- SG_plus. reflexivity. Qed.
Lemma SG_app base l m : G (fun i => rsum_list (fun t => at_ t i * Rpower base (INR i)) (l ++ m)) = G (fun i => rsum_list (fun t => at_ t i * Rpower base (INR i)) l) + G (fun i => rsum_list (fun t => at_ t i * Rpower base (INR i)) m).
Proof.
  rewrite <- SG_plus. apply SG_ext. intros i _. induction l as [|t l IH]; cbn [app]; [unfold rsum_list at 2; cbn; ring|].
  change (rsum_list ?f (?x :: ?y)) with (f x + rsum_list f y). rewrite IH. ring.
Qed.
Lemma all_side base l : Forall (fun t => term_fine a b n dec type base (fun i => at_ t i * Rpower base (INR i)) t) l -> forall bound c bound' c', (c <= 1)%Z ->
  all_of_sum a b dec (INR n) type base (bound, c) l = Some (bound', c') ->
  side type (bound' - bound) (G (fun i => rsum_list (fun t => at_ t i * Rpower base (INR i)) l)) /\ (c' <= 1)%Z.
Proof.
  induction 1 as [|t l H _ IH]; intros bound c bound' c' Hc E; cbn [all_of_sum] in E.
  - assert (bound = bound' /\ c = c') as [<- <-] by (split; congruence). split; [|easy]. cbn. rewrite SG_zero. destruct type; cbn [side]; lra.
  - destruct (one_of_sum a b dec (INR n) type base (bound, c) t) as [[b2 c2]|] eqn:E1; [|discriminate]. unfold one_of_sum in E1. cbn [fst snd] in E1.
    destruct (step_side base _ t bound c b2 c2 H (fun i _ => eq_refl) Hc E1) as [S1 C1]. destruct (IH _ _ _ _ C1 E) as [S2 C2]. split; [|easy].
    apply (side_eq _ _ _ _ (side_plus _ _ _ _ S1 S2)); [ring|]. symmetry. apply SG_cons.
Qed.
Lemma coefficient_side base c bound k bound' k' : coefficient_fine a b n dec type base c -> (k <= 1)%Z ->
  poly_or_no_poly a b dec (INR n) type c base (bound, k) = Some (bound', k') ->
  side type (bound' - bound) (G (fun i => rsum_list (fun t => at_ t i * Rpower base (INR i)) (terms_of c))) /\ (k' <= 1)%Z.
Proof.
  intros F Hk E. destruct c as [|t|l]; cbn [poly_or_no_poly terms_of fst snd] in *.
  - assert (bound = bound' /\ k = k') as [<- <-] by (split; congruence). split; [|easy]. cbn. rewrite SG_zero. destruct type; cbn [side]; lra.
  - destruct F as [-> F]. assert (X : forall i, (1 <= i)%nat -> at_ t i = at_ t i * Rpower 1 (INR i)) by (intros; rewrite Rp_one; ring).
    destruct (step_side 1 (at_ t) t bound k bound' k' F X Hk E) as [S1 C1]. split; [|easy]. refine (side_eq _ _ _ _ S1 eq_refl _). apply SG_ext. intros i _. cbn. rewrite Rp_one. ring.
  - exact (all_side base l F bound k bound' k' Hk E).
Qed.
Lemma group_side g st st' : group_fine a b n dec type g -> (snd st <= 1)%Z -> one_group a b dec (INR n) type g st = Done st' -> side type (fst st' - fst st) (G (group_at g)) /\ (snd st' <= 1)%Z.
Proof.
  intros (base & Eb & Fn & Fp) Hc. destruct st as [bound k]. unfold one_group, group_at. rewrite Eb. destruct (Rltb 0 base) eqn:P; cbn [negb]; [|discriminate].
  rewrite (SG_app base). 
  assert (Second : forall st1 st2, (snd st1 <= 1)%Z -> lift (poly_or_no_poly a b dec (INR n) type (no_poly_coeff g) base st1) = Done st2 ->
    side type (fst st2 - fst st1) (G (fun i => rsum_list (fun t => at_ t i * Rpower base (INR i)) (terms_of (no_poly_coeff g)))) /\ (snd st2 <= 1)%Z).
  { intros [b1 k1] [b2 k2] H1 H2. destruct (poly_or_no_poly _ _ _ _ _ _ _ _) as [[b3 k3]|] eqn:E2; [|discriminate]. cbn [lift] in H2. assert (b3 = b2 /\ k3 = k2) as [-> ->] by (split; congruence). exact (coefficient_side base _ _ _ _ _ Fn H1 E2). }
  assert (First : coefficient_fine a b n dec type base (poly_coeff g) -> forall st1, lift (poly_or_no_poly a b dec (INR n) type (poly_coeff g) base (bound, k)) = Done st1 ->
    side type (fst st1 - bound) (G (fun i => rsum_list (fun t => at_ t i * Rpower base (INR i)) (terms_of (poly_coeff g)))) /\ (snd st1 <= 1)%Z).
  { intros F [b1 k1] H2. destruct (poly_or_no_poly _ _ _ _ _ _ _ _) as [[b3 k3]|] eqn:E2; [|discriminate]. cbn [lift] in H2. assert (b3 = b1 /\ k3 = k1) as [-> ->] by (split; congruence). exact (coefficient_side base _ _ _ _ _ F Hc E2). }
  assert (Both : forall st1, side type (fst st1 - bound) (G (fun i => rsum_list (fun t => at_ t i * Rpower base (INR i)) (terms_of (poly_coeff g)))) /\ (snd st1 <= 1)%Z ->
    lift (poly_or_no_poly a b dec (INR n) type (no_poly_coeff g) base st1) = Done st' ->
    side type (fst st' - fst (bound, k)) (G (fun i => rsum_list (fun t => at_ t i * Rpower base (INR i)) (terms_of (poly_coeff g))) + G (fun i => rsum_list (fun t => at_ t i * Rpower base (INR i)) (terms_of (no_poly_coeff g)))) /\ (snd st' <= 1)%Z).
  { intros st1 [S1 C1] H2. destruct (Second st1 st' C1 H2) as [S2 C2]. split; [|easy]. apply (side_eq _ _ _ _ (side_plus _ _ _ _ S1 S2)); [cbn [fst]; ring|reflexivity]. }
  assert (Expo : base <> 1 -> forall t c v, poly_coeff g = One t -> known t = Some (Mono c 0) -> (forall i, at_ t i = c) -> 0 < c -> 1 < base -> 1 <= a -> sharper a (INR b) (INR n) type (Expn c base) = Some v ->
    side type (bound + v - bound) (G (fun i => rsum_list (fun t => at_ t i * Rpower base (INR i)) (terms_of (poly_coeff g)))) /\ (k <= 1)%Z).
  { intros _ t c v -> _ Et C B A V. split; [|exact Hc]. apply (side_eq v _ (G (addend_at (Expn c base)))); [|ring|].
    - revert V. revert Hlow. destruct type; intros Hlow V; cbn [side].
      + apply (sharper_lower a b n Ha Hb Hn (Expn c base) v B ltac:(intros (? & X & _); discriminate) (fun _ => Hlow eq_refl) V).
      + apply (sharper_upper a b n Ha Hb Hn (Expn c base) v B ltac:(intros (? & X & _); discriminate) ltac:(cbn; lra) V).
    - apply SG_ext. intros i _. cbn. rewrite Et. ring. }
  destruct (Reqb base 1) eqn:B1.
  - apply Reqb_true in B1. destruct Fp as [Fp|(t & c & _ & _ & _ & _ & B & _)]; [|lra]. subst base.
    destruct (lift (poly_or_no_poly a b dec (INR n) type (poly_coeff g) 1 (bound, k))) as [| |st1] eqn:E1; cbn [bind]; try discriminate. intros H2. exact (Both st1 (First Fp st1 eq_refl) H2).
  - apply Reqb_false in B1. specialize (Expo B1). intros H.
    match type of H with bind ?m _ = _ => destruct m as [| |st1] eqn:E1 end; cbn [bind] in H; try discriminate. refine (Both st1 _ H). clear H Both Second.
    destruct Fp as [Fp|(t & c & E2 & E3 & E4 & C & B & A)].
    + assert (Triv : forall st1, Done (bound, k) = Done st1 -> poly_coeff g = Zero -> side type (fst st1 - bound) (G (fun i => rsum_list (fun t => at_ t i * Rpower base (INR i)) (terms_of (poly_coeff g)))) /\ (snd st1 <= 1)%Z).
      { intros st2 X ->. assert (st2 = (bound, k)) as -> by congruence. split; [|exact Hc]. cbn. rewrite SG_zero. destruct type; cbn [side]; lra. }
      destruct (poly_coeff g) as [|t|l] eqn:Ep.
      * apply Triv; easy.
      * cbn [coefficient_fine] in Fp. destruct Fp. contradiction.
      * assert (sharper_exponential a base (Sum l) = None) as X by (unfold sharper_exponential; destruct (Rltb a 1); reflexivity). rewrite X in E1. apply First; assumption.
    + rewrite E2 in E1. unfold sharper_exponential in E1. assert (Rltb a 1 = false) as X by (apply Rltb_false; lra). rewrite X, E3 in E1. assert (Reqb 0 0 = true) as Y by (apply Reqb_true; reflexivity). rewrite Y in E1.
      destruct (sharper a (INR b) (INR n) type (Expn c base)) as [v|] eqn:V.
      * assert (st1 = (bound + v, k)) as -> by (cbn [fst snd] in E1; congruence). apply (Expo t c v); assumption.
      * assert (Reqb c 0 = false) as Z by (apply Reqb_false; lra). rewrite Z in E1. discriminate.
Qed.
Lemma groups_side gs : Forall (group_fine a b n dec type) gs -> forall st st', (snd st <= 1)%Z -> compute_non_homogeneous_part a b dec (INR n) type gs st = Done st' ->
  side type (fst st' - fst st) (G (groups_at gs)) /\ (snd st' <= 1)%Z.
Proof.
  induction 1 as [|g gs Hg _ IH]; intros st st' Hc E; cbn [compute_non_homogeneous_part] in E.
  - assert (st = st') as <- by congruence. split; [|easy]. change (groups_at []) with (fun _ : nat => 0). rewrite SG_zero. destruct type; cbn [side]; lra.
  - destruct (one_group a b dec (INR n) type g st) as [| |st1] eqn:E1; cbn [bind] in E; try discriminate. destruct (group_side g st st1 Hg Hc E1) as [S1 C1]. destruct (IH st1 st' C1 E) as [S2 C2]. split; [|easy].
    apply (side_eq _ _ _ _ (side_plus _ _ _ _ S1 S2)); [ring|]. rewrite <- SG_plus. reflexivity.
Qed.
Lemma bound_side gs x u : Forall (group_fine a b n dec type) gs -> divide_and_conquer a b (groups_at gs) x -> approximate a b dec type 1 gs n x = Done u -> side type u (x n).
Proof.
  intros F [Hx H0] E. unfold approximate in E. destruct (compute_non_homogeneous_part _ _ _ _ _ _ _) as [| |[bd c]] eqn:E1; cbn [bind] in E; try discriminate.
  destruct (groups_side gs F (0, (-1)%Z) (bd, c) ltac:(cbn; lia) E1) as [S1 C1]. cbn [fst snd] in *. destruct (Z.ltb_spec 1 c); [lia|].
  assert (u = bd + term_about_initial_condition type a b n x) as ->. { unfold initial_condition_term in E. unfold term_about_initial_condition. cbn [Nat.ltb Nat.leb] in E. congruence. }
  rewrite (explicit a b _ x Hb Hx (ilog b n) n Hn eq_refl). change (rsum _ _) with (G (groups_at gs)).
  revert S1. destruct type; cbn [side]; intros S1; [pose proof (ic_lower a b n Ha Hb Hn x H0)|pose proof (ic_upper a b n Ha Hb Hn x H0)]; lra.
Qed.
End At.
