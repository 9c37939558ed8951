From Coq Require Import ZArith List Bool Lia Field.
From Verif Require Import Fld FPoly SumPolyModel.
Import ListNotations.

Section Proofs.
Context {K : Fld}.
Add Field KFsp : (fth K).
Local Open Scope fld_scope.

(** * Falling products *)
Lemma falling_succ_l (y : K) i : falling_product (y + 1) (S i) = (y + 1) * falling_product y i.
Proof.
  induction i as [|i IH].
  - cbn [falling_product ofn Nat.iter nat_rect]. ring_simplify. unfold ofn; cbn. ring.
  - change (falling_product (y + 1) (S (S i))) with (falling_product (y + 1) (S i) * (y + 1 - ofn (S i))).
    rewrite IH. cbn [falling_product]. rewrite ofn_S. ring.
Qed.
Lemma falling_S (y : K) i : falling_product y (S i) = falling_product y i * (y - ofn i).
Proof. reflexivity. Qed.
Lemma falling_small (m i : nat) : (m < i)%nat -> falling_product (ofn m : K) i = 0.
Proof.
  induction i as [|i IH]; intros H; [lia|]. rewrite falling_S.
  destruct (Nat.eq_dec m i) as [->|]; [ring|]. rewrite IH by lia. ring.
Qed.
Lemma falling_neq0 (t : K) i : (forall j, (j < i)%nat -> t <> ofn j) -> falling_product t i <> 0.
Proof.
  induction i as [|i IH]; intros H; [apply one_neq_zero|]. rewrite falling_S.
  apply mul_neq0; [apply IH; intros; apply H; lia|]. apply sub_neq0, H. lia.
Qed.

Lemma sum_falling i M :
  bsum M (fun j => falling_product (ofn j : K) i) = falling_product (ofn M) (S i) / ofn (S i).
Proof.
  assert (Hi : ofn (S i) <> (0 : K)) by apply ofn_neq0.
  induction M as [|M IH].
  - cbn [bsum]. rewrite falling_small by lia. field. auto.
  - rewrite bsum_S, IH. rewrite (ofn_S' M).
    rewrite falling_succ_l, falling_S.
    apply (mul_cancel_l (ofn (S i))); auto.
    transitivity ((falling_product (ofn M) i * (ofn M - ofn i + ofn (S i))) : K); [field; auto|].
    rewrite ofn_S. field. exact Hi.
Qed.

(** * sum_falling_prod_times_exp *)
Definition sterm (k : nat) (x : K) (N i : nat) : K :=
  falling_product (ofn N + 1) i / ffact i * zpow x (Z.of_nat N + 1 - Z.of_nat i)
             * zpow (1 - x) (Z.of_nat i - Z.of_nat k - 1).
Lemma sfp_loop_bsum : forall cnt i k x N q,
  sfp_loop cnt i k x N q = q - bsum cnt (fun t => sterm k x N (i + t)).
Proof.
  induction cnt as [|c IH]; intros i k x N q; cbn [sfp_loop]; [cbn; ring|].
  cbv zeta. rewrite IH, bsum_first, Nat.add_0_r.
  rewrite (bsum_ext c (fun t => sterm k x N (i + S t)%nat) (fun t => sterm k x N (S i + t)%nat)).
  - unfold sterm. ring.
  - intros j _. f_equal. lia.
Qed.

(** Binomial-like coefficients. *)
Definition B (M i : nat) : K := falling_product (ofn M) i / ffact i.
Lemma B_0 M : B M 0 = 1.
Proof. unfold B. cbn. field. apply one_neq_zero. Qed.
Lemma B_pascal M i : B (S M) (S i) = B M (S i) + B M i.
Proof.
  unfold B. rewrite (ofn_S' M).
  rewrite falling_succ_l, falling_S, ffact_S.
  pose proof (ffact_neq0 (K := K) i) as Hf. pose proof (ofn_neq0 (K := K) i) as Hn.
  rewrite ofn_S in *. field. auto.
Qed.

Section Exp.
Variables (x : K) (k : nat).
Hypothesis Hx : x <> 0.
Hypothesis Hx1 : x <> 1.
Let y := 1 - x.
Let Hy : y <> 0. Proof. unfold y. apply sub_neq0; auto. Qed.

Definition u (M i : nat) : K := B M i * (x ^ M / x ^ i) * (y ^ i / y ^ (S k)).
Lemma sterm_u N i : sterm k x N i = u (S N) i.
Proof.
  unfold sterm, u, B. rewrite (ofn_S' N).
  replace (Z.of_nat N + 1 - Z.of_nat i)%Z with (Z.of_nat (S N) - Z.of_nat i)%Z by lia.
  replace (Z.of_nat i - Z.of_nat k - 1)%Z with (Z.of_nat i - Z.of_nat (S k))%Z by lia.
  fold y. rewrite !zpow_sub_nat by auto. reflexivity.
Qed.
Lemma u_step M i : u (S M) (S i) = x * u M (S i) + y * u M i.
Proof.
  unfold u. rewrite B_pascal. cbn [fpow]. unfold y. fold y.
  field. fside.
Qed.
Lemma u_step0 M : u (S M) 0 = x * u M 0.
Proof. unfold u. rewrite !B_0. cbn [fpow]. field. fside. Qed.
Definition T (M : nat) : K := bsum (S k) (u M).
Lemma T_step M : T (S M) = T M - y * u M k.
Proof.
  unfold T. rewrite bsum_first, u_step0.
  rewrite (bsum_ext k (fun i => u (S M) (S i)) (fun i => x * u M (S i) + y * u M i)) by (intros; apply u_step).
  rewrite bsum_add, !bsum_scal.
  assert (E1 : bsum k (fun i => u M (S i)) = bsum (S k) (u M) - u M 0) by (rewrite bsum_first; ring).
  rewrite E1, bsum_S. unfold y. ring.
Qed.
Lemma T_0 : T 0 = / y ^ (S k).
Proof.
  unfold T. rewrite bsum_first, bsum_0.
  - unfold u. rewrite B_0. cbn [fpow]. field. fside.
  - intros i _. unfold u, B. rewrite falling_small by lia. field.
    fside.
Qed.
Lemma sfpte_value N :
  sum_falling_prod_times_exp k x N = (/ y ^ (S k) - T (S N)) * (ffact k * x ^ k).
Proof.
  unfold sum_falling_prod_times_exp. rewrite sfp_loop_bsum, zpow_ofnat.
  replace (- Z.of_nat k - 1)%Z with (- Z.of_nat (S k))%Z by lia. fold y.
  rewrite zpow_neg, zpow_ofnat by auto.
  unfold T. rewrite (bsum_ext (S k) (u (S N)) (fun t => sterm k x N (0 + t))); auto.
  intros i _. rewrite sterm_u. reflexivity.
Qed.
Lemma partial_T M : bsum M (fun j => falling_product (ofn j) k * x ^ j)
  = (/ y ^ (S k) - T M) * (ffact k * x ^ k).
Proof.
  induction M as [|M IH].
  - cbn [bsum]. rewrite T_0. ring.
  - rewrite bsum_S, IH, T_step. unfold u, B. cbn [fpow]. field.
    fside.
Qed.
Lemma sum_falling_prod_times_exp_correct N :
  sum_falling_prod_times_exp k x N = bsum (S N) (fun j => falling_product (ofn j) k * x ^ j).
Proof. rewrite partial_T. apply sfpte_value. Qed.
End Exp.

(** * poly_dec *)
Fixpoint nsum (l : list K) (i : nat) (t : K) : K :=
  match l with [] => 0 | s :: l => s * falling_product t i + nsum l (S i) t end.

Lemma nsum_small l i (m : nat) : (m < i)%nat -> nsum l i (ofn m) = 0.
Proof.
  revert i. induction l as [|s l IH]; intros i H; cbn [nsum]; auto.
  rewrite IH by lia. rewrite falling_small by auto. ring.
Qed.

Lemma poly_dec_loop_correct : forall cnt i (pv q pre : K -> K) r,
  (forall t, (forall j, (j < i)%nat -> t <> ofn j) -> q t * falling_product t i = pv t - pre t) ->
  r = q (ofn i) ->
  forall m, (m <= cnt)%nat ->
    pv (ofn (i + m)) = pre (ofn (i + m)) + nsum (r :: poly_dec_loop cnt i q r) i (ofn (i + m)).
Proof.
  induction cnt as [|c IH]; intros i pv q pre r Hq Hr m Hm.
  - assert (m = 0)%nat by lia. subst m. rewrite Nat.add_0_r. cbn [poly_dec_loop nsum].
    rewrite Hr, Hq; [ring|]. intros j Hj E. apply ofn_inj in E. lia.
  - destruct m as [|m].
    + rewrite Nat.add_0_r. cbn [nsum]. rewrite nsum_small by lia.
      rewrite Hr, Hq; [ring|]. intros j Hj E. apply ofn_inj in E. lia.
    + cbn [poly_dec_loop]. cbv zeta.
      set (q' := fun t : K => (q t - r) / (t - ofn i)).
      replace (i + S m)%nat with (S i + m)%nat by lia.
      rewrite (IH (S i) pv q' (fun t => pre t + r * falling_product t i) (q' (ofn (S i)))); auto; try lia.
      * change ((q (ofn (S i)) - r) / (ofn (S i) - ofn i)) with (q' (ofn (S i))).
        set (r' := q' (ofn (S i))). cbn [nsum]. ring.
      * intros t Ht. unfold q'. rewrite falling_S.
        assert (Hti : t - ofn i <> 0) by (apply sub_neq0, Ht; lia).
        transitivity (q t * falling_product t i - r * falling_product t i); [field; auto|].
        rewrite Hq; [ring|]. intros; apply Ht; lia.
Qed.

Fixpoint fallpoly (i : nat) : list K :=
  match i with O => [1] | S i => pmul (fallpoly i) [- ofn i; 1] end.
Lemma fallpoly_eval i t : peval (fallpoly i) t = falling_product t i.
Proof.
  induction i as [|i IH]; cbn [fallpoly]; [cbn; ring|].
  rewrite peval_pmul, IH, falling_S. cbn [peval]. ring.
Qed.
Lemma fallpoly_length i : length (fallpoly i) = S i.
Proof.
  induction i as [|i IH]; auto. cbn [fallpoly]. rewrite length_pmul.
  - rewrite IH. cbn. lia.
  - destruct (fallpoly i); [discriminate IH|discriminate].
  - discriminate.
Qed.
Fixpoint npoly (l : list K) (i : nat) : list K :=
  match l with [] => [] | s :: l => padd (pscal s (fallpoly i)) (npoly l (S i)) end.
Lemma npoly_eval l i t : peval (npoly l i) t = nsum l i t.
Proof.
  revert i; induction l as [|s l IH]; intros i; cbn [npoly nsum]; auto.
  rewrite peval_padd, peval_pscal, fallpoly_eval, IH. reflexivity.
Qed.
Lemma npoly_length l i : (length (npoly l i) <= i + length l)%nat.
Proof.
  revert i; induction l as [|s l IH]; intros i; cbn [npoly length]; [lia|].
  rewrite length_padd, length_pscal, fallpoly_length. specialize (IH (S i)). lia.
Qed.
Lemma poly_dec_loop_length cnt i q r : length (poly_dec_loop cnt i q r : list K) = cnt.
Proof. revert i q r; induction cnt; intros; cbn; auto. Qed.

Lemma poly_dec_length p : length (poly_dec p : list K) = S (pdegree p).
Proof. unfold poly_dec. cbn [length]. rewrite poly_dec_loop_length. reflexivity. Qed.

Lemma poly_dec_correct (p : list K) t : peval p t = nsum (poly_dec p) 0 t.
Proof.
  set (d := pdegree p).
  assert (Hpts : forall m, (m <= d)%nat -> peval p (ofn m) = nsum (poly_dec p) 0 (ofn m)).
  { intros m Hm. unfold poly_dec. fold d.
    pose proof (poly_dec_loop_correct d 0 (peval p) (peval p) (fun _ => 0) (nth 0 p 0)) as H.
    specialize (H ltac:(intros; cbn; ring)).
    specialize (H ltac:(cbn; symmetry; apply peval_0) m Hm). cbn [Nat.add] in H.
    rewrite H. ring. }
  set (E := padd (trim p) (pscal (- (1)) (npoly (poly_dec p) 0))).
  assert (A : allzero E).
  { apply (too_many_roots (npts (S d))); [apply npts_NoDup| |].
    - rewrite npts_length. unfold E. rewrite length_padd, length_pscal.
      pose proof (npoly_length (poly_dec p) 0) as L. rewrite poly_dec_length in L. fold d in L.
      assert (length (trim p) <= S d)%nat by (unfold d, pdegree; lia). lia.
    - intros a Ha. unfold npts in Ha. apply in_map_iff in Ha. destruct Ha as (m & <- & Hm).
      apply in_seq in Hm. unfold E. rewrite peval_padd, peval_pscal, npoly_eval, peval_trim.
      rewrite Hpts by lia. ring. }
  apply sub_eq0. transitivity (peval E t); [|apply peval_allzero; auto].
  unfold E. rewrite peval_padd, peval_pscal, npoly_eval, peval_trim. ring.
Qed.

(** * sum_poly *)
Lemma sum_poly_loop_nsum : forall (l : list K) i N q,
  sum_poly_loop i l N q = q + bsum (S N) (fun j => nsum l i (ofn j)).
Proof.
  induction l as [|s l IH]; intros i N q; cbn [sum_poly_loop nsum].
  - rewrite bsum_zero. ring.
  - cbv zeta. rewrite IH. rewrite bsum_add, bsum_scal, sum_falling.
    rewrite (ofn_S' N).
    replace (i + 1)%nat with (S i) by lia.
    field. apply ofn_neq0.
Qed.
Lemma sum_poly_correct (p : list K) N : sum_poly p N = bsum (S N) (fun j => peval p (ofn j)).
Proof.
  unfold sum_poly. rewrite sum_poly_loop_nsum.
  rewrite (bsum_ext (S N) (fun j => peval p (ofn j)) (fun j => nsum (poly_dec p) 0 (ofn j)))
    by (intros; apply poly_dec_correct). ring.
Qed.

(** * sum_poly_times_exponentials *)
Lemma spte_loop_nsum : forall (l : list K) i (alpha : K) N q, alpha <> 0 -> alpha <> 1 ->
  spte_loop i l alpha N q = q + bsum (S N) (fun j => nsum l i (ofn j) * alpha ^ j).
Proof.
  induction l as [|s l IH]; intros i alpha N q H0 H1; cbn [spte_loop nsum].
  - rewrite (bsum_0 (S N) (fun j => 0 * alpha ^ j)) by (intros; ring). ring.
  - rewrite IH by auto.
    rewrite sum_falling_prod_times_exp_correct by auto.
    rewrite (bsum_ext (S N) (fun j => (s * falling_product (ofn j) i + nsum l (S i) (ofn j)) * alpha ^ j)
      (fun j => s * (falling_product (ofn j) i * alpha ^ j) + nsum l (S i) (ofn j) * alpha ^ j))
      by (intros; ring).
    rewrite bsum_add, bsum_scal. ring.
Qed.
Lemma sum_poly_times_exponentials_correct (p : list K) N (alpha : K) : alpha <> 0 ->
  sum_poly_times_exponentials p N alpha = bsum (S N) (fun j => peval p (ofn j) * alpha ^ j).
Proof.
  intros H0. unfold sum_poly_times_exponentials.
  destruct (feqb_spec K alpha 1) as [->|H1].
  - rewrite sum_poly_correct. apply bsum_ext. intros. rewrite fpow_1l. ring.
  - rewrite spte_loop_nsum by auto.
    rewrite (bsum_ext (S N) (fun j => peval p (ofn j) * alpha ^ j)
               (fun j => nsum (poly_dec p) 0 (ofn j) * alpha ^ j))
      by (intros; rewrite <- poly_dec_correct; reflexivity). ring.
Qed.

(** * sum_poly_alt *)
Lemma alt_inner_spec : forall j i (c : nat -> K) sum,
  (forall k, fst (alt_inner i j c sum) k =
     if (Nat.leb 2 k && Nat.leb k j)%bool then ofn i * c (k - 1)%nat / ofn k else c k) /\
  snd (alt_inner i j c sum) = sum + bsum (j - 1) (fun t => ofn i * c (S t) / ofn (S (S t))).
Proof.
  induction j as [|j IH]; intros i c sum; cbn [alt_inner].
  - split; [|cbn; ring]. intros k. destruct k as [|[|k]]; reflexivity.
  - destruct (Nat.ltb_spec 1 (S j)) as [L|L].
    + cbv zeta. destruct (IH i (upd c (S j) (ofn i * c j / ofn (S j))) (sum + ofn i * c j / ofn (S j))) as [H1 H2].
      split.
      * intros k. rewrite H1. unfold upd.
        destruct (Nat.leb_spec 2 k), (Nat.leb_spec k j), (Nat.leb_spec k (S j)); cbn [andb]; try lia;
        destruct (Nat.eqb_spec k (S j)); try lia; auto.
        -- destruct (Nat.eqb_spec (k - 1) (S j)); [lia|auto].
        -- subst k. f_equal. f_equal. f_equal. lia.
      * rewrite H2. destruct j as [|j]; [lia|].
        replace (S j - 1)%nat with j by lia. replace (S (S j) - 1)%nat with (S j) by lia.
        rewrite bsum_S.
        rewrite (bsum_ext j (fun t => ofn i * upd c (S (S j)) (ofn i * c (S j) / ofn (S (S j))) (S t) / ofn (S (S t)))
                            (fun t => ofn i * c (S t) / ofn (S (S t)))).
        -- ring.
        -- intros t Ht. unfold upd. destruct (Nat.eqb_spec (S t) (S (S j))); [lia|auto].
    + assert (j = 0)%nat by lia. subst j. split; [|cbn; ring].
      intros k. destruct k as [|[|k]]; reflexivity.
Qed.

Definition clist (c : nat -> K) (m : nat) : list K := map c (seq 0 m).
Lemma clist_nth (c : nat -> K) m j : nth j (clist c m) 0 = if Nat.ltb j m then c j else 0.
Proof.
  unfold clist. destruct (Nat.ltb_spec j m).
  - rewrite (nth_indep _ 0 (c 0%nat)) by (rewrite map_length, seq_length; auto).
    rewrite map_nth, seq_nth by auto. reflexivity.
  - apply nth_overflow. rewrite map_length, seq_length. auto.
Qed.
Lemma clist_length c m : length (clist c m) = m.
Proof. unfold clist. rewrite map_length, seq_length. reflexivity. Qed.
Lemma clist_eval (c : nat -> K) m x : peval (clist c m) x = bsum m (fun j => c j * x ^ j).
Proof.
  rewrite peval_bsum, clist_length. apply bsum_ext. intros i Hi. rewrite clist_nth.
  destruct (Nat.ltb_spec i m); [auto|lia].
Qed.
Lemma alt_partial_eval : forall m (c : nat -> K) N s,
  alt_partial m c N s = s + bsum m (fun t => ofn N ^ S t * c (S t)).
Proof.
  induction m as [|m IH]; intros c N s; cbn [alt_partial]; [cbn; ring|].
  rewrite IH, bsum_S. ring.
Qed.

(** After iteration [i] the array holds the coefficients of the power sum. *)
Definition GoodC (i : nat) (c : nat -> K) : Prop :=
  c 0%nat = 0 /\
  forall x, peval (clist c (i + 2)) x = peval (clist c (i + 2)) (x - 1) + x ^ i.

Lemma peval_ext_nth (p q : list K) : (forall i, nth i p 0 = nth i q 0) -> forall x : K, peval p x = peval q x.
Proof.
  intros H x. apply sub_eq0. transitivity (peval (padd p (pscal (- (1)) q)) x).
  - rewrite peval_padd, peval_pscal. ring.
  - apply peval_allzero. apply allzero_nth. intros i. rewrite nth_padd.
    assert (E : nth i (pscal (- (1)) q) 0 = - (1) * nth i q 0).
    { unfold pscal. replace 0 with (- (1) * 0 : K) at 1 by ring. apply map_nth. }
    rewrite E, H. ring.
Qed.

Fixpoint xpow (n : nat) : list K := match n with O => [1] | S n => 0 :: xpow n end.
Lemma xpow_eval n x : peval (xpow n) x = x ^ n.
Proof. induction n; cbn [xpow peval fpow]; [ring|]. rewrite IHn. ring. Qed.
Lemma xpow_pd n x : pd (xpow (S n)) x = ofn (S n) * x ^ n.
Proof.
  induction n as [|n IH].
  - cbn [xpow]. rewrite !pd_cons, pd_nil. cbn [peval fpow]. rewrite ofn_1. ring.
  - change (xpow (S (S n))) with (0 :: xpow (S n)). rewrite pd_cons, IH, xpow_eval.
    rewrite (ofn_S (S n)). cbn [fpow]. ring.
Qed.

Lemma good_step i (c : nat -> K) : GoodC i c ->
  let '(c1, sum) := alt_inner (S i) (S i + 1) c 0 in
  let c2 := upd (upd c1 1 (1 - sum)) 0 0 in
  GoodC (S i) c2.
Proof.
  intros [H0 HD]. destruct (alt_inner_spec (S i + 1) (S i) c 0) as [H1 H2].
  destruct (alt_inner (S i) (S i + 1) c 0) as [c1 sum]. cbn [fst snd] in *. cbv zeta.
  set (c2 := upd (upd c1 1 (1 - sum)) 0 0).
  assert (Hc0 : c2 0%nat = 0) by reflexivity.
  assert (Hc1 : c2 1%nat = 1 - sum) by reflexivity.
  assert (Hcj : forall j, (2 <= j <= S (S i))%nat -> c2 j = ofn (S i) * c (j - 1)%nat / ofn j).
  { intros j Hj. unfold c2, upd. destruct (Nat.eqb_spec j 0); [lia|]. destruct (Nat.eqb_spec j 1); [lia|].
    rewrite H1. destruct (Nat.leb_spec 2 j), (Nat.leb_spec j (S i + 1)); cbn [andb]; try lia. auto. }
  split; auto.
  set (L := clist c2 (S i + 2)). set (L0 := clist c (i + 2)).
  (* derivative of L *)
  assert (HdL : forall x, pd L x = c2 1%nat + ofn (S i) * peval L0 x).
  { intros x. unfold pd.
    transitivity (peval (padd [c2 1%nat] (pscal (ofn (S i)) L0)) x).
    2: { rewrite peval_padd, peval_pscal. cbn [peval]. ring. }
    apply peval_ext_nth. intros j. rewrite nth_pderiv, nth_padd.
    assert (E : nth j (pscal (ofn (S i)) L0) 0 = ofn (S i) * nth j L0 0).
    { unfold pscal. replace 0 with (ofn (S i) * 0 : K) at 1 by ring. apply map_nth. }
    rewrite E. unfold L, L0. rewrite !clist_nth.
    destruct j as [|j].
    - destruct (Nat.ltb_spec 1 (S i + 2)); [|lia]. destruct (Nat.ltb_spec 0 (i + 2)); [|lia].
      rewrite H0, ofn_1. cbn [nth]. ring.
    - destruct (Nat.ltb_spec (S (S j)) (S i + 2)), (Nat.ltb_spec (S j) (i + 2)); try lia.
      + rewrite Hcj by lia. replace (S (S j) - 1)%nat with (S j) by lia.
        destruct j; cbn [nth]; field; apply ofn_neq0.
      + destruct j; cbn [nth]; ring. }
  set (D := padd L (pscal (- (1)) (padd (pshift L) (xpow (S i))))).
  assert (HdD : forall x, pd D x = 0).
  { intros x. unfold D. rewrite pd_padd, pd_pscal, pd_padd, pd_pshift, !HdL, xpow_pd.
    fold L0 in HD. rewrite (HD x). ring. }
  assert (HL1 : peval L 1 = 1).
  { unfold L. rewrite clist_eval. replace (S i + 2)%nat with (S (S (S i))) by lia.
    rewrite 2!bsum_first, Hc0, Hc1.
    replace (S i + 1 - 1)%nat with (S i) in H2 by lia.
    rewrite (bsum_ext (S i) (fun t => c2 (S (S t)) * 1 ^ S (S t)) (fun t => ofn (S i) * c (S t) / ofn (S (S t)))).
    - rewrite H2. rewrite !fpow_1l. ring.
    - intros t Ht. rewrite Hcj by lia. rewrite fpow_1l. replace (S (S t) - 1)%nat with (S t) by lia. ring. }
  assert (HL0 : peval L 0 = 0).
  { rewrite peval_0. unfold L. rewrite clist_nth. exact Hc0. }
  intros x. fold L.
  assert (ED : peval D x = peval D 1) by (apply pd_zero_const; auto).
  assert (E1 : peval D 1 = 0).
  { unfold D. rewrite peval_padd, peval_pscal, peval_padd, peval_pshift, xpow_eval, HL1.
    replace (1 - 1 : K) with (0 : K) by ring. rewrite HL0, fpow_1l. ring. }
  rewrite E1 in ED. unfold D in ED.
  rewrite peval_padd, peval_pscal, peval_padd, peval_pshift, xpow_eval in ED.
  apply sub_eq0. rewrite <- ED. ring.
Qed.

Lemma good_value i (c : nat -> K) N : GoodC i c ->
  bsum (i + 1) (fun t => ofn N ^ S t * c (S t)) = bsum N (fun k => ofn (S k) ^ i).
Proof.
  intros [H0 HD].
  assert (E : bsum (i + 1) (fun t => ofn N ^ S t * c (S t)) = peval (clist c (i + 2)) (ofn N)).
  { rewrite clist_eval. replace (i + 2)%nat with (S (i + 1)) by lia. rewrite bsum_first, H0.
    rewrite (bsum_ext (i + 1) (fun t => c (S t) * ofn N ^ S t) (fun t => ofn N ^ S t * c (S t))) by (intros; ring).
    ring. }
  rewrite E. clear E. induction N as [|N IH].
  - rewrite ofn_0, peval_0, clist_nth. destruct (Nat.ltb_spec 0 (i + 2)); [exact H0|lia].
  - rewrite bsum_S, <- IH, HD. do 2 f_equal. rewrite ofn_S'. ring.
Qed.

Lemma alt_outer_correct : forall cnt i (p : list K) c N acc, GoodC i c ->
  alt_outer cnt (S i) p c N acc =
  acc + bsum cnt (fun t => nth (S i + t) p 0 * bsum N (fun k => ofn (S k) ^ (S i + t))).
Proof.
  induction cnt as [|n IH]; intros i p c N acc HG; cbn [alt_outer]; [cbn; ring|].
  pose proof (good_step i c HG) as HG'. destruct (alt_inner (S i) (S i + 1) c 0) as [c1 sum].
  cbv zeta in *. rewrite IH by exact HG'. rewrite alt_partial_eval, good_value by exact HG'.
  rewrite bsum_first, Nat.add_0_r.
  rewrite (bsum_ext n (fun t => nth (S (S i) + t) p 0 * bsum N (fun k => ofn (S k) ^ (S (S i) + t)))
     (fun t => nth (S i + S t) p 0 * bsum N (fun k => ofn (S k) ^ (S i + S t)))).
  - ring.
  - intros t _. replace (S i + S t)%nat with (S (S i) + t)%nat by lia. reflexivity.
Qed.

Lemma good_0 : GoodC 0 (upd (upd (fun _ => 0) 0 0) 1 1).
Proof.
  split; [reflexivity|]. intros x. unfold clist. cbn [map seq Nat.add upd Nat.eqb peval fpow]. ring.
Qed.

Lemma sum_poly_alt_correct (p : list K) N :
  sum_poly_alt p N = bsum (S N) (fun j => peval p (ofn j)).
Proof.
  unfold sum_poly_alt. rewrite alt_outer_correct by apply good_0.
  set (d := pdegree p).
  assert (Hp : forall x, peval p x = bsum (S d) (fun i => nth i p 0 * x ^ i)).
  { intros x. rewrite <- peval_trim, peval_bsum.
    assert (L : (length (trim p) <= S d)%nat) by (unfold d, pdegree; lia).
    replace (S d) with (length (trim p) + (S d - length (trim p)))%nat by lia.
    rewrite bsum_app.
    rewrite (bsum_0 (S d - length (trim p))).
    - rewrite (bsum_ext (length (trim p)) (fun i => nth i p 0 * x ^ i) (fun i => nth i (trim p) 0 * x ^ i))
        by (intros; rewrite trim_nth; reflexivity). ring.
    - intros i _. rewrite <- trim_nth, nth_overflow by lia. ring. }
  rewrite (bsum_ext (S N) (fun j => peval p (ofn j))
             (fun j => bsum (S d) (fun i => nth i p 0 * ofn j ^ i))) by (intros; apply Hp).
  rewrite bsum_swap, bsum_first.
  rewrite (bsum_ext (S N) (fun i => nth 0 p 0 * ofn i ^ 0) (fun _ => nth 0 p 0)) by (intros; cbn [fpow]; ring).
  assert (E0 : forall n v, bsum n (fun _ => v : K) = ofn n * v).
  { induction n as [|n IHn]; intros v; cbn [bsum]; [rewrite ofn_0; ring|]. rewrite IHn, ofn_S. ring. }
  rewrite E0, (ofn_S' N).
  apply f_equal2; [reflexivity|]. apply bsum_ext. intros i Hi.
  rewrite bsum_scal, bsum_first. cbn [fpow Nat.add]. rewrite ofn_0.
  f_equal. ring.
Qed.

Lemma falling_bprod (t : K) i : falling_product t i = bprod i (fun j => t - ofn j).
Proof. induction i as [|i IH]; cbn [falling_product bprod]; auto. rewrite IH. reflexivity. Qed.
Lemma nsum_bsum (l : list K) i t :
  nsum l i t = bsum (length l) (fun j => nth j l 0 * falling_product t (i + j)).
Proof.
  revert i. induction l as [|s l IH]; intros i; cbn [nsum length]; auto.
  rewrite bsum_first, IH, Nat.add_0_r. cbn [nth]. f_equal. apply bsum_ext. intros j _.
  do 2 f_equal. lia.
Qed.
Lemma poly_dec_spec (p : list K) (t : K) :
  length (poly_dec p) = S (pdegree p) /\
  peval p t = bsum (S (pdegree p)) (fun i => nth i (poly_dec p) 0 * bprod i (fun j => t - ofn j)).
Proof.
  split; [apply poly_dec_length|]. rewrite poly_dec_correct, nsum_bsum, poly_dec_length.
  apply bsum_ext. intros i _. rewrite falling_bprod. reflexivity.
Qed.
Lemma sum_falling_prod_times_exp_spec (x : K) (k N : nat) : x <> 0 -> x <> 1 ->
  sum_falling_prod_times_exp k x N =
  bsum (S N) (fun j => bprod k (fun i => ofn j - ofn i) * x ^ j).
Proof.
  intros H0 H1. rewrite sum_falling_prod_times_exp_correct by auto.
  apply bsum_ext. intros j _. rewrite falling_bprod. reflexivity.
Qed.

End Proofs.
