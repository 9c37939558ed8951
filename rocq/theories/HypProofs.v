(** Proofs about hypergeometric terms. *)
From Coq Require Import ZArith QArith Qcanon Reals List String Bool Lra Lia Field.
From Verif Require Import Ast ExprModel ExprSpec ExprProofs1 ExprProofs2 ExprProofs3 HypModel HypSpec.
Import ListNotations.
From Verif Require Import RatRootProofs.
Local Open Scope R_scope.
Local Open Scope list_scope.
Set Bullet Behavior "Strict Subproofs".

(** * Products and sums of numbers *)
Definition rprod (l : list nat) (g : nat -> R) : R := fold_right (fun i acc => g i * acc) 1 l.
Lemma rprod_app l l' g : rprod (l ++ l') g = rprod l g * rprod l' g.
Proof. unfold rprod. induction l as [|i l IH]; cbn [app fold_right]; [lra|]. rewrite IH. lra. Qed.
Lemma rprod_ext l g g' : (forall i, In i l -> g i = g' i) -> rprod l g = rprod l g'.
Proof. intros H. induction l as [|i l IH]; [reflexivity|]. cbn. rewrite (H i (or_introl eq_refl)). f_equal. apply IH. intros j J. apply H. right; exact J. Qed.
Lemma rprod_nz l g : (forall i, In i l -> g i <> 0) -> rprod l g <> 0.
Proof. intros H. induction l as [|i l IH]; cbn; [lra|]. apply Rmult_integral_contrapositive. split; [apply H; left; reflexivity|apply IH; intros j J; apply H; right; exact J]. Qed.
Lemma rprod_shift n s g : rprod (seq (S s) n) g = rprod (seq s n) (fun i => g (S i)).
Proof. rewrite <- seq_shift. generalize (seq s n). intros l. unfold rprod. induction l as [|i l IH]; cbn [map fold_right]; [reflexivity|]. rewrite IH. reflexivity. Qed.
Lemma rprod_down j g : rprod (seq 0 j) (fun i => g (j - i)%nat) = rprod (seq 1 j) g.
Proof.
  induction j as [|j IH]; [reflexivity|]. rewrite (seq_S j 1), rprod_app. cbn [seq]. change (rprod (0%nat :: seq 1 j) (fun i => g (S j - i)%nat)) with (g (S j) * rprod (seq 1 j) (fun i => g (S j - i)%nat)).
  rewrite rprod_shift. cbn [Nat.sub]. rewrite IH. cbn. lra.
Qed.

Section Step.
Variables (I : interp) (G : ginac) (sbfe snum : expr -> expr) (nd : expr -> expr * expr).
Hypothesis HG : ginac_ok I G.

Lemma rpow_inv a : a <> 0 -> rpow a (-1) = Some (/ a).
Proof. intros H. unfold rpow. rewrite (as_int_IZR (-1)). destruct (Req_EM_T a 0); [contradiction|]. f_equal. unfold powerRZ. change (Pos.to_nat 1) with 1%nat. rewrite pow_1. reflexivity. Qed.
Lemma eval_minus_1 rho : eval I rho minus_1 = Some (-1).
Proof. cbn. rewrite rv_opp, rv_1. f_equal. Qed.
Lemma quotient_val rho a b x y : fine_quotient I G sbfe snum nd rho a b -> eval I rho a = Some x -> eval I rho b = Some y -> y <> 0 -> eval I rho (quotient G sbfe snum a b) = Some (x / y).
Proof.
  intros (K1 & K2 & K3 & _) Ea Eb Y. apply K3. apply (gmul_val I G HG); [apply K1, Ea|]. apply (gpow_val I G HG) with y (-1); [apply K2, Eb|apply eval_minus_1|apply rpow_inv, Y].
Qed.
Lemma quotient_split rho a b x y : fine_quotient I G sbfe snum nd rho a b -> eval I rho a = Some x -> eval I rho b = Some y -> y <> 0 ->
  exists n d, eval I rho (fst (nd (quotient G sbfe snum a b))) = Some n /\ eval I rho (snd (nd (quotient G sbfe snum a b))) = Some d /\ d <> 0 /\ n = x / y * d.
Proof. intros F Ea Eb Y. pose proof F as (_ & _ & _ & K). apply K. exact (quotient_val rho a b x y F Ea Eb Y). Qed.
Lemma num_n_val rho n : eval I rho (num_n n) = Some (INR n).
Proof. unfold num_n. cbn [eval]. rewrite INR_IZR_INZ. f_equal. apply rv_zq. Qed.
Lemma next_val s e rho v : no_binders e -> eval I (upd rho s (rho s + 1)) e = Some v -> eval I rho (next G s e) = Some v.
Proof. intros N E. apply (substitute_ok I G HG s _ e (no_capture_nobind s _ e N) rho v (rho s + 1)); [|exact E]. apply (gadd_val I G HG); [reflexivity|]. cbn. rewrite rv_1. reflexivity. Qed.
Lemma previous_val s e rho v : no_binders e -> eval I (upd rho s (rho s - 1)) e = Some v -> eval I rho (previous G s e) = Some v.
Proof. intros N E. apply (substitute_ok I G HG s _ e (no_capture_nobind s _ e N) rho v (rho s - 1)); [|exact E]. replace (rho s - 1) with (rho s + -1) by lra. apply (gadd_val I G HG); [reflexivity|]. apply eval_minus_1. Qed.
Lemma shift1_val s i e rho v : no_binders e -> eval I (upd rho s (rho s + INR i)) e = Some v -> eval I rho (shift1 G s i e) = Some v.
Proof. intros N E. apply (substitute_ok I G HG s _ e (no_capture_nobind s _ e N) rho v (rho s + INR i)); [|exact E]. apply (gadd_val I G HG); [reflexivity|]. apply num_n_val. Qed.
Lemma shift2_val s j i e rho v : (i <= j)%nat -> no_binders e -> eval I (upd rho s (rho s + INR (j - i))) e = Some v -> eval I rho (shift2 G s j i e) = Some v.
Proof.
  intros L N E. apply (substitute_ok I G HG s _ e (no_capture_nobind s _ e N) rho v (rho s + INR (j - i))); [|exact E]. rewrite minus_INR by exact L. replace (rho s + (INR j - INR i)) with (rho s + INR j + INR i * -1) by lra.
  apply (gadd_val I G HG); [apply (gadd_val I G HG); [reflexivity|apply num_n_val]|]. apply (gmul_val I G HG); [apply num_n_val|apply eval_minus_1].
Qed.
Lemma product_val rho l f g : (forall i, In i l -> eval I rho (f i) = Some (g i)) -> eval I rho (product G l f) = Some (rprod l g).
Proof.
  intros H. unfold product. assert (K : forall acc x, eval I rho acc = Some x -> eval I rho (fold_left (fun acc i => gmul G acc (f i)) l acc) = Some (x * rprod l g)).
  { induction l as [|i l IH]; intros acc x Ex; cbn [fold_left rprod fold_right]; [rewrite Rmult_1_r; exact Ex|].
    replace (x * (g i * fold_right (fun i acc => g i * acc) 1 l)) with (x * g i * rprod l g) by (unfold rprod; lra).
    apply IH; [intros j J; apply H; right; exact J|]. apply (gmul_val I G HG); [exact Ex|apply H; left; reflexivity]. }
  rewrite (K (Num 1%Qc) 1); [f_equal; lra|]. cbn. rewrite rv_1. reflexivity.
Qed.
Lemma flip_val rho p n d q : eval I rho (fst p) = Some n -> eval I rho (snd p) = Some d -> d <> 0 -> n = q * d ->
  exists n' d', eval I rho (fst (flip_sign G p)) = Some n' /\ eval I rho (snd (flip_sign G p)) = Some d' /\ d' <> 0 /\ n' = q * d'.
Proof.
  intros En Ed D Q. assert (K : exists n' d', eval I rho (gmul G (fst p) minus_1) = Some n' /\ eval I rho (gmul G (snd p) minus_1) = Some d' /\ d' <> 0 /\ n' = q * d').
  { exists (n * -1), (d * -1). repeat split; try (apply (gmul_val I G HG); [assumption|apply eval_minus_1]); [lra|subst n; lra]. }
  unfold flip_sign. destruct (fst p) eqn:F; try (exists n, d; rewrite F; auto; fail). destruct (existsb _ l); [exact K|exists n, d; rewrite F; auto].
Qed.

(** * Gosper's algorithm *)
Lemma upd_same rho s v : upd rho s v s = v.
Proof. unfold upd. rewrite String.eqb_refl. reflexivity. Qed.
Lemma upd_twice e rho s v w : eval I (upd (upd rho s v) s w) e = eval I (upd rho s w) e.
Proof. apply eval_agree. intros t _. unfold upd. destruct (String.eqb t s); reflexivity. Qed.
Lemma polynomial_values x e rho : polynomial_function I x e -> exists c, forall t v, eval I (upd rho x t) e = Some v -> v = rpoly c t.
Proof. intros H. destruct (H rho) as [N|[c K]]; [exists []; intros t v E; rewrite N in E; discriminate|exists c; intros t v E; rewrite K in E; congruence]. Qed.
Lemma gosper_ratio m t r rho a b : no_binders t -> gosper_step_one G sbfe snum nd m t = Some r -> fine_quotient I G sbfe snum nd rho (next G m t) t ->
  eval I rho t = Some a -> eval I (upd rho m (rho m + 1)) t = Some b -> a <> 0 -> eval I rho r = Some (b / a).
Proof.
  intros N E F Ea Eb A. unfold gosper_step_one in E. destruct (is_rational_function nd m _) in E; [|discriminate]. assert (r = quotient G sbfe snum (next G m t) t) as -> by congruence.
  apply quotient_val; auto. apply next_val; assumption.
Qed.
Lemma rational_values x a b rho : is_rational_function nd x (quotient G sbfe snum a b) = true ->
  exists cn cd, forall t va vb, fine_quotient I G sbfe snum nd (upd rho x t) a b -> eval I (upd rho x t) a = Some va -> eval I (upd rho x t) b = Some vb -> vb <> 0 ->
    rpoly cd t <> 0 /\ va * rpoly cd t = vb * rpoly cn t.
Proof.
  unfold is_rational_function. destruct (nd (quotient G sbfe snum a b)) as [n d] eqn:Q. intros H. apply andb_true_iff in H. destruct H as [H1 H2].
  destruct (polynomial_values x n rho (is_polynomial_ok I x n H1)) as [cn Kn]. destruct (polynomial_values x d rho (is_polynomial_ok I x d H2)) as [cd Kd]. exists cn, cd.
  intros t va vb F Ea Eb V. destruct (quotient_split (upd rho x t) a b va vb F Ea Eb V) as (vn & vd & En & Ed & D & E). rewrite Q in En, Ed. cbn [fst snd] in En, Ed.
  rewrite <- (Kn t vn En), <- (Kd t vd Ed). split; [exact D|]. rewrite E. field. exact V.
Qed.
Lemma gosper_hypergeometric m t r rho : no_binders t -> gosper_step_one G sbfe snum nd m t = Some r ->
  exists cn cd, forall v a b, fine_quotient I G sbfe snum nd (upd rho m v) (next G m t) t -> eval I (upd rho m v) t = Some a -> eval I (upd rho m (v + 1)) t = Some b -> a <> 0 ->
    rpoly cd v <> 0 /\ b * rpoly cd v = a * rpoly cn v.
Proof.
  intros N E. unfold gosper_step_one in E. destruct (is_rational_function nd m (quotient G sbfe snum (next G m t) t)) eqn:R; [|discriminate].
  destruct (rational_values m (next G m t) t rho R) as (cn & cd & K). exists cn, cd. intros v a b F Ea Eb A. apply K; auto.
  apply next_val; [exact N|]. rewrite upd_same, upd_twice. exact Eb.
Qed.
End Step.
