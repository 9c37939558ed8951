(** The first step of Zeilberger's algorithm. *)
From Coq Require Import ZArith QArith Qcanon Reals List String Bool Lra Lia Field.
From Verif Require Import Ast ExprModel ExprSpec ExprProofs1 ExprProofs2 ExprProofs3 HypModel HypSpec HypProofs.
Import ListNotations.
Local Open Scope R_scope.
Local Open Scope list_scope.
Set Bullet Behavior "Strict Subproofs".

Section Step.
Variables (I : interp) (G : ginac) (sbfe snum : expr -> expr) (nd : expr -> expr * expr).
Hypothesis HG : ginac_ok I G.
Hypothesis HP : plain_steps G sbfe snum nd.

(** * Plain expressions *)
Lemma plain_all l : fold_right (fun a P => no_binders a /\ P) True l <-> Forall no_binders l.
Proof. induction l as [|a l IH]; cbn; [split; constructor|]. rewrite IH. split; [intros [H1 H2]; constructor; assumption|intros H; inversion H; auto]. Qed.
Lemma substitute_plain s r e : no_binders r -> no_binders e -> no_binders (substitute G s r e).
Proof.
  intros R. revert e. induction e as [q|c|t|l IH|l IH|a b IHa IHb|f l IH|k a b e IHa IHb IHe|k a b e IHa IHb IHe] using expr_ind'; intros N; cbn [substitute].
  1-3: destruct (expr_eqb _ s); [exact R|exact Logic.I].
  - destruct (expr_eqb _ s); [exact R|]. cbn in N. apply plain_all in N. unfold add_all. induction l as [|a l IHl]; cbn; [exact Logic.I|]. inversion IH; inversion N; subst. apply (plain_add _ _ _ _ HP); auto.
  - destruct (expr_eqb _ s); [exact R|]. cbn in N. apply plain_all in N. unfold mul_all. induction l as [|a l IHl]; cbn; [exact Logic.I|]. inversion IH; inversion N; subst. apply (plain_mul _ _ _ _ HP); auto.
  - destruct (expr_eqb _ s); [exact R|]. cbn in N. apply (plain_pow _ _ _ _ HP); tauto.
  - destruct (expr_eqb _ s); [exact R|]. cbn in N. apply plain_all in N. apply (plain_fun _ _ _ _ HP). induction l as [|a l IHl]; cbn; constructor; inversion IH; inversion N; subst; auto.
  - cbn in N. contradiction.
  - cbn in N. contradiction.
Qed.
Lemma shifted_plain s e n : no_binders e -> no_binders (shift1 G s n e) /\ no_binders (next G s e) /\ no_binders (previous G s e).
Proof. intros N. repeat split; apply substitute_plain; auto; apply (plain_add _ _ _ _ HP); exact Logic.I. Qed.
Lemma quotient_plain a b : no_binders a -> no_binders b -> no_binders (quotient G sbfe snum a b).
Proof.
  intros A B. unfold quotient. apply (plain_snum _ _ _ _ HP), (plain_mul _ _ _ _ HP); [apply (plain_sbfe _ _ _ _ HP), A|]. apply (plain_pow _ _ _ _ HP); [apply (plain_sbfe _ _ _ _ HP), B|exact Logic.I].
Qed.
Lemma flip_plain p : no_binders (fst p) -> no_binders (snd p) -> no_binders (fst (flip_sign G p)) /\ no_binders (snd (flip_sign G p)).
Proof.
  intros A B. assert (K : no_binders (gmul G (fst p) minus_1) /\ no_binders (gmul G (snd p) minus_1)) by (split; apply (plain_mul _ _ _ _ HP); auto; exact Logic.I).
  unfold flip_sign. destruct (fst p) eqn:E; try (rewrite E; auto; fail). destruct (existsb _ l); [exact K|rewrite E; auto].
Qed.

(** * Values at a point and the ones above it *)
Section Point.
Variables (F : expr) (m : string) (coefficients : list string) (s1 s2 : expr).
Hypothesis PF : no_binders F.
Hypothesis NE : coefficients <> [].
Hypothesis NM : ~ In m coefficients.
Hypothesis ES : flip_sign G (nd (quotient G sbfe snum F (previous G m F))) = (s1, s2).
Notation order := (List.length coefficients - 1)%nat.
Definition lift (rho : string -> R) (j : nat) : string -> R := upd rho m (rho m + INR j).
Lemma up_0 rho e : eval I (lift rho 0) e = eval I rho e.
Proof. apply eval_agree. intros s _. unfold lift, upd. destruct (String.eqb s m) eqn:E; [apply String.eqb_eq in E; subst s; cbn; lra|reflexivity]. Qed.
Lemma up_previous rho j e : eval I (upd (lift rho (S j)) m (lift rho (S j) m - 1)) e = eval I (lift rho j) e.
Proof. apply eval_agree. intros s _. unfold lift, upd. rewrite String.eqb_refl. destruct (String.eqb s m); [rewrite S_INR; lra|reflexivity]. Qed.
Lemma plain_s : no_binders s1 /\ no_binders s2.
Proof.
  assert (Q : no_binders (quotient G sbfe snum F (previous G m F))) by (apply quotient_plain; [exact PF|apply (shifted_plain m F 0 PF)]).
  destruct (plain_nd _ _ _ _ HP _ Q) as [A B]. pose proof (flip_plain _ A B) as K. rewrite ES in K. exact K.
Qed.
Lemma at_point rho f : (forall j, (j <= order)%nat -> eval I (lift rho j) F = Some (f j) /\ f j <> 0) ->
  (forall j, (1 <= j <= order)%nat -> fine_quotient I G sbfe snum nd (lift rho j) F (previous G m F)) ->
  exists P b, let D := rprod (seq 1 order) b in eval I rho (p_0 G m coefficients s1 s2) = Some P /\ (forall i, In i (seq 1 order) -> eval I rho (shift1 G m i s2) = Some (b i)) /\ D <> 0 /\
    rsum (fun j => rho (nth j coefficients EmptyString) * f j) (List.length coefficients) * D = f 0%nat * P.
Proof.
  intros HF Hfine. destruct plain_s as [P1 P2].
  assert (LEN : List.length coefficients = S order) by (destruct coefficients; [congruence|cbn; lia]). remember order as J eqn:EJ.
  assert (V : forall i, exists a b, (1 <= i <= J)%nat -> eval I (lift rho i) s1 = Some a /\ eval I (lift rho i) s2 = Some b /\ b <> 0 /\ f (i - 1)%nat * a = f i * b).
  { intros i. destruct (le_lt_dec 1 i) as [L|L]; [|exists 0, 0; lia]. destruct (le_lt_dec i J) as [L'|L']; [|exists 0, 0; lia].
    destruct i as [|i]; [lia|]. destruct (HF (S i) ltac:(lia)) as [E1 N1]. destruct (HF i ltac:(lia)) as [E2 N2].
    assert (E3 : eval I (lift rho (S i)) (previous G m F) = Some (f i)) by (apply (previous_val I G HG); [exact PF|rewrite up_previous; exact E2]).
    destruct (quotient_split I G sbfe snum nd HG (lift rho (S i)) F (previous G m F) (f (S i)) (f i) (Hfine (S i) ltac:(lia)) E1 E3 N2) as (n & d & En & Ed & D & Q).
    destruct (flip_val I G HG (lift rho (S i)) _ n d (f (S i) / f i) En Ed D Q) as (n' & d' & En' & Ed' & D' & Q'). rewrite ES in En', Ed'. cbn [fst snd] in En', Ed'.
    exists n', d'. intros _. repeat split; auto. replace (S i - 1)%nat with i by lia. rewrite Q'. field. exact N2. }
  assert (W : exists a b : nat -> R, forall i, (1 <= i <= J)%nat -> eval I (lift rho i) s1 = Some (a i) /\ eval I (lift rho i) s2 = Some (b i) /\ b i <> 0 /\ f (i - 1)%nat * a i = f i * b i).
  { exists (fun i => match eval I (lift rho i) s1 with Some x => x | None => 0 end), (fun i => match eval I (lift rho i) s2 with Some x => x | None => 0 end).
    intros i Hi. destruct (V i) as (a & b & K). specialize (K Hi). destruct K as (K1 & K2 & K3 & K4). rewrite K1, K2. auto. }
  clear V. destruct W as (a & b & W).
  assert (D0 : forall i, In i (seq 1 J) -> eval I rho (shift1 G m i s2) = Some (b i)).
  { intros i Hi. apply in_seq in Hi. apply (shift1_val I G HG); [exact P2|]. apply W. lia. }
  assert (DN : rprod (seq 1 J) b <> 0) by (apply rprod_nz; intros i Hi; apply in_seq in Hi; apply W; lia).
  assert (T : forall j, (j <= J)%nat -> f j * rprod (seq 1 j) b = f 0%nat * rprod (seq 1 j) a).
  { induction j as [|j IH]; intros L; [reflexivity|]. rewrite seq_S, !rprod_app. change (1 + j)%nat with (S j). unfold rprod at 2 4. cbn [fold_right]. destruct (W (S j) ltac:(lia)) as (_ & _ & _ & K). replace (S j - 1)%nat with j in K by lia. specialize (IH ltac:(lia)).
    replace (f (S j) * (rprod (seq 1 j) b * (b (S j) * 1))) with (f (S j) * b (S j) * rprod (seq 1 j) b) by ring. rewrite <- K. replace (f j * a (S j) * rprod (seq 1 j) b) with (f j * rprod (seq 1 j) b * a (S j)) by ring. rewrite IH. ring. }
  set (term := fun j => rho (nth j coefficients EmptyString) * rprod (seq 1 j) a * rprod (seq (j + 1) (J - j)) b).
  assert (TV : forall j, (j <= J)%nat -> eval I rho (gmul G (gmul G (Sym (nth j coefficients EmptyString)) (product G (seq 0 j) (fun i => shift2 G m j i s1))) (product G (seq (j + 1) (J - j)) (fun i => shift1 G m i s2))) = Some (term j)).
  { intros j L. apply (gmul_val I G HG); [apply (gmul_val I G HG); [reflexivity|]|].
    - rewrite <- rprod_down. apply product_val; [exact HG|]. intros i Hi. apply in_seq in Hi. apply (shift2_val I G HG); [lia|exact P1|]. apply W. lia.
    - apply product_val; [exact HG|]. intros i Hi. apply in_seq in Hi. apply (shift1_val I G HG); [exact P2|]. apply W. lia. }
  assert (TF : forall j, (j <= J)%nat -> f 0%nat * term j = rho (nth j coefficients EmptyString) * f j * rprod (seq 1 J) b).
  { intros j L. unfold term. replace (seq 1 J) with (seq 1 j ++ seq (j + 1) (J - j)) by (rewrite (Nat.add_comm j 1), <- seq_app; f_equal; lia). rewrite rprod_app.
    replace (rho (nth j coefficients EmptyString) * f j * (rprod (seq 1 j) b * rprod (seq (j + 1) (J - j)) b)) with (rho (nth j coefficients EmptyString) * (f j * rprod (seq 1 j) b) * rprod (seq (j + 1) (J - j)) b) by ring.
    rewrite (T j L). ring. }
  exists (rsum term (S J)), b. cbv zeta. split; [|split; [exact D0|split; [exact DN|]]].
  - unfold p_0. rewrite <- EJ. replace (J + 1)%nat with (S J) by lia.
    assert (K : forall n, (n <= S J)%nat -> eval I rho (fold_left (fun acc j => gadd G acc (gmul G (gmul G (Sym (nth j coefficients EmptyString)) (product G (seq 0 j) (fun i => shift2 G m j i s1))) (product G (seq (j + 1) (J - j)) (fun i => shift1 G m i s2)))) (seq 0 n) (Num 0%Qc)) = Some (rsum term n)); [|apply K; lia].
    induction n as [|n IH]; intros L; [cbn; rewrite rv_0; reflexivity|]. rewrite seq_S, fold_left_app. cbn [fold_left rsum]. apply (gadd_val I G HG); [apply IH; lia|]. apply TV. lia.
  - rewrite LEN. assert (K : forall n, (n <= S J)%nat -> rsum (fun j => rho (nth j coefficients EmptyString) * f j) n * rprod (seq 1 J) b = f 0%nat * rsum term n); [|apply K; lia].
    induction n as [|n IH]; intros L; cbn [rsum]; [lra|]. specialize (IH ltac:(lia)). specialize (TF n ltac:(lia)). lra.
Qed.
End Point.

Lemma zeilberger_ratio F m k coefficients p r s rho f g : m <> k -> coefficients <> [] -> ~ In m coefficients -> ~ In k coefficients -> no_binders F ->
  zeilberger_step_one G sbfe snum nd F m k coefficients = Some (p, r, s) ->
  let up (e : R) (j : nat) := upd (upd rho k (rho k + e)) m (rho m + INR j) in
  (forall j, (j < List.length coefficients)%nat -> eval I (up 0 j) F = Some (f j) /\ f j <> 0 /\ eval I (up 1 j) F = Some (g j) /\ g j <> 0) ->
  fine_quotient I G sbfe snum nd rho (next G k F) F ->
  (forall j e, (1 <= j < List.length coefficients)%nat -> e = 0 \/ e = 1 -> fine_quotient I G sbfe snum nd (up e j) F (previous G m F)) ->
  exists P P1 R1 S1, eval I rho p = Some P /\ eval I (upd rho k (rho k + 1)) p = Some P1 /\ eval I rho r = Some R1 /\ eval I rho s = Some S1 /\ S1 <> 0 /\
    rsum (fun j => rho (nth j coefficients EmptyString) * g j) (List.length coefficients) * (P * S1) = rsum (fun j => rho (nth j coefficients EmptyString) * f j) (List.length coefficients) * (P1 * R1).
Proof.
  intros MK NE NM NK PF E up HF F2 F1. unfold zeilberger_step_one in E. destruct (negb _ || negb _)%bool in E; [discriminate|].
  destruct (flip_sign G (nd (quotient G sbfe snum (next G k F) F))) as [r1 r2] eqn:ER. destruct (flip_sign G (nd (quotient G sbfe snum F (previous G m F)))) as [s1 s2] eqn:ES.
  set (J := (List.length coefficients - 1)%nat) in *. assert (LEN : List.length coefficients = S J) by (unfold J; destruct coefficients; [congruence|cbn; lia]).
  assert (p = p_0 G m coefficients s1 s2 /\ r = gmul G r1 (product G (seq 1 J) (fun i => shift1 G m i s2)) /\ s = gmul G r2 (product G (seq 1 J) (fun i => next G k (shift1 G m i s2)))) as (-> & -> & ->) by (repeat split; congruence). clear E.
  set (rho1 := upd rho k (rho k + 1)).
  assert (U0 : forall j e, eval I (lift m rho j) e = eval I (up 0 j) e).
  { intros j e. apply eval_agree. intros t _. unfold lift, up, upd. destruct (String.eqb t m); [reflexivity|]. destruct (String.eqb t k) eqn:K; [apply String.eqb_eq in K; subst t; lra|reflexivity]. }
  assert (RM : rho1 m = rho m). { unfold rho1, upd. destruct (String.eqb m k) eqn:K; [apply String.eqb_eq in K; contradiction|reflexivity]. }
  assert (U1 : forall j, lift m rho1 j = up 1 j) by (intros j; unfold lift, up; rewrite RM; reflexivity).
  assert (FQ : forall sg sg' a b, (forall e, eval I sg e = eval I sg' e) -> fine_quotient I G sbfe snum nd sg a b -> fine_quotient I G sbfe snum nd sg' a b).
  { intros sg sg' a b H (K1 & K2 & K3 & K4). unfold fine_quotient, keeps, splits in *. repeat split; intros v X.
    - rewrite <- H in X |- *. apply K1, X.
    - rewrite <- H in X |- *. apply K2, X.
    - rewrite <- H in X |- *. apply K3, X.
    - rewrite <- H in X. destruct (K4 v X) as (x & y & X1 & X2). exists x, y. rewrite <- !H. split; assumption. }
  destruct (at_point F m coefficients s1 s2 PF NE NM ES rho f) as (P & b & EP & ED & DN & EQ).
  { intros j L. rewrite U0. destruct (HF j ltac:(lia)) as (K1 & K2 & _). auto. }
  { intros j L. apply (FQ (up 0 j)); [intros e; symmetry; apply U0|]. apply F1; [lia|auto]. }
  destruct (at_point F m coefficients s1 s2 PF NE NM ES rho1 g) as (P1 & b1 & EP1 & ED1 & DN1 & EQ1).
  { intros j L. rewrite U1. destruct (HF j ltac:(lia)) as (_ & _ & K1 & K2). auto. }
  { intros j L. rewrite U1. apply F1; [lia|auto]. }
  destruct (HF 0%nat ltac:(lia)) as (V0 & N0 & V1 & N1). rewrite <- U0, up_0 in V0. rewrite <- U1, up_0 in V1.
  assert (EN : eval I rho (next G k F) = Some (g 0%nat)) by (apply (next_val I G HG); assumption).
  destruct (quotient_split I G sbfe snum nd HG rho (next G k F) F (g 0%nat) (f 0%nat) F2 EN V0 N0) as (n & d & En & Ed & Dn & Q).
  destruct (flip_val I G HG rho _ n d (g 0%nat / f 0%nat) En Ed Dn Q) as (n' & d' & En' & Ed' & Dn' & Q'). rewrite ER in En', Ed'. cbn [fst snd] in En', Ed'.
  fold J in DN, DN1, EQ, EQ1, ED, ED1. set (D := rprod (seq 1 J) b) in *. set (D1 := rprod (seq 1 J) b1) in *.
  exists P, P1, (n' * D), (d' * D1). split; [exact EP|]. split; [exact EP1|]. split; [apply (gmul_val I G HG); [exact En'|apply product_val; [exact HG|exact ED]]|]. split.
  { apply (gmul_val I G HG); [exact Ed'|]. apply product_val; [exact HG|]. intros i Hi. destruct (plain_s F m s1 s2 PF ES) as [_ PS2]. apply (next_val I G HG); [apply (shifted_plain m s2 i PS2)|apply ED1, Hi]. }
  split; [apply Rmult_integral_contrapositive; split; assumption|].
  set (T := rsum (fun j => rho (nth j coefficients EmptyString) * f j) (List.length coefficients)) in *.
  assert (TG : rsum (fun j => rho1 (nth j coefficients EmptyString) * g j) (List.length coefficients) = rsum (fun j => rho (nth j coefficients EmptyString) * g j) (List.length coefficients)).
  { assert (K : forall n, (n <= List.length coefficients)%nat -> rsum (fun j => rho1 (nth j coefficients EmptyString) * g j) n = rsum (fun j => rho (nth j coefficients EmptyString) * g j) n); [|apply K; lia].
    intros i; induction i as [|i IH]; intros L; [reflexivity|]. cbn [rsum]. rewrite IH by lia. f_equal. f_equal. unfold rho1, upd. destruct (String.eqb _ k) eqn:K; [|reflexivity]. apply String.eqb_eq in K. exfalso. apply NK. rewrite <- K. apply nth_In. lia. }
  rewrite TG in EQ1. set (T1 := rsum (fun j => rho (nth j coefficients EmptyString) * g j) (List.length coefficients)) in *.
  replace (T1 * (P * (d' * D1))) with (T1 * D1 * (P * d')) by ring. rewrite EQ1. replace (T * (P1 * (n' * D))) with (T * D * (P1 * n')) by ring. rewrite EQ, Q'. field. exact N0.
Qed.
End Step.
