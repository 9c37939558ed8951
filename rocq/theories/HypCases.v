(** Cases for the hypergeometric terms. *)
From Coq Require Import ZArith QArith Qcanon Reals List String Bool Lra Lia.
From Verif Require Import Fld FPoly Ast ExprModel ExprSpec RatRootProofs HypModel HypSpec HypProofs HypProofs2.
Import ListNotations.
Local Open Scope R_scope.
Local Open Scope list_scope.
Local Open Scope string_scope.
Set Bullet Behavior "Strict Subproofs".

Definition same (e : expr) : expr := e.
(** numerator and denominator of a quotient *)
Definition nd0 (e : expr) : expr * expr :=
  match e with Mul [a; Pow b (Num q)] => if Qc_eqb q (-(1))%Qc then (a, b) else (e, Num 1) | _ => (e, Num 1) end.
Definition m_ := Sym "m". Definition k_ := Sym "k".
(** (-1)^(m*k) *)
Definition alt_mk : expr := Pow minus_1 (Mul [m_; k_]).
Definition q_first := gmul G0 (next G0 "m" alt_mk) (gpow G0 alt_mk minus_1).
Definition q_second := gmul G0 (next G0 "k" alt_mk) (gpow G0 alt_mk minus_1).
Definition q_third := gmul G0 alt_mk (gpow G0 (previous G0 "m" alt_mk) minus_1).
(** knows how to simplify the three quotients *)
Definition snum0 (e : expr) : expr :=
  if expr_eqb e q_first then Pow minus_1 k_ else if expr_eqb e q_second then Pow minus_1 m_ else if expr_eqb e q_third then Pow minus_1 k_ else e.

Lemma plain_ops_add e : no_binders e -> Forall no_binders (ops_add e).
Proof. intros H. destruct e; cbn in H |- *; try (constructor; [exact H|constructor]). apply plain_all, H. Qed.
Lemma plain_ops_mul e : no_binders e -> Forall no_binders (ops_mul e).
Proof. intros H. destruct e; cbn in H |- *; try (constructor; [exact H|constructor]). apply plain_all, H. Qed.
Lemma plain_nd0 e : no_binders e -> no_binders (fst (nd0 e)) /\ no_binders (snd (nd0 e)).
Proof.
  intros H. assert (D : no_binders e /\ no_binders (Num 1)) by (split; [exact H|exact Logic.I]).
  destruct e as [q|c|t|l|l|a b|f l|k a b e|k a b e]; try exact D. destruct l as [|a [|b [|c l]]]; try exact D; destruct b as [q|c'|t|l'|l'|x y|f l'|k u v e|k u v e]; try exact D; destruct y; try exact D.
  cbn. destruct (Qc_eqb _ _); cbn in H |- *; tauto.
Qed.
Lemma plain0 snum : (forall e, no_binders e -> no_binders (snum e)) -> plain_steps G0 same snum nd0.
Proof.
  intros S. split; auto.
  - intros a b A B. cbn [gadd G0]. assert (K : no_binders (Add (ops_add a ++ ops_add b))) by (cbn; apply plain_all, Forall_app; split; apply plain_ops_add; assumption).
    destruct a, b; try exact Logic.I; repeat destruct (is_num _ _); assumption.
  - intros a b A B. cbn [gmul G0]. assert (K : no_binders (Mul (ops_mul a ++ ops_mul b))) by (cbn; apply plain_all, Forall_app; split; apply plain_ops_mul; assumption).
    destruct a, b; try exact Logic.I; repeat destruct (is_num _ _); assumption.
  - intros a b A B. cbn. tauto.
  - intros f l H. cbn. apply plain_all, H.
  - exact plain_nd0.
Qed.
Lemma plain_same : plain_steps G0 same same nd0. Proof. apply plain0. auto. Qed.
Lemma plain_snum0 : plain_steps G0 same snum0 nd0.
Proof. apply plain0. intros e H. unfold snum0. repeat destruct (expr_eqb _ _); try exact H; cbn; tauto. Qed.

Lemma rv_m1 : rv (-(1))%Qc = -1. Proof. rewrite rv_opp, rv_1. reflexivity. Qed.
Lemma rpow_inv_some y w : rpow y (-1) = Some w -> y <> 0 /\ w = / y.
Proof.
  intros H. assert (N : y <> 0). { intros ->. unfold rpow in H. change (-1) with (IZR (-1)) in H. rewrite as_int_IZR in H. destruct (Req_EM_T 0 0); [discriminate|contradiction]. }
  split; [exact N|]. rewrite (rpow_inv y N) in H. congruence.
Qed.
Lemma splits0 I rho e : splits I nd0 rho e.
Proof.
  intros v E. assert (D : exists x y, eval I rho e = Some x /\ eval I rho (Num 1) = Some y /\ y <> 0 /\ x = v * y) by (exists v, 1; cbn; rewrite rv_1; repeat split; auto; lra).
  destruct e as [q|c|t|l|l|a b|f l|k a b e|k a b e]; try exact D. destruct l as [|a [|b [|c l]]]; try exact D; destruct b as [q|c'|t|l'|l'|x y|f l'|k u w e|k u w e]; try exact D; destruct y as [q|?|?|?|?|? ?|? ?|? ? ? ?|? ? ? ?]; try exact D.
  cbn [nd0]. destruct (Qc_eqb q (-(1))%Qc) eqn:Q; [|exact D]. apply Qc_eqb_eq in Q. subst q. clear D. cbn [eval fst snd map fold_right] in E |- *. rewrite rv_m1 in E.
  destruct (eval I rho a) as [va|]; [|discriminate]. destruct (eval I rho x) as [vx|]; cbn in E; [|discriminate].
  destruct (rpow vx (-1)) as [w|] eqn:W; [|discriminate]. destruct (rpow_inv_some _ _ W) as [N ->]. exists va, vx. repeat split; auto. injection E as <-. field. exact N.
Qed.
Lemma fine_same I rho a b : fine_quotient I G0 same same nd0 rho a b.
Proof. repeat split; try (intros v E; exact E). apply splits0. Qed.

(** * (-1)^(m*k) *)
Lemma alt_quotient a b x y : rpow (-1) a = Some x -> rpow (-1) b = Some y -> y <> 0 /\ rpow (-1) (a - b) = Some (x / y).
Proof.
  assert (K : forall t z, rpow (-1) t = Some z -> exists n, t = IZR n /\ z = powerRZ (-1) n).
  { intros t z H. unfold rpow in H. destruct (as_int t) as [n|] eqn:E.
    - apply as_int_spec in E. exists n. split; [exact E|]. destruct (Req_EM_T (-1) 0); [lra|congruence].
    - destruct (Rlt_dec 0 (-1)); [lra|]. destruct (Req_EM_T (-1) 0); [lra|discriminate]. }
  intros H1 H2. destruct (K _ _ H1) as (p & -> & ->). destruct (K _ _ H2) as (q & -> & ->). split; [apply powerRZ_NOR; lra|].
  rewrite <- minus_IZR. unfold rpow. rewrite as_int_IZR. destruct (Req_EM_T (-1) 0); [lra|]. f_equal. unfold Z.sub. rewrite powerRZ_add, powerRZ_neg, powerRZ_inv by lra. reflexivity.
Qed.
Lemma quotient_keeps I rho A B C v : eval I rho (Mul [Pow minus_1 A; Pow (Pow minus_1 B) minus_1]) = Some v ->
  (forall x y, eval I rho A = Some x -> eval I rho B = Some y -> eval I rho C = Some (x - y)) -> eval I rho (Pow minus_1 C) = Some v.
Proof.
  intros E H. cbn [eval minus_1 fold_right] in E |- *. rewrite rv_m1 in *. destruct (eval I rho A) as [x|]; cbn in E; [|discriminate]. destruct (eval I rho B) as [y|]; cbn in E; [|destruct (rpow (-1) x); discriminate E].
  rewrite (H x y eq_refl eq_refl). cbn. destruct (rpow (-1) x) as [vx|] eqn:X; [|discriminate]. destruct (rpow (-1) y) as [vy|] eqn:Y; cbn in E; [|discriminate].
  destruct (alt_quotient _ _ _ _ X Y) as [N Q]. rewrite (rpow_inv vy N) in E. cbn in E. rewrite Q. injection E as <-. f_equal. field. exact N.
Qed.
Lemma keeps_snum0 I rho e : keeps I snum0 rho e.
Proof.
  intros v E. unfold snum0. destruct (expr_eqb e q_first) eqn:E1; [|destruct (expr_eqb e q_second) eqn:E2; [|destruct (expr_eqb e q_third) eqn:E3; [|exact E]]].
  - apply expr_eqb_eq in E1. subst e. refine (quotient_keeps I rho _ _ _ v E _). intros x y. cbn. rewrite rv_1. intros X Y. injection X as <-. injection Y as <-. f_equal. ring.
  - apply expr_eqb_eq in E2. subst e. refine (quotient_keeps I rho _ _ _ v E _). intros x y. cbn. rewrite rv_1. intros X Y. injection X as <-. injection Y as <-. f_equal. ring.
  - apply expr_eqb_eq in E3. subst e. refine (quotient_keeps I rho _ _ _ v E _). intros x y. cbn. rewrite rv_m1. intros X Y. injection X as <-. injection Y as <-. f_equal. ring.
Qed.
Lemma fine_snum0 I rho a b : fine_quotient I G0 same snum0 nd0 rho a b.
Proof. repeat split; try (intros v E; exact E). { apply keeps_snum0. } apply splits0. Qed.
Lemma alt_accepted : exists p r s, zeilberger_step_one G0 same snum0 nd0 alt_mk "m" "k" ["a0"; "a1"] = Some (p, r, s).
Proof. eexists _, _, _. vm_compute. reflexivity. Qed.
Lemma alt_value I rho (i j : nat) : rho "m" = INR i -> rho "k" = INR j -> eval I rho alt_mk = Some ((-1) ^ (i * j)).
Proof.
  intros M K. cbn. rewrite rv_m1, M, K. replace (INR i * (INR j * 1)) with (INR (i * j)) by (rewrite mult_INR; ring). rewrite INR_IZR_INZ.
  unfold rpow. rewrite as_int_IZR, <- pow_powerRZ. destruct (Req_EM_T (-1) 0); [lra|reflexivity].
Qed.
(** Signs that alternate are not the values of a quotient of polynomials. *)
Lemma rpoly_peval c t : rpoly c t = @peval RF c t.
Proof. induction c as [|a c IH]; cbn; [reflexivity|]. rewrite IH. reflexivity. Qed.
Lemma many_roots (c : list R) (g : nat -> nat) : (forall i j, g i = g j -> i = j) -> (forall i, rpoly c (INR (g i)) = 0) -> forall t, rpoly c t = 0.
Proof.
  intros J H t. rewrite rpoly_peval. refine (peval_allzero (K := RF) c t _). apply (too_many_roots (K := RF) (map (fun i => INR (g i)) (seq 0 (List.length c)))).
  - apply FinFun.Injective_map_NoDup; [intros i j E; apply J, INR_eq, E|apply seq_NoDup].
  - rewrite map_length, seq_length. apply Nat.le_refl.
  - intros y Hy. apply in_map_iff in Hy. destruct Hy as (i & <- & _). rewrite <- rpoly_peval. apply H.
Qed.
Fixpoint minus_poly (p q : list R) : list R := match p, q with [], q => map Ropp q | p, [] => p | a :: p, b :: q => (a - b) :: minus_poly p q end.
Lemma minus_poly_val p : forall q t, rpoly (minus_poly p q) t = rpoly p t - rpoly q t.
Proof.
  induction p as [|a p IH]; intros q t; cbn.
  - assert (K : rpoly (map Ropp q) t = - rpoly q t) by (induction q as [|b q IH]; cbn; [lra|rewrite IH; ring]). destruct q; rewrite ?K; cbn in *; lra.
  - destruct q as [|b q]; cbn; [lra|]. rewrite IH. ring.
Qed.
Lemma signs_not_rational cn cd : ~ forall i : nat, rpoly cd (INR i) <> 0 /\ (-1) ^ i * rpoly cd (INR i) = rpoly cn (INR i).
Proof.
  intros H. assert (Z : forall t, rpoly (minus_poly cn cd) t = 0).
  { apply (many_roots _ (fun i => 2 * i)%nat); [intros; lia|]. intros i. destruct (H (2 * i)%nat) as [_ E]. rewrite pow_1_even in E. rewrite minus_poly_val. lra. }
  destruct (H 1%nat) as [N E]. specialize (Z (INR 1)). rewrite minus_poly_val in Z. cbn [pow] in E. lra.
Qed.
