(** Proofs for find_roots. *)
From Coq Require Import ZArith QArith Qcanon Qfield List Bool Lia Reals Lra Field Arith.
From Coquelicot Require Import Complex.
From Verif Require Import Ast ExprModel ExprProofs1 Fld FPoly PolyMore CplxF RootModel RootSpec RootProofs RootProofs2 GenSol FindRootModel FindRootSpec NestedProofs RatRootProofs SearchProofs.
Import ListNotations.
Local Open Scope list_scope.
Local Open Scope nat_scope.

Ltac toC := change (@fsub CF) with Cminus in *; change (@fopp CF) with Copp in *; change (@fadd CF) with Cplus in *; change (@fmul CF) with Cmult in *;
  change (@f0 CF) with (RtoC 0) in *; change (@f1 CF) with (RtoC 1) in *; change (car CF) with C in *.

Ltac cgen t := let w := fresh "w" in let H := fresh "H" in assert (exists w : C, t = w) as [w H] by (exists t; reflexivity); rewrite ?H; clear H.
Ltac cring := toC; repeat match goal with
  | |- context [@fpow CF ?a ?n] => cgen (@fpow CF a n)
  | |- context [@peval CF ?a ?n] => cgen (@peval CF a n)
  | |- context [@lin_prod CF ?a ?n] => cgen (@lin_prod CF a n)
  end; ring.

(** * Products of linear factors *)
Lemma lf_cons r l x : linear_factors (r :: l) x = ((x - rvalue r) * linear_factors l x)%C. Proof. reflexivity. Qed.
Lemma lf_app u v x : linear_factors (u ++ v) x = (linear_factors u x * linear_factors v x)%C.
Proof. induction u as [|r u IH]; cbn [app]; [unfold linear_factors; cbn; ring|]. rewrite !lf_cons, IH. ring. Qed.
Lemma lf_rational m l x : linear_factors (map (rational_root m) l) x = lin_prod (K:=CF) (map qC l) x.
Proof. induction l as [|r l IH]; [reflexivity|]. cbn [map]. rewrite lf_cons, IH. reflexivity. Qed.
Lemma lf_irr l x : linear_factors (map irr l) x = lin_prod (K:=CF) l x.
Proof. induction l as [|r l IH]; [reflexivity|]. cbn [map]. rewrite lf_cons, IH. reflexivity. Qed.
Definition cprod {A} (f : A -> C) (l : list A) : C := fold_right (fun a acc => (f a * acc)%C) (RtoC 1) l.
Lemma cprod_cons {A} (f : A -> C) a l : cprod f (a :: l) = (f a * cprod f l)%C. Proof. reflexivity. Qed.
Lemma cprod_ext {A} (f g : A -> C) l : (forall a, In a l -> f a = g a) -> cprod f l = cprod g l.
Proof. induction l as [|a l IH]; intros H; [reflexivity|]. rewrite !cprod_cons, H, IH; auto; [intros; apply H; right; auto|left; auto]. Qed.
Lemma cprod_mul {A} (f g : A -> C) l : cprod (fun a => f a * g a)%C l = (cprod f l * cprod g l)%C.
Proof. induction l as [|a l IH]; [unfold cprod; cbn; ring|]. rewrite !cprod_cons, IH. ring. Qed.
Lemma cprod_one {A} (l : list A) : cprod (fun _ => RtoC 1) l = RtoC 1.
Proof. induction l as [|a l IH]; [reflexivity|]. rewrite !cprod_cons, IH. ring. Qed.
Lemma cprod_swap {A B} (f : A -> B -> C) (u : list A) (v : list B) :
  cprod (fun a => cprod (f a) v) u = cprod (fun b => cprod (fun a => f a b) u) v.
Proof.
  induction u as [|a u IH]; [symmetry; apply cprod_one|]. rewrite cprod_cons, IH, <- cprod_mul. apply cprod_ext. intros b _. reflexivity.
Qed.
Lemma cprod_app {A} (f : A -> C) u v : cprod f (u ++ v) = (cprod f u * cprod f v)%C.
Proof. induction u as [|a u IH]; cbn [app]; [unfold cprod; cbn; ring|]. rewrite !cprod_cons, IH. ring. Qed.
Lemma cprod_rev {A} (f : A -> C) u : cprod f (rev u) = cprod f u.
Proof. induction u as [|a u IH]; cbn [rev]; auto. rewrite cprod_app, !cprod_cons, IH. unfold cprod at 2. cbn. ring. Qed.
Lemma cprod_flat {A B} (f : B -> C) (g : A -> list B) u : cprod f (flat_map g u) = cprod (fun a => cprod f (g a)) u.
Proof. induction u as [|a u IH]; cbn [flat_map]; auto. rewrite cprod_app, cprod_cons, IH. reflexivity. Qed.
Lemma cprod_map {A B} (f : B -> C) (g : A -> B) u : cprod f (map g u) = cprod (fun a => f (g a)) u.
Proof. induction u as [|a u IH]; cbn [map]; auto. rewrite !cprod_cons, IH. reflexivity. Qed.
Lemma lf_cprod l x : linear_factors l x = cprod (fun r => x - rvalue r)%C l. Proof. reflexivity. Qed.
Lemma lp_cprod l x : lin_prod (K:=CF) l x = cprod (fun z => x - z)%C l. Proof. reflexivity. Qed.

(** All the n-th roots of [y]. *)
Lemma nth_roots n y x : 0 < n -> lin_prod (K:=CF) (map (fun j => proot n y * unity n j)%C (seq 0 n)) x = (fpow (K:=CF) x n - y)%C.
Proof.
  intros Hn. pose proof (proot_pow n y Hn) as E. destruct (unity_ok n Hn) as (U1 & U2 & U3).
  destruct (Ceqb_spec (proot n y) (RtoC 0)) as [Z|Z].
  - assert (Y : y = RtoC 0) by (rewrite <- E, Z; apply (fpow_0l (K:=CF)); lia). rewrite Z.
    refine (eq_trans (lin_prod_unity0 (K:=CF) (unity n) n x) _). rewrite Y. cring.
  - refine (eq_trans (lin_prod_unity (K:=CF) (unity n) n (proot n y) x Hn Z U1 U2 U3) _). toC. rewrite E. reflexivity.
Qed.

(** * Nested polynomials *)
Lemma spread_square_free n (r q : poly) : 0 < n -> (forall x, pval q x = pval r (fpow (K:=CF) x n)) -> square_free q -> square_free r.
Proof.
  intros Hn E HS z g F.
  set (w := proot n z). assert (W : fpow (K:=CF) w n = z) by (apply proot_pow; auto).
  (* x^n - z = (x - w) h(x) *)
  set (b := @cons (car CF) (Copp z) (repeat (@f0 CF) (n - 1) ++ [@f1 CF])).
  assert (B : forall y, peval (K:=CF) b y = (fpow (K:=CF) y n - z)%C).
  { intros y. unfold b. cbn [peval]. rewrite (peval_app (K:=CF)), (peval_zeros (K:=CF)), repeat_length. cbn [peval].
    assert (X : fpow (K:=CF) y n = (y * fpow (K:=CF) y (n - 1))%C) by (destruct n; [lia|]; cbn [fpow]; rewrite Nat.sub_succ, Nat.sub_0_r; reflexivity).
    rewrite X. cring. }
  set (h := quot (K:=CF) b w).
  assert (H : forall y, (fpow (K:=CF) y n - z)%C = ((y - w) * peval (K:=CF) h y)%C).
  { intros y. rewrite <- B, (quot_spec (K:=CF) b w y), (B w), W. unfold h. cring. }
  apply (HS w (pmul (K:=CF) (pmul (K:=CF) h h) (spread (K:=CF) n g))). intros x.
  rewrite E, F, !peval_pmul, peval_spread, !H by auto. cring.
Qed.
Lemma spread_no_pure_power n (r q : poly) : 0 < n -> (forall x, pval q x = pval r (fpow (K:=CF) x n)) -> no_pure_power_factor q -> no_pure_power_factor r.
Proof.
  intros Hn E HN g h F (a & k & e & Ha & Hk & He & G).
  apply (HN (spread (K:=QcF) n g) (spread (K:=QcF) n h)).
  - intros x. rewrite E, F, !pval_spread by auto. reflexivity.
  - exists a, k, (n * e). split; auto. split; auto. split; [nia|]. intros x. rewrite pval_spread, G, fpow_mul by auto. reflexivity.
Qed.
Lemma factor_no_pure_power (p q h : list Qc) : (forall x, pval p x = (pval q x * pval h x)%C) -> no_pure_power_factor p -> no_pure_power_factor q.
Proof.
  intros E HN g h' F. apply (HN g (pmul (K:=QcF) h' h)). intros x. rewrite E, F, pval_pmul. ring.
Qed.
Lemma factor_square_free (p q h : list Qc) : (forall x, pval p x = (pval q x * pval h x)%C) -> square_free p -> square_free q.
Proof. intros E HN. apply (square_free_divisor p q (map qC h)); auto. Qed.

Lemma nested_facts (q : poly) n r : proper q -> 1 <= degree q -> integer_coefficients q -> is_nested_polynomial q = (n, r) -> 1 < n ->
  proper r /\ integer_coefficients r /\ forall x, pval q x = pval r (fpow (K:=CF) x n).
Proof.
  intros HQ HD HI E Hn. pose proof (nested_ok q HD) as N. rewrite E in N. destruct N as (_ & N & M).
  assert (V : forall x, pval q x = pval r (fpow (K:=CF) x n)).
  { intros x. rewrite <- pval_spread by lia. apply pval_nth_ext. exact N. }
  assert (F : r = coeff q 0 :: map (fun j => coeff q (n * j)) (seq 1 (degree q / n)) /\ Nat.divide n (degree q)).
  { unfold is_nested_polynomial in E. destruct (degree q =? 0) eqn:E0; [apply Nat.eqb_eq in E0; lia|].
    destruct (negb (qzero (coeff q 1))); [assert (1 = n) by congruence; lia|].
    pose proof (first_nonzero_spec q (degree q) 2 (degree q)) as FN.
    set (n0 := gcd_loop _ _ q _) in E. destruct (1 <? n0) eqn:L; [|assert (n0 = n) by congruence; subst n0; apply Nat.ltb_ge in L; lia].
    assert (n0 = n) by congruence. subst n. split; [congruence|].
    apply Nat.mod_divide; [lia|]. destruct (Nat.eq_dec (degree q mod n0) 0) as [|X]; auto. exfalso.
    apply (degree_lead q HD). rewrite N. change 0%Qc with (@f0 QcF). rewrite nth_spread by lia.
    destruct (Nat.eqb_spec (degree q mod n0) 0); [congruence|reflexivity]. }
  destruct F as [-> [c Hc]].
  assert (CI : forall i, intq (coeff q i)).
  { intros i. unfold coeff. destruct (Nat.lt_ge_cases i (length q)) as [L|L].
    - exact (proj1 (Forall_forall _ _) HI _ (nth_In q 0%Qc L)).
    - rewrite nth_overflow by auto. exists 0%Z. symmetry. apply zq_0. }
  assert (C1 : degree q / n = c) by (rewrite Hc; apply Nat.div_mul; lia).
  split; [|split; auto].
  - split; [discriminate|]. rewrite C1.
    assert (c <> 0) by (intros ->; lia).
    assert (X : seq 1 c = seq 1 (c - 1) ++ [c]).
    { replace c with (S (c - 1)) at 1 by lia. rewrite seq_S. do 2 f_equal. lia. }
    rewrite X, map_app, app_comm_cons. cbn [map]. rewrite last_last. replace (n * c) with (degree q) by lia. apply degree_lead. auto.
  - constructor; [apply CI|]. apply Forall_forall. intros y Hy. apply in_map_iff in Hy. destruct Hy as (j & <- & _). apply CI.
Qed.
