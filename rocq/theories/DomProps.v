(** C64: the search for the index from which on a recurrence is well-defined. *)
From Coq Require Import ZArith QArith Qcanon Reals List String Bool Lia Lra.
From Verif Require Import Ast ExprModel ExprSpec ExprProofs1 ExprProofs2 ExprProofs3 FactRwSpec MonoProofs DomModel DomSpec DomProofs.
Import ListNotations.
Local Open Scope list_scope.
Local Open Scope R_scope.

(** The index never decreases. *)
Theorem C64_never_decreases : forall G numerator denominator expand roots x fuel e z b z',
  find_domain_in_N G numerator denominator expand roots fuel x e z = Some (b, z') -> (z <= z')%Z.
Proof. exact find_domain_ge. Qed.
(** For tame numerators and denominators (DomSpec): an accepted expression has a value at every integer after the index. Missing: sums in the
    denominator, logarithms of other functions, exponents that are not defined everywhere, roots that are not found (see below). *)
Theorem C64_defined_partial : forall G numerator denominator expand roots x I rho, standard I ->
  (forall p, is_polynomial x p = true -> has x p = true -> is_polynomial x (gsub G p (Num 1)) = true /\ has x (gsub G p (Num 1)) = true) ->
  forall fuel e z0 z, find_domain_in_N G numerator denominator expand roots fuel x e z0 = Some (true, z) ->
  fraction_of I e (expand (numerator e)) (expand (denominator e)) ->
  tame I rho x G numerator denominator expand roots z false (expand (numerator e)) -> tame I rho x G numerator denominator expand roots z true (expand (denominator e)) ->
  (z0 <= z)%Z /\ forall n, (z < n)%Z -> exists v, eval I (upd rho x (IZR n)) e = Some v.
Proof. exact find_domain_sound. Qed.
(** log(log(x)): the index is beyond e = 2.718..., so that the value is not negative from the index on. *)
Theorem C64_double_logarithm : forall G numerator denominator expand roots x I rho, (forall v, 0 < v -> ifun I FLog [v] = Some (ln v)) ->
  forall fuel e z0 z, expand (numerator e) = Fun FLog [Fun FLog [Sym x]] ->
  find_domain_in_N G numerator denominator expand roots fuel x e z0 = Some (true, z) ->
  forall n, (z <= n)%Z -> exists v, eval I (upd rho x (IZR n)) (Fun FLog [Fun FLog [Sym x]]) = Some v /\ 0 <= v.
Proof. exact find_domain_loglog. Qed.
(** Rational functions: the index is the least one that is not below the start and the roots found. *)
Theorem C64_least : forall G numerator denominator expand roots x fuel e z0 z,
  is_polynomial x (expand (numerator e)) = true -> is_polynomial x (expand (denominator e)) = true ->
  find_domain_in_N G numerator denominator expand roots fuel x e z0 = Some (true, z) ->
  let found q := (has x (expand (numerator e)) = true /\ In q (roots x (expand (numerator e)))) \/ (has x (expand (denominator e)) = true /\ In q (roots x (expand (denominator e)))) in
  ((z0 <= z)%Z /\ forall q, found q -> rv q <= IZR z) /\ forall k, (z0 <= k)%Z -> (forall q, found q -> rv q <= IZR k) -> (z <= k)%Z.
Proof. exact find_domain_least. Qed.
(** The contract of the search that C30 relies on. *)
Theorem C64_monotonicity_test : forall G numerator denominator expand roots fuel,
  domain_ok (fun e x i => match find_domain_in_N G numerator denominator expand roots fuel x e i with Some (true, j) => Some j | _ => None end).
Proof.
  intros G nu de ex ro fuel e x i j. cbv beta. destruct (find_domain_in_N G nu de ex ro fuel x e i) as [[[|] k]|] eqn:E; try discriminate. intros [= <-]. exact (C64_never_decreases _ _ _ _ _ _ _ _ _ _ _ E).
Qed.

(** * Examples *)
Definition inv (d : expr) : expr := Pow d (Num (-(1))%Qc).
Definition numer0 (e : expr) : expr :=
  match e with Pow _ (Num q) => if Qc_eqb q (-(1))%Qc then Num 1 else e | Mul [n; Pow _ (Num q)] => if Qc_eqb q (-(1))%Qc then n else e | _ => e end.
Definition denom0 (e : expr) : expr :=
  match e with Pow d (Num q) => if Qc_eqb q (-(1))%Qc then d else Num 1 | Mul [_; Pow d (Num q)] => if Qc_eqb q (-(1))%Qc then d else Num 1 | _ => Num 1 end.
Definition idE (e : expr) : expr := e.
Lemma rpow_inv w : w <> 0 -> rpow w (-1) = Some (/ w).
Proof. intros H. unfold rpow. change (-1) with (IZR (-1)). rewrite as_int_IZR. destruct (Req_EM_T w 0); [easy|]. cbn. change (Pos.to_nat 1) with 1%nat. now rewrite pow_1. Qed.
Lemma inv_val I rho d w : eval I rho d = Some w -> w <> 0 -> eval I rho (inv d) = Some (/ w).
Proof. intros H N. unfold inv. cbn [eval]. rewrite H. cbn [obind]. rewrite rv_opp, rv_1. now apply rpow_inv. Qed.
Lemma inv_none I rho d : eval I rho d = Some 0 -> eval I rho (inv d) = None.
Proof. intros H. unfold inv. cbn [eval]. rewrite H. cbn [obind]. rewrite rv_opp, rv_1. unfold rpow. replace (- (1)) with (IZR (-1)) by lra. rewrite as_int_IZR. destruct (Req_EM_T 0 0); [reflexivity|easy]. Qed.
(** numer0 and denom0 are numerators and denominators. *)
Lemma numer0_ok I e : fraction_of I e (numer0 e) (denom0 e).
Proof.
  intros rho u w Hu Hw Nw. destruct e; cbn [numer0 denom0] in *; eauto.
  - destruct l as [|a [|b [|c l]]]; eauto; destruct b; eauto; destruct b2; eauto. destruct (Qc_eqb q (-(1))%Qc) eqn:E; eauto.
    apply Qc_eqb_eq in E. subst q. rewrite eval_Mul2, Hu. change (Pow b1 (Num (-(1))%Qc)) with (inv b1). rewrite (inv_val I rho b1 w Hw Nw). cbn. eauto.
  - destruct e2; eauto. destruct (Qc_eqb q (-(1))%Qc) eqn:E; eauto. apply Qc_eqb_eq in E. subst q. exists (/ w). now apply inv_val.
Qed.
Lemma G0_minus x p : is_polynomial x p = true -> has x p = true -> is_polynomial x (gsub G0 p (Num 1)) = true /\ has x (gsub G0 p (Num 1)) = true.
Proof.
  intros P H. assert (E : gsub G0 p (Num 1) = Add (ops_add p ++ [Num (-(1) * 1)%Qc])).
  { unfold gsub. cbn [G0 gmul gadd]. destruct p; try reflexivity. discriminate. }
  rewrite E. split.
  - cbn [is_polynomial]. rewrite forallb_app. cbn [forallb]. apply orb_true_iff. right. rewrite andb_true_iff. split; [|reflexivity].
    destruct p; cbn [ops_add forallb]; rewrite ?P; auto. cbn [is_polynomial] in P. apply orb_true_iff in P as [P|P]; [|exact P].
    apply is_scalar_representation_spec in P. congruence.
  - cbn [has]. rewrite existsb_app. apply orb_true_iff. left. destruct p; cbn [ops_add existsb]; rewrite ?H; auto.
Qed.
(** (n! + log(n - 2)) / (n (n - 4)), with the roots 3 of n - 3, 0 of n and 0, 4 of the denominator; the index is 4. *)
Definition num_ex : expr := Add [Fun FFact [Sym "n"]; Fun FLog [Add [Sym "n"; Num (zq (-2))]]].
Definition den_ex : expr := Mul [Sym "n"; Add [Sym "n"; Num (zq (-4))]].
Definition e_ex : expr := Mul [num_ex; inv den_ex].
Definition roots_ex (x : string) (e : expr) : list Qc :=
  if expr_eqb e den_ex then [zq 0; zq 4] else if expr_eqb e (Sym "n") then [zq 0] else if expr_eqb e (gsub G0 (Add [Sym "n"; Num (zq (-2))]) (Num 1)) then [zq 3] else [].
Example C64_defined_used : forall I rho, standard I ->
  find_domain_in_N G0 numer0 denom0 idE roots_ex 5 "n" e_ex 0 = Some (true, 4%Z) /\ forall n, (4 < n)%Z -> exists v, eval I (upd rho "n" (IZR n)) e_ex = Some v.
Proof.
  intros I rho Std. assert (E : find_domain_in_N G0 numer0 denom0 idE roots_ex 5 "n" e_ex 0 = Some (true, 4%Z)) by (vm_compute; reflexivity). split; [exact E|].
  assert (V : forall t, at_x I rho "n" t (Sym "n") = Some t) by reflexivity.
  assert (Vk : forall t k, at_x I rho "n" t (Add [Sym "n"; Num (zq k)]) = Some (t + IZR k)). { intros t k. unfold at_x. rewrite eval_Add2. cbn [eval]. rewrite rv_zq. reflexivity. }
  refine (proj2 (C64_defined_partial G0 numer0 denom0 idE roots_ex "n" I rho Std (G0_minus "n") 5 e_ex 0 4 E (numer0_ok I e_ex) _ _)).
  - change (idE (numer0 e_ex)) with num_ex. unfold num_ex. apply T_add; [reflexivity|]. constructor; [|constructor; [|constructor]].
    + apply T_fact; [reflexivity|]. intros t Ht. rewrite V in Ht. exists (zq 0). split; [vm_compute; auto|]. rewrite rv_zq. congruence.
    + apply (T_log _ _ _ _ _ _ _ _ _ _ _ 5 3); try reflexivity; try lra.
      * intros t Ht. rewrite Vk in Ht. exists (zq 3). split; [vm_compute; auto|]. rewrite rv_zq. assert (t + IZR (-2) = 1) by congruence. lra.
      * rewrite Vk. f_equal. lra.
  - change (idE (denom0 e_ex)) with den_ex. apply (T_poly _ _ _ _ _ _ _ _ _ _ _ 0); try reflexivity.
    + unfold at_x, den_ex. cbn. discriminate.
    + intros _ n Hn. unfold den_ex, at_x in Hn. rewrite eval_Mul2 in Hn. change (eval I (upd rho "n" (IZR n)) (Sym "n")) with (at_x I rho "n" (IZR n) (Sym "n")) in Hn.
      change (eval I (upd rho "n" (IZR n)) (Add [Sym "n"; Num (zq (-4))])) with (at_x I rho "n" (IZR n) (Add [Sym "n"; Num (zq (-4))])) in Hn. rewrite V, Vk in Hn. cbn [olift2] in Hn.
      assert (M : IZR n * (IZR n + IZR (-4)) = 0) by congruence. apply Rmult_integral in M as [M|M].
      * apply eq_IZR in M. subst n. vm_compute. auto.
      * assert (n = 4%Z) by (apply eq_IZR; lra). subst n. vm_compute. auto.
Qed.
Example C64_least_used : find_domain_in_N G0 numer0 denom0 idE roots_ex 5 "n" (inv den_ex) 0 = Some (true, 4%Z).
Proof. vm_compute. reflexivity. Qed.
(** log(log(n)), with the root 1 of n - 1. *)
Example C64_double_logarithm_used : find_domain_in_N G0 numer0 denom0 idE (fun _ _ => [zq 1]) 5 "n" (Fun FLog [Fun FLog [Sym "n"]]) 0 = Some (true, 3%Z).
Proof. vm_compute. reflexivity. Qed.
(** At the index itself the expression may be undefined: 1 / (n (n - 4)). *)
Example C64_index_excluded : forall I rho, eval I (upd rho "n" 4) (inv den_ex) = None.
Proof. intros I rho. apply inv_none. unfold den_ex. rewrite eval_Mul2, eval_Add2. cbn [eval]. rewrite rv_zq. cbn. f_equal. unfold upd. cbn. lra. Qed.

(** 1 / (2^n - 4) is accepted from 0 on. *)
Definition bad_den : expr := Add [Pow (Num (zq 2)) (Sym "n"); Num (zq (-4))].
Theorem C64_vanishing_denominator_refuted : forall I rho roots,
  find_domain_in_N G0 numer0 denom0 idE roots 5 "n" (inv bad_den) 0 = Some (true, 0%Z) /\ eval I (upd rho "n" 2) (inv bad_den) = None.
Proof.
  intros I rho roots. split; [reflexivity|]. apply inv_none. unfold bad_den. rewrite eval_Add2. cbn [eval]. rewrite !rv_zq. cbn [obind]. unfold upd. cbn [String.eqb Ascii.eqb Bool.eqb].
  change 2 with (INR 2) at 2. rewrite rpow_nat. cbn. f_equal. lra.
Qed.
(** 2^(1/(n-5)) too: the exponent is not looked at. *)
Definition bad_power : expr := Pow (Num (zq 2)) (inv (Add [Sym "n"; Num (zq (-5))])).
Theorem C64_exponent_refuted : forall I rho roots,
  find_domain_in_N G0 numer0 denom0 idE roots 5 "n" bad_power 0 = Some (true, 0%Z) /\ eval I (upd rho "n" 5) bad_power = None.
Proof.
  intros I rho roots. split; [reflexivity|].
  assert (E : eval I (upd rho "n" 5) (inv (Add [Sym "n"; Num (zq (-5))])) = None). { apply inv_none. rewrite eval_Add2. cbn [eval]. rewrite rv_zq. cbn. f_equal. unfold upd. cbn. lra. }
  unfold bad_power. revert E. generalize (inv (Add [Sym "n"; Num (zq (-5))])). intros b E. cbn [eval obind]. rewrite E. reflexivity.
Qed.
(** log(5 - n) is accepted, whatever roots of 4 - n are found, although it is undefined from 5 on. *)
Definition bad_log : expr := Fun FLog [Add [Num (zq 5); Mul [Num (-(1))%Qc; Sym "n"]]].
Theorem C64_logarithm_refuted : forall I rho roots, standard I -> exists z,
  find_domain_in_N G0 numer0 denom0 idE roots 5 "n" bad_log 0 = Some (true, z) /\ forall n, (5 <= n)%Z -> eval I (upd rho "n" (IZR n)) bad_log = None.
Proof.
  intros I rho roots (_ & S2 & _). eexists. split; [reflexivity|]. intros n Hn.
  assert (E : eval I (upd rho "n" (IZR n)) (Add [Num (zq 5); Mul [Num (-(1))%Qc; Sym "n"]]) = Some (5 - IZR n)).
  { rewrite eval_Add2, eval_Mul2. cbn [eval]. rewrite rv_zq, rv_opp, rv_1. cbn [olift2]. unfold upd. cbn [String.eqb Ascii.eqb Bool.eqb]. f_equal. lra. }
  unfold bad_log. revert E. generalize (Add [Num (zq 5); Mul [Num (-(1))%Qc; Sym "n"]]). intros b E. cbn [eval omap]. rewrite E. cbn [obind]. apply S2. apply IZR_le in Hn. lra.
Qed.
Lemma on_expanded_poly G nu de ex roots fuel x e z : has x e = true -> is_polynomial x e = true -> on_expanded G nu de ex roots (S fuel) x e z = Some (true, raise_all z (roots x e)).
Proof. intros H P. cbn [on_expanded]. now rewrite H, P. Qed.
Lemma on_expanded_const G nu de ex roots fuel x e z : has x e = false -> on_expanded G nu de ex roots (S fuel) x e z = Some (true, z).
Proof. intros H. cbn [on_expanded]. now rewrite H. Qed.
(** 1 / ((n-2)(n^5-n-1)): find_roots gives up because of the second factor, and the root 2 is lost. *)
Definition hard_den : expr := Add [Pow (Sym "n") (Num (zq 6)); Mul [Num (zq (-2)); Pow (Sym "n") (Num (zq 5))]; Mul [Num (zq (-1)); Pow (Sym "n") (Num (zq 2))]; Sym "n"; Num (zq 2)].
Theorem C64_lost_roots_refuted : forall I rho roots, roots "n"%string hard_den = [] ->
  find_domain_in_N G0 numer0 denom0 idE roots 5 "n" (inv hard_den) 0 = Some (true, 0%Z) /\ eval I (upd rho "n" 2) (inv hard_den) = None.
Proof.
  intros I rho roots H. split.
  - unfold find_domain_in_N, find_domain_with. replace (idE (numer0 (inv hard_den))) with (Num 1) by reflexivity. replace (idE (denom0 (inv hard_den))) with hard_den by reflexivity.
rewrite on_expanded_const by reflexivity. rewrite on_expanded_poly; [|vm_compute; reflexivity|vm_compute; reflexivity]. rewrite H. reflexivity.
  - apply inv_none. unfold hard_den. rewrite eval_Add, !esum_cons, esum_nil, !eval_Mul2. cbn [eval]. rewrite !rv_zq. unfold upd. cbn [String.eqb Ascii.eqb Bool.eqb obind].
    assert (R6 : rpow 2 6 = Some 64). { replace 6 with (INR 6) by (simpl; lra). rewrite rpow_nat. f_equal. simpl. lra. }
    assert (R5 : rpow 2 5 = Some 32). { replace 5 with (INR 5) by (simpl; lra). rewrite rpow_nat. f_equal. simpl. lra. }
    assert (R2 : rpow 2 2 = Some 4). { change 2 with (INR 2) at 2. rewrite rpow_nat. f_equal. simpl. lra. }
    rewrite R6, R5, R2. cbn [olift2]. f_equal. lra.
Qed.
Print Assumptions C64_never_decreases.
Print Assumptions C64_defined_partial.
Print Assumptions C64_double_logarithm.
Print Assumptions C64_least.
Print Assumptions C64_monotonicity_test.
Print Assumptions C64_vanishing_denominator_refuted.
Print Assumptions C64_exponent_refuted.
Print Assumptions C64_logarithm_refuted.
Print Assumptions C64_lost_roots_refuted.
