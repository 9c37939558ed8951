(** C45: closed forms of products (src/compute_prod.cc). *)
From Coq Require Import ZArith QArith Qcanon Reals List String Bool Lia Lra.
From Verif Require Import Ast ExprModel ExprSpec ExprProofs2 ElimSpec ElimCases NonLinModel DecompModel DecompSpec DecompCases VerifyCases ProdModel ProdSpec ProdProofs ProdProofs2 ProdProofs3.
Import ListNotations.
Local Open Scope list_scope.
Local Open Scope R_scope.

(** A returned expression has, at n = N, the value of the product of e(k) for k = lower, ..., N (1 if N = lower - 1).
    Missing: factors that vanish and the products excluded by [treated], for which see below. *)
Theorem C45_product_partial : forall (I : interp) (G : ginac), ginac_ok I G -> factorial_interp I -> no_new_binders G ->
  forall is_poly lc_negative content primpart num_den expand simplify factorize sum_pe h rho k lo N, (1 <= lo <= N + 1)%Z ->
  (forall e, splits_product I (env rho N) G simplify expand k h lo e (primpart e) (content e)) ->
  (forall e, splits_quotient I (env rho N) G simplify expand k h lo e (fst (num_den e)) (snd (num_den e))) ->
  (forall e, splits_product I (env rho N) G simplify expand k h lo e (fst (factorize e)) (snd (factorize e))) ->
  (forall e, refines I e (expand e)) -> (forall e, refines I e (simplify e)) -> sums_exponentials I sum_pe ->
  forall fuel e p f, compute_product G is_poly lc_negative content primpart num_den expand simplify factorize sum_pe h k lo fuel e = Value p ->
  treated I (env rho N) G simplify expand k h lo (expand e) -> factors_are I (env rho N) k lo e f ->
  eval I (env rho N) p = Some (zprod f lo (Z.to_nat (N - lo + 1))).
Proof.
  intros I G HG HF HB ip lc ct pp nd ex si fa sp h rho k lo N [H1 H2] Hc Hn Hf He Hs Hp fuel e p f.
  exact (compute_product_ok I G HG HF HB ip lc ct pp nd ex si fa sp h rho k lo N H1 H2 Hc Hn He Hs Hp fuel e p f Hf).
Qed.
(** The factor k, for any lower limit and n >= 0: n!/(lower-1)!, or 0 when 0 is among the factors. *)
Theorem C45_index : forall (I : interp) (G : ginac), ginac_ok I G -> factorial_interp I ->
  forall is_poly lc_negative content primpart num_den expand simplify sum_pe h rho k lo N, (0 <= N)%Z -> (lo <= N + 1)%Z ->
  forall fuel den p, comp_prod G is_poly lc_negative content primpart num_den expand simplify sum_pe h k lo (S fuel) den (Sym k) = Value p ->
  eval I (env rho N) p = Some (zprod (fun i => IZR i) lo (Z.to_nat (N - lo + 1))).
Proof.
  intros I G HG HF ip lc ct pp nd ex si sp h rho k lo N H0 H1 fuel den p H. cbn [comp_prod] in H. cbn [has] in H. rewrite String.eqb_refl in H. cbn [negb] in H. rewrite expr_eqb_refl in H.
  destruct (Z.ltb_spec 0 lo) as [L|L].
  - apply bind_value in H as (b & Fb & H). injection H as <-. rewrite (index_ok I G HG HF rho k lo N b L H1 Fb). f_equal. apply zprod_ext. intros i _. apply fv_val, k_v.
  - destruct den; [discriminate|]. injection H as <-. rewrite int_v. f_equal. symmetry. apply (zero_prod lo N _ 0); [lia|reflexivity].
Qed.
(** The factor k + num: (n+num)!/(lower+num-1)!, or 0; exact for n not less than the zero -num. *)
Theorem C45_shift : forall (I : interp) (G : ginac), ginac_ok I G -> factorial_interp I ->
  forall rho k lo N, (lo <= N + 1)%Z -> forall e num den p, (e = Add [Sym k; Num (zq num)] \/ e = Add [Num (zq num); Sym k]) -> (- num <= N)%Z ->
  product_of_shift G k lo e (zq num) den = Value p -> eval I (env rho N) p = Some (zprod (fun i => IZR (i + num)) lo (Z.to_nat (N - lo + 1))).
Proof.
  intros I G HG HF rho k lo N HN e num den p He Hm H.
  assert (Sh : shift_of k e = Some (Some (zq num))).
  { destruct He as [->| ->]; cbn [shift_of]; rewrite expr_eqb_refl; auto. now rewrite ExprProofs1.q_is_int_zq. }
  rewrite (shift_ok I G HG HF rho k lo N e (zq num) den p HN Sh H).
  - f_equal. apply zprod_ext. intros i _. apply fv_val. rewrite (shift_at _ _ _ _ _ _ _ Sh), rv_zq, plus_IZR. reflexivity.
  - intros _ _. exists (- num)%Z. rewrite rv_zq. split; [f_equal; lia|exact Hm].
Qed.

(** Instances of the auxiliary functions. *)
Definition one_content (e : expr) : expr := Num 1.
Definition whole (e : expr) : expr * expr := (e, Num 1).
Definition whole' (e : expr) : expr * expr := (Num 1, e).
Definition sum_symbolic (c : expr) (h : string) (b : expr) : expr := SumE h (Num 0) (Sym "n") (Mul [c; Pow b (Sym h)]).
Definition never (_ : expr) : bool := false.
Definition always (_ : expr) : bool := true.
Lemma sum_symbolic_ok I : sums_exponentials I sum_symbolic.
Proof.
  intros rho h c b N g HN Hg. unfold sum_symbolic. cbn [eval]. rewrite rv_0. cbn [obind]. change (env rho N "n"%string) with (IZR N). cbn [obind]. change 0 with (IZR 0) at 1. rewrite !as_int_IZR. cbn [obind].
  replace (N - 0 + 1)%Z with (N + 1)%Z by lia.
  assert (Gen : forall n, (Z.of_nat n <= N + 1)%Z -> osum n (fun i => eval I (upd (env rho N) h (IZR (0 + Z.of_nat i))) (Mul [c; Pow b (Sym h)])) = Some (zsum g 0 n)).
  { induction n as [|n IH]; intros Hn; cbn [osum zsum]; auto. rewrite IH by lia. rewrite Hg by lia. reflexivity. }
  apply (Gen (Z.to_nat (N + 1))). lia.
Qed.
Lemma treated_num I rho G si ex k h lo q : treated I rho G si ex k h lo (Num q). Proof. cbn. tauto. Qed.
Lemma whole_product I rho G si ex k h lo e : splits_product I rho G si ex k h lo e (idE e) (one_content e).
Proof.
  split; [|split; [assumption|apply treated_num]]. intros rho' v E. rewrite eval_Mul2. unfold idE, one_content. rewrite E. cbn [eval olift2]. rewrite rv_1. f_equal. ring.
Qed.
Lemma whole_quotient I rho G si ex k h lo e : splits_quotient I rho G si ex k h lo e (fst (whole e)) (snd (whole e)).
Proof.
  split; [|split; [assumption|apply treated_num]]. intros rho' v E. exists v, 1. cbn [whole fst snd eval]. rewrite rv_1. repeat split; auto; try lra; try field.
Qed.
Lemma whole_product' I rho G si ex k h lo e : splits_product I rho G si ex k h lo e (fst (whole' e)) (snd (whole' e)).
Proof.
  split; [|split; [apply treated_num|assumption]]. intros rho' v E. rewrite eval_Mul2. cbn [whole' fst snd]. rewrite E. cbn [eval olift2]. rewrite rv_1. f_equal. ring.
Qed.
Notation compute lo e := (compute_product G0 always never one_content idE whole idE idE whole' sum_symbolic "h" "k" lo 5 e).
(** Non-vacuity: 3 (k+2)^2 2^k (2k+1) from 1. *)
Definition ok_e : expr := Mul [Num (zq 3); Pow (Add [Sym "k"; Num (zq 2)]) (Num (zq 2)); Pow (Num (zq 2)) (Sym "k"); Add [Mul [Num (zq 2); Sym "k"]; Num 1]].
Definition value_of (o : outcome) : expr := match o with Value e => e | _ => Num 0 end.
Definition is_value (o : outcome) : bool := match o with Value _ => true | _ => false end.
Example C45_case : (exists p, compute 1 ok_e = Value p) /\
  (forall rho N, treated I0 (env rho N) G0 idE idE "k" "h" 1 (idE ok_e)) /\
  (forall rho N, factors_are I0 (env rho N) "k" 1 ok_e (fun i => 3 * ((IZR i + 2) ^ 2) * Rpower 2 (IZR i) * (2 * IZR i + 1))) /\
  forall rho N, (1 <= N)%Z -> eval I0 (env rho N) (value_of (compute 1 ok_e)) =
    Some (zprod (fun i => 3 * ((IZR i + 2) ^ 2) * Rpower 2 (IZR i) * (2 * IZR i + 1)) 1 (Z.to_nat (N - 1 + 1))).
Proof.
  assert (V : is_value (compute 1 ok_e) = true) by (vm_compute; reflexivity).
  assert (T : forall rho N, treated I0 (env rho N) G0 idE idE "k" "h" 1 (idE ok_e)).
  { intros rho N. unfold idE, ok_e. cbn -[exp_poly_decomposition substitute zq Q2Qc]. repeat match goal with |- _ /\ _ => split end; auto; try discriminate.
    split; [reflexivity|split; [eexists; reflexivity|]].
    replace (exp_poly_decomposition G0 (fun e => e) (Sym "k") "k") with [(Num 1, Sym "k", Num 0)] by (vm_compute; reflexivity). constructor; [|constructor]. cbn. repeat split; auto. }
  assert (F : forall rho N, factors_are I0 (env rho N) "k" 1 ok_e (fun i => 3 * ((IZR i + 2) ^ 2) * Rpower 2 (IZR i) * (2 * IZR i + 1))).
  { intros rho N i Hi. split.
    - unfold ok_e. cbn [eval fold_right]. change (upd (env rho N) "k" (IZR i) "k"%string) with (IZR i). rewrite !rv_zq, rv_1. cbn [obind olift2]. change 2 with (INR 2) at 2. rewrite rpow_nat. cbn [obind olift2].
      rewrite (NonLinProofs.rpow_pos 2) by lra. cbn [obind olift2]. f_equal. ring.
    - apply IZR_le in Hi. pose proof (exp_pos (IZR i * ln 2)). fold (Rpower 2 (IZR i)) in H.
      assert (0 < (IZR i + 2) ^ 2) by (apply pow_lt; lra). apply Rgt_not_eq. repeat apply Rmult_lt_0_compat; lra. }
  split; [|split; [exact T|split; [exact F|]]].
  - destruct (compute 1 ok_e) as [p| |]; try discriminate. now exists p.
  - intros rho N HN. destruct (compute 1 ok_e) as [p| |] eqn:E; try discriminate. cbn [value_of].
    apply (C45_product_partial I0 G0 (G0_ok I0) I0_factorial G0_nb always never one_content idE whole idE idE whole' sum_symbolic "h" rho "k" 1 N ltac:(lia)
      (whole_product _ _ _ _ _ _ _ _) (whole_quotient _ _ _ _ _ _ _ _) (whole_product' _ _ _ _ _ _ _ _) (fun _ _ _ H => H) (fun _ _ _ H => H) (sum_symbolic_ok I0) 5 ok_e p _ E (T rho N) (F rho N)).
Qed.

(** * Wrong products *)
(** A constant to a power: the exponents are summed from 1 whatever the lower limit: the product of 2^k
    for k = 2, ..., n is 2^(n(n+1)/2) according to the code, at n = 2: 8 instead of 4. *)
Definition lw_e : expr := Pow (Num (zq 2)) (Sym "k").
Definition val_is (o : outcome) (p : expr) : bool := match o with Value e => expr_eqb e p | _ => false end.
Lemma val_is_eq o p : val_is o p = true -> o = Value p.
Proof. destruct o; try discriminate. cbn. intros E. apply expr_eqb_eq in E. now subst. Qed.
Lemma ev_pow I rho a b : eval I rho (Pow a b) = obind (eval I rho a) (fun x => obind (eval I rho b) (rpow x)). Proof. reflexivity. Qed.
Lemma one_pow rho e v : eval I0 rho e = Some v -> eval I0 rho (Pow (Num 1) e) = Some 1.
Proof. intros E. cbn [eval]. rewrite E, rv_1. cbn [obind]. apply rpow_one. Qed.
Definition n_minus (a b : Z) : expr := Add [Sym "n"; Num (zq a); Num (zq b)].
Lemma n_minus_v rho N a b : eval I0 (env rho N) (n_minus a b) = Some (IZR (N + a + b)).
Proof. unfold n_minus. cbn [eval fold_right olift2]. rewrite !rv_zq. change (env rho N "n"%string) with (IZR N). f_equal. rewrite !plus_IZR. ring. Qed.
Definition lw_p : expr := Mul [Pow (Num 1) (n_minus (-2) 1); Pow (Num (zq 2)) (sum_symbolic (Sym "h") "h" (Num 1))].
Theorem C45_lower_refuted : forall rho, compute 2 lw_e = Value lw_p /\ factors_are I0 (env rho 2) "k" 2 lw_e (fun i => Rpower 2 (IZR i)) /\
  zprod (fun i => Rpower 2 (IZR i)) 2 (Z.to_nat (2 - 2 + 1)) = 4 /\ eval I0 (env rho 2) lw_p = Some 8.
Proof.
  intros rho. split; [apply val_is_eq; vm_compute; reflexivity|split; [|split]].
  - intros i _. split; [|apply Rgt_not_eq, exp_pos]. unfold lw_e. cbn [eval]. rewrite rv_zq. cbn [obind]. change (upd (env rho 2) "k" (IZR i) "k"%string) with (IZR i). apply NonLinProofs.rpow_pos. lra.
  - change (Z.to_nat (2 - 2 + 1)) with 1%nat. cbn [zprod]. change (2 + Z.of_nat 0)%Z with (Z.of_nat 2). rewrite <- INR_IZR_INZ, Rpower_pow by lra. ring.
  - unfold lw_p. rewrite eval_Mul2. rewrite (one_pow _ _ _ (n_minus_v rho 2 (-2) 1)).
    assert (Sv : eval I0 (env rho 2) (sum_symbolic (Sym "h") "h" (Num 1)) = Some (zsum (fun i => IZR i) 0 (Z.to_nat (2 + 1)))).
    { apply sum_symbolic_ok; [lia|]. intros i _. rewrite eval_Mul2. cbn [eval]. rewrite rv_1. change (upd (env rho 2) "h" (IZR i) "h"%string) with (IZR i). cbn [obind]. rewrite rpow_one. cbn [olift2]. f_equal. ring. }
    rewrite ev_pow, Sv, (int_v I0 _ 2 : eval I0 (env rho 2) (Num (zq 2)) = _). change (Z.to_nat (2 + 1)) with 3%nat. cbn [obind zsum].
    replace (0 + _ + _ + _) with (INR 3) by (cbn [Z.of_nat Z.add INR]; cbn; lra). rewrite rpow_nat. cbn [olift2]. f_equal. ring.
Qed.
(** k - 5/2: the product for k = 1, ..., n is said to be 0; at n = 3 it is 3/8. *)
Definition fr_e : expr := Add [Sym "k"; Num (Q2Qc (-5 # 2))].
Theorem C45_fraction_refuted : forall rho, compute 1 fr_e = Value (Mul [Pow (Num 1) (n_minus (-1) 1); Num 0]) /\
  factors_are I0 (env rho 3) "k" 1 fr_e (fun i => IZR i - 5 / 2) /\
  zprod (fun i => IZR i - 5 / 2) 1 (Z.to_nat (3 - 1 + 1)) = 3 / 8 /\ eval I0 (env rho 3) (Mul [Pow (Num 1) (n_minus (-1) 1); Num 0]) = Some 0.
Proof.
  intros rho. split; [apply val_is_eq; vm_compute; reflexivity|split; [|split]].
  - intros i _. split.
    + unfold fr_e. rewrite eval_Add2. cbn [eval olift2]. change (upd (env rho 3) "k" (IZR i) "k"%string) with (IZR i). f_equal. unfold rv. cbn [Q2Qc this]. unfold Q2R. cbn. lra.
    + intros E. assert (E2 : IZR (2 * i) = IZR 5) by (rewrite mult_IZR; lra). apply eq_IZR in E2. lia.
  - change (Z.to_nat (3 - 1 + 1)) with 3%nat. cbn [zprod]. cbn. field.
  - rewrite eval_Mul2, (one_pow _ _ _ (n_minus_v rho 3 (-1) 1)). cbn [eval olift2]. rewrite rv_0. f_equal. ring.
Qed.
(** k - 5: the product for k = 1, ..., n is said to be 0 for all n; at n = 3 it is -24. *)
Definition five : expr := Add [Sym "k"; Num (zq (-5))].
Theorem C45_before_zero_refuted : forall rho, compute 1 five = Value (Mul [Pow (Num 1) (n_minus (-1) 1); Num 0]) /\
  (forall i, eval I0 (upd (env rho 3) "k" (IZR i)) five = Some (IZR (i - 5))) /\
  zprod (fun i => IZR (i - 5)) 1 (Z.to_nat (3 - 1 + 1)) = -24 /\ eval I0 (env rho 3) (Mul [Pow (Num 1) (n_minus (-1) 1); Num 0]) = Some 0.
Proof.
  intros rho. split; [apply val_is_eq; vm_compute; reflexivity|split; [|split]].
  - intros i. unfold five. rewrite eval_Add2. cbn [eval olift2]. change (upd (env rho 3) "k" (IZR i) "k"%string) with (IZR i). f_equal. rewrite rv_zq, minus_IZR. reflexivity.
  - change (Z.to_nat (3 - 1 + 1)) with 3%nat. cbn [zprod]. cbn. lra.
  - rewrite eval_Mul2, (one_pow _ _ _ (n_minus_v rho 3 (-1) 1)). cbn [eval olift2]. rewrite rv_0. f_equal. ring.
Qed.
(** 2k - 1 from 0: the factor for k = 0 is forgotten, and with it the sign. *)
Definition odd_e : expr := Add [Mul [Num (zq 2); Sym "k"]; Num (zq (-1))].
Definition odd_p : expr := Mul [Pow (Num 1) (Add [Sym "n"; Num 1]); Fun FFact [Mul [Num (zq 2); Sym "n"]]; Pow (Num (zq 2)) (Mul [Num (zq (-1)); Sym "n"]); Pow (Fun FFact [Sym "n"]) (Num (-(1))%Qc)].
Theorem C45_from_zero_refuted : forall rho, compute 0 odd_e = Value odd_p /\
  factors_are I0 (env rho 1) "k" 0 odd_e (fun i => 2 * IZR i - 1) /\
  zprod (fun i => 2 * IZR i - 1) 0 (Z.to_nat (1 - 0 + 1)) = -1 /\ eval I0 (env rho 1) odd_p = Some 1.
Proof.
  intros rho. split; [apply val_is_eq; vm_compute; reflexivity|split; [|split]].
  - intros i _. split.
    + unfold odd_e. rewrite eval_Add2, eval_Mul2. cbn [eval olift2]. change (upd (env rho 1) "k" (IZR i) "k"%string) with (IZR i). f_equal. rewrite !rv_zq. lra.
    + intros E. assert (E2 : IZR (2 * i) = IZR 1) by (rewrite mult_IZR; lra). apply eq_IZR in E2. lia.
  - change (Z.to_nat (1 - 0 + 1)) with 2%nat. cbn [zprod]. cbn. ring.
  - unfold odd_p. rewrite eval_Mul. rewrite !eprod_cons, (one_pow _ (Add [Sym "n"; Num 1]) (1 + 1)), eprod_nil by (rewrite eval_Add2; cbn [eval olift2]; rewrite rv_1; reflexivity).
    replace (eval I0 (env rho 1) (Fun FFact [Mul [Num (zq 2); Sym "n"]])) with (Some (INR (fact 2))).
    2:{ symmetry. apply (fact_v I0 G0 (G0_ok I0) I0_factorial (env rho 1) (Mul [Num (zq 2); Sym "n"]) 2); [|lia]. rewrite eval_Mul2. cbn [eval olift2]. rewrite rv_zq. change (env rho 1 "n"%string) with 1. f_equal. ring. }
    replace (eval I0 (env rho 1) (Pow (Num (zq 2)) (Mul [Num (zq (-1)); Sym "n"]))) with (Some (/ 2)).
    2:{ symmetry. rewrite ev_pow, eval_Mul2. cbn [eval olift2]. rewrite !rv_zq. change (env rho 1 "n"%string) with 1. cbn [obind]. replace (-1 * 1) with (-1) by ring. apply WClassProofs2.inv_v. lra. }
    replace (eval I0 (env rho 1) (Pow (Fun FFact [Sym "n"]) (Num (-(1))%Qc))) with (Some (/ 1)).
    2:{ symmetry. pose proof (fact_v I0 G0 (G0_ok I0) I0_factorial (env rho 1) (Sym "n") 1 eq_refl ltac:(lia)) as Fv. cbn [G0 gfun] in Fv. change (INR (fact (Z.to_nat 1))) with 1 in Fv. rewrite ev_pow, Fv. cbn [eval obind]. rewrite rv_opp, rv_1. apply WClassProofs2.inv_v. lra. }
    cbn [olift2]. f_equal. cbn. field.
Qed.
(** The sign of a sum is lost when its content is split off: -2k^2-2k-2 = -(2 (k^2+k+1)). *)
Definition neg_e : expr := Add [Mul [Num (zq (-2)); Pow (Sym "k") (Num (zq 2))]; Mul [Num (zq (-2)); Sym "k"]; Num (zq (-2))].
Definition neg_pp : expr := Add [Pow (Sym "k") (Num (zq 2)); Sym "k"; Num 1].
Definition content2 (e : expr) : expr := if expr_eqb e neg_e then Num (zq 2) else Num 1.
Definition primpart2 (e : expr) : expr := if expr_eqb e neg_e then neg_pp else e.
Definition neg_p : expr := Mul [ProdE "h" (Num (zq 1)) (Sym "n") (Add [Num 1; Sym "h"; Pow (Sym "h") (Num (zq 2))]); Pow (Num (zq 2)) (n_minus (-1) 1)].
Theorem C45_unit_refuted : forall rho,
  (forall rho' v, eval I0 rho' neg_e = Some v -> eval I0 rho' (Mul [primpart2 neg_e; content2 neg_e]) = Some (- v)) /\
  comp_prod G0 always never content2 primpart2 whole idE idE sum_symbolic "h" "k" 1 5 false neg_e = Value neg_p /\
  factors_are I0 (env rho 1) "k" 1 neg_e (fun i => -2 * (IZR i * IZR i) - 2 * IZR i - 2) /\
  zprod (fun i => -2 * (IZR i * IZR i) - 2 * IZR i - 2) 1 (Z.to_nat (1 - 1 + 1)) = -6 /\ eval I0 (env rho 1) neg_p = Some 6.
Proof.
  intros rho.
  assert (V : forall rho', eval I0 rho' neg_e = Some (-2 * (rho' "k"%string * rho' "k"%string) - 2 * rho' "k"%string - 2)).
  { intros rho'. unfold neg_e. cbn [eval fold_right]. rewrite !rv_zq. cbn [obind]. change 2 with (INR 2) at 1. rewrite rpow_nat. cbn [olift2 obind]. f_equal. ring. }
  split; [|split; [|split; [|split]]].
  - intros rho' v E. rewrite V in E. unfold primpart2, content2. rewrite expr_eqb_refl, eval_Mul2. unfold neg_pp. cbn [eval fold_right]. rewrite !rv_zq, rv_1. cbn [obind]. change 2 with (INR 2) at 1. rewrite rpow_nat. cbn [olift2 obind]. f_equal.
    assert (v = -2 * (rho' "k"%string * rho' "k"%string) - 2 * rho' "k"%string - 2) by congruence. subst v. ring.
  - apply val_is_eq. vm_compute. reflexivity.
  - intros i Hi. split.
    + rewrite V. change (upd (env rho 1) "k" (IZR i) "k"%string) with (IZR i). reflexivity.
    + apply IZR_le in Hi. nra.
  - change (Z.to_nat (1 - 1 + 1)) with 1%nat. cbn [zprod]. cbn. ring.
  - unfold neg_p. rewrite eval_Mul2.
    replace (eval I0 (env rho 1) (Pow (Num (zq 2)) (n_minus (-1) 1))) with (Some 2).
    2:{ symmetry. rewrite ev_pow, n_minus_v, (int_v I0 _ 2 : eval I0 (env rho 1) (Num (zq 2)) = _). cbn [obind]. change (IZR (1 + -1 + 1)) with (INR 1). rewrite rpow_nat. f_equal. ring. }
    cbn [eval]. rewrite rv_zq. cbn [obind]. change (env rho 1 "n"%string) with (IZR 1). rewrite !as_int_IZR. cbn [obind]. change (Z.to_nat (1 - 1 + 1)) with 1%nat. cbn [oprod eval fold_right].
    change (upd (env rho 1) "h" (IZR (1 + Z.of_nat 0)) "h"%string) with 1. rewrite rv_zq, rv_1. cbn [obind]. change 2 with (INR 2) at 1. rewrite rpow_nat. cbn [olift2]. f_equal. ring.
Qed.

Print Assumptions C45_product_partial.
Print Assumptions C45_index.
Print Assumptions C45_shift.
Print Assumptions C45_lower_refuted.
Print Assumptions C45_fraction_refuted.
Print Assumptions C45_before_zero_refuted.
Print Assumptions C45_from_zero_refuted.
Print Assumptions C45_unit_refuted.
