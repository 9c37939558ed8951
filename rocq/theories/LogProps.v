(** C56: logarithms (src/simplify.cc:1205-1641). *)
From Coq Require Import ZArith QArith Qcanon Reals List String Bool Permutation Lia Lra.
From Verif Require Import Ast ExprModel ExprSpec ExprProofs1 ExprProofs2 NonLinProofs NumDenProofs DecompCases VerifyCases CollectModel CollectProofs CollectProps LogModel LogSpec LogProofs LogProofs2 LogProofs3.
Import ListNotations.
Local Open Scope list_scope.
Local Open Scope R_scope.

(** Is c > 0 a power of a > 0? The search ends, finds an exponent if there is a non-zero one, and what it finds is one. *)
Theorem C56_perfect_power : forall a c : Qc, 0 < rv a -> 0 < rv c -> exists f, forall fuel, (f <= fuel)%nat ->
  exists r, is_perfect_power fuel c a = Some r /\ match r with Some z => powerRZ (rv a) z = rv c | None => forall z, (z <> 0)%Z -> powerRZ (rv a) z <> rv c end.
Proof. exact perfect_power_ok. Qed.
Print Assumptions C56_perfect_power.
(** log(base^x) where base is an integer: base is factored. *)
Theorem C56_integer_base : forall I G, ginac_ok I G -> log_std I ->
  forall rho base x r y p, factorize_base_arg_log G base x = Some r -> eval I rho x = Some y -> rpow (IZR base) y = Some p -> 0 < p -> eval I rho r = Some (ln p).
Proof. intros I G HG HL. exact (factorize_ok I G HG HL). Qed.
Print Assumptions C56_integer_base.
(** log of powers, products and numbers: right if the powers have positive bases and the products
    positive factors. *)
Theorem C56_elementary_partial : forall I G, ginac_ok I G -> log_std I ->
  forall simplify_powers rho all arg r v, log_fine I simplify_powers rho all arg ->
  apply_elementary_prop G simplify_powers (fun e => Some e) all arg = Some r -> eval I rho (Fun FLog [arg]) = Some v -> eval I rho r = Some v.
Proof. intros I G HG HL sp rho all arg r v F. apply (elementary_ok I G HG HL sp); auto. intros l f s w _ _ _ _ Hs Ew. congruence. Qed.
Print Assumptions C56_elementary_partial.
(** Powers with logarithms in the exponent. *)
Theorem C56_power_partial : forall I G, ginac_ok I G -> log_std I -> exp_std I ->
  forall simplify_powers rho fuel b x o v, power_fine I G simplify_powers rho b x -> power_step G simplify_powers fuel b x = Some o -> eval I rho (Pow b x) = Some v ->
  match o with inl r => eval I rho r = Some v | inr (b', x') => eval I rho (Pow b' x') = Some v end.
Proof. exact power_step_ok. Qed.
Print Assumptions C56_power_partial.
(** (a^i)^(r log c / log a) = c^(i r) *)
Theorem C56_power_of_quotient : forall G a i c q fuel, q_lt 0 q = true -> is_perfect_power fuel q a = Some (Some i) ->
  power_result G fuel (Num q) (Mul [Fun FLog [c]; Pow (Fun FLog [Num a]) minus_one]) = Some (inl (gpow G c (gmul G (Num (zq i)) (Num 1)))).
Proof. intros G a i c q fuel Hq Hp. unfold power_result. rewrite Hq. cbn [rev app scan2 log_arg inv_log_arg]. rewrite expr_eqb_refl. now rewrite Hp. Qed.
Print Assumptions C56_power_of_quotient.
(** Quotients of logarithms. *)
Theorem C56_quotient_partial : forall I G, ginac_ok I G -> log_std I -> forall numer denom, fractions I numer denom -> forall canon, (forall l, Permutation (canon l) l) ->
  forall rho l v, quotient_fine numer denom canon l -> eval I rho (Mul l) = Some v -> eval I rho (simpl_quotient_of_logs G numer denom canon l) = Some v.
Proof. exact quotient_ok. Qed.
Print Assumptions C56_quotient_partial.
(** log(a) / log(b), where b is 1/a *)
Theorem C56_quotient_cancels : forall G numer denom canon o a b, log_like o = false -> numer a = denom b -> numer b = denom a ->
  simpl_quotient_of_logs G numer denom canon [o; Fun FLog [a]; Pow (Fun FLog [b]) minus_one] = gmul G (mul_all G [o]) minus_one.
Proof.
  intros G nu de canon o a b Ho H1 H2. unfold simpl_quotient_of_logs. cbn [filter]. rewrite Ho. pose proof Ho as Ho'. rewrite log_like_or in Ho'. apply orb_false_iff in Ho' as [-> ->].
  assert (Ei : inv_log_arg (Pow (Fun FLog [b]) minus_one) = Some b) by (unfold inv_log_arg; now rewrite expr_eqb_refl).
  unfold log_like, is_log, is_inv. rewrite Ei. cbn [log_arg inv_log_arg negb]. unfold recip. rewrite Ei. cbn [log_arg]. unfold reciprocal. rewrite H1, H2, !expr_eqb_refl. reflexivity.
Qed.
Print Assumptions C56_quotient_cancels.
(** The whole simplification. *)
Theorem C56_simplify_log_partial : forall I G, ginac_ok I G -> log_std I -> exp_std I ->
  forall numer denom simplify_powers, fractions I numer denom -> forall canon, (forall l, Permutation (canon l) l) ->
  forall fuel rho e r v, logs_fine I G numer denom simplify_powers canon rho e -> simplify_log G numer denom simplify_powers canon fuel e = Some r -> eval I rho e = Some v -> eval I rho r = Some v.
Proof. exact simplify_log_ok. Qed.
Print Assumptions C56_simplify_log_partial.

(** * Cases *)
Lemma I0_log : log_std I0.
Proof. intros v w. unfold I0, ifun. destruct (Rlt_dec 0 v); split; [intros [= <-]; auto|intros [_ ->]; auto|discriminate|intros [H _]; contradiction]. Qed.
Lemma I0_exp : exp_std I0. Proof. intros v. reflexivity. Qed.
Definition numer0 (e : expr) : expr := match e with Num q => Num (zq (q_num q)) | _ => e end.
Definition denom0 (e : expr) : expr := match e with Num q => Num (zq (q_den q)) | _ => Num 1 end.
Lemma fractions0 I : fractions I numer0 denom0.
Proof.
  intros rho a v E. assert (P : forall q, IZR (q_den q) <> 0) by (intros q; apply Rgt_not_eq, q_den_pos).
  destruct a as [q| | | | | | | |]; try (exists v, 1; cbn [numer0 denom0]; split; [exact E|]; split; [cbn [eval]; now rewrite rv_1|]; split; lra).
  exists (IZR (q_num q)), (IZR (q_den q)). cbn [numer0 denom0 eval] in *. rewrite !rv_zq. repeat split; auto. injection E as <-. apply rv_num_den.
Qed.
Definition lg (e : expr) : expr := Fun FLog [e].
Notation N k := (Num (zq k)).
Example C56_perfect_case : is_perfect_power 10 (Q2Qc (27 # 8)) (Q2Qc (2 # 3)) = Some (Some (-3)%Z) /\ is_perfect_power 10 (zq 12) (zq 2) = Some None.
Proof. vm_compute. auto. Qed.
Example C56_elementary_case : (match apply_elementary_prop Gk idE (fun e => Some e) true (Mul [Pow (Sym "n") (Sym "m"); Sym "n"; N 8]) with Some r => expr_eqb r (Add [lg (N 8); lg (Sym "n"); lg (Pow (Sym "n") (Sym "m"))]) | None => false end = true) /\
  (match apply_elementary_prop Gk idE (fun e => Some e) true (Pow (Sym "n") (Sym "m")) with Some r => expr_eqb r (Mul [Sym "m"; lg (Sym "n")]) | None => false end = true) /\
  (match apply_elementary_prop Gk idE (fun e => Some e) true (Num (Q2Qc (8 # 9))) with Some r => expr_eqb r (Add [Mul [N 3; lg (N 2)]; Mul [N (-1); N 2; lg (N 3)]]) | None => false end = true) /\
  log_fine I0 idE (fun _ => 2) true (Mul [Pow (Sym "n") (Sym "m"); Sym "n"; N 8]).
Proof.
  split; [vm_compute; reflexivity|]. split; [vm_compute; reflexivity|]. split; [vm_compute; reflexivity|]. split; [discriminate|]. cbv zeta. split; [discriminate|]. intros l _ [= <-].
  assert (P2 : eval I0 (fun _ => 2) (Sym "n") = Some 2) by reflexivity.
  constructor; [|constructor; [|constructor; [|constructor]]].
  - exists (Rpower 2 2). split; [apply (power_intro I0 _ _ _ 2 2); auto; apply rpow_pos; lra|unfold Rpower; apply exp_pos].
  - exists 2. split; auto. lra.
  - exists 8. cbn [eval]. rewrite rv_zq. split; auto. lra.
Qed.
(** 8^(n log 3 / log 2) becomes 3^(3 n), 2^(m log n) becomes n^(m log 2). *)
Definition p_x : expr := Mul [lg (N 3); Pow (lg (N 2)) minus_one; Sym "n"].
Definition p_y : expr := Mul [Sym "m"; lg (Sym "n")].
Lemma fine_id rho all a : (forall b x, a <> Pow b x) -> (forall l, a <> Mul l) -> log_fine I0 idE rho all a.
Proof. intros N1 N2. split; [auto|]. cbv zeta. destruct a; split; intros; try discriminate; [now destruct (N2 l)|now destruct (N1 a1 a2)..]. Qed.
Example C56_power_case : (match power_step Gk idE 10 (N 8) p_x with Some (inl r) => expr_eqb r (Pow (N 3) (Mul [N 3; Sym "n"])) | _ => false end = true) /\
  (match power_step Gk idE 10 (N 2) p_y with Some (inr (b, x)) => expr_eqb b (Sym "n") && expr_eqb x (Mul [Sym "m"; lg (N 2)]) | _ => false end = true) /\
  (forall rho, power_fine I0 Gk idE rho (N 8) p_x) /\ (forall rho, power_fine I0 Gk idE rho (N 2) p_y).
Proof.
  split; [vm_compute; reflexivity|]. split; [vm_compute; reflexivity|]. split; intros rho; (split; [split|]); try discriminate.
  - intros l a El Hi. apply fine_id; [intros b x E|intros l' E]; (injection El as <-; subst a; destruct Hi as [Hi|[y Hi]]; cbn [In] in Hi; repeat (destruct Hi as [Hi|Hi]; [discriminate Hi|]); exact Hi).
  - intros l El l1 f l2 E [a [-> Ha]]. exfalso.
    assert (Hl : l = [Sym "n"; Pow (lg (N 2)) minus_one; lg (N 3)] ) by (assert (X : exponent_simpl Gk idE p_x = Some (Mul [Sym "n"; Pow (lg (N 2)) minus_one; lg (N 3)])) by (assert (X : match exponent_simpl Gk idE p_x with Some r => expr_eqb r (Mul [Sym "n"; Pow (lg (N 2)) minus_one; lg (N 3)]) | None => false end = true) by (vm_compute; reflexivity); destruct (exponent_simpl Gk idE p_x); [apply expr_eqb_eq in X; now subst|discriminate]); congruence).
    rewrite Hl in E. clear Hl. assert (Hi : In (Fun FLog [a]) [Sym "n"; Pow (lg (N 2)) minus_one; lg (N 3)]) by (rewrite E; apply in_app_iff; right; now left).
    cbn [In] in Hi. destruct Hi as [Hi|[Hi|[Hi|[]]]]; try discriminate Hi. assert (Ea : N 3 = a) by (unfold lg in Hi; congruence). subst a. destruct Ha as [Ha|[_ Ha]]; [discriminate Ha|now destruct (Ha (zq 3))].
  - intros l a El Hi. apply fine_id; [intros b x E|intros l' E]; (injection El as <-; subst a; destruct Hi as [Hi|[y Hi]]; cbn [In] in Hi; repeat (destruct Hi as [Hi|Hi]; [discriminate Hi|]); exact Hi).
  - intros l El l1 f l2 E Ex.
    assert (Hl : l = [lg (Sym "n"); Sym "m"]) by (assert (X : exponent_simpl Gk idE p_y = Some (Mul [lg (Sym "n"); Sym "m"])) by reflexivity; congruence).
    rewrite Hl in E. clear Hl. split; [exists 2; cbn [eval]; rewrite rv_zq; split; auto; lra|].
    assert (Nm : ~ exchanged (N 2) (Sym "m")) by (intros (? & ? & _); discriminate).
    destruct l1 as [|f1 [|f2 l1]]; cbn [app] in E |- *.
    + assert (l2 = [Sym "m"]) by congruence. subst l2. intros g [<-|[]]. exact Nm.
    + assert (f = Sym "m") by congruence. subst f. contradiction.
    + exfalso. assert (X : List.length [lg (Sym "n"); Sym "m"] = List.length (f1 :: f2 :: l1 ++ f :: l2)) by now rewrite E. cbn in X. rewrite app_length in X. cbn in X. lia.
Qed.
(** n log(2/3) / log(3/2) becomes -n; inside a sum. *)
Definition q_l : list expr := [Sym "n"; lg (Num (Q2Qc (2 # 3))); Pow (lg (Num (Q2Qc (3 # 2)))) minus_one].
Example C56_quotient_case : expr_eqb (simpl_quotient_of_logs Gk numer0 denom0 (fun l => l) q_l) (Mul [Sym "n"; minus_one]) = true /\ quotient_fine numer0 denom0 (fun l => l) q_l.
Proof. split; [vm_compute; reflexivity|]. intros f g r _ L. exfalso. cbn in L. lia. Qed.
Definition s_e : expr := SumE "k" (Num 1) (Sym "n") (Add [Mul q_l; Fun FExp [lg (N 9)]]).
Example C56_simplify_case : (match simplify_log Gk numer0 denom0 idE (fun l => l) 20 s_e with Some r => expr_eqb r (SumE "k" (Num 1) (Sym "n") (Add [Fun FExp [Mul [N 2; lg (N 3)]]; Mul [minus_one; Sym "n"]])) | None => false end = true) /\
  forall rho, logs_fine I0 Gk numer0 denom0 idE (fun l => l) rho s_e.
Proof.
  split; [vm_compute; reflexivity|]. intros rho. assert (Lf : forall rho e, match e with Num _ | Cst _ | Sym _ => True | _ => False end -> logs_fine I0 Gk numer0 denom0 idE (fun l => l) rho e) by (intros; now constructor).
  apply LF_sum; [now apply Lf|now apply Lf|]. intros i. set (r := upd rho "k" (IZR i)). clearbody r. apply LF_add. constructor; [|constructor; [|constructor]].
  - apply (LF_mul _ _ _ _ _ _ r q_l [Sym "n"; minus_one]); [apply C56_quotient_case|apply expr_eqb_eq; vm_compute; reflexivity|]. constructor; [now apply Lf|]. constructor; [now apply Lf|constructor].
  - apply LF_fun; [discriminate|]. constructor; [|constructor]. apply LF_log; [now apply fine_id|]. discriminate.
Qed.

(** * 2^(log(n) log(n+1)) becomes n^(log 2): of two logarithms in the exponent one is lost *)
Definition w_b : expr := Mul [lg (Sym "n"); lg (Add [Sym "n"; Num 1])].
Lemma eval_lg rho a u : eval I0 rho a = Some u -> 0 < u -> eval I0 rho (lg a) = Some (ln u).
Proof. intros H P. unfold lg. cbn [eval omap obind]. rewrite H. cbn [obind]. now apply I0_log. Qed.
Theorem C56_power_refuted : (exists r, power_step Gk idE 10 (N 2) w_b = Some (inr (Sym "n", r)) /\ forall n, (1 <= n)%nat -> eval I0 (fun _ => INR n) r = Some (ln 2)) /\
  (forall n, (1 <= n)%nat -> eval I0 (fun _ => INR n) w_b = Some (ln (INR n) * ln (INR n + 1))) /\
  Rpower 2 (ln (INR 8) * ln (INR 8 + 1)) <> Rpower (INR 8) (ln 2).
Proof.
  split; [|split].
  - exists (lg (N 2)). split.
    + assert (X : match power_step Gk idE 10 (N 2) w_b with Some (inr (b, r)) => expr_eqb b (Sym "n") && expr_eqb r (lg (N 2)) | _ => false end = true) by (vm_compute; reflexivity).
      destruct (power_step Gk idE 10 (N 2) w_b) as [[?|[b r]]|]; try discriminate. apply andb_true_iff in X as [X1 X2]. apply expr_eqb_eq in X1, X2. now subst.
    + intros n _. apply eval_lg; [cbn [eval]; now rewrite rv_zq|lra].
  - intros n Hn. assert (P : 1 <= INR n) by (change 1 with (INR 1); now apply le_INR). unfold w_b. rewrite eval_Mul2. rewrite (eval_lg _ (Sym "n") (INR n)), (eval_lg _ (Add [Sym "n"; Num 1]) (INR n + 1)); auto; try lra.
    rewrite eval_Add2. cbn [eval olift2]. now rewrite rv_1.
  - replace (INR 8) with 8 by (cbn; ring). replace (8 + 1) with 9 by ring. intros H. unfold Rpower in H. apply exp_inv in H.
    assert (L2 : 0 < ln 2) by (rewrite <- ln_1; apply ln_increasing; lra). assert (L8 : 0 < ln 8) by (rewrite <- ln_1; apply ln_increasing; lra).
    assert (E1 : ln 9 = 1). { apply (Rmult_eq_reg_r (ln 8 * ln 2)); [lra|]. apply Rgt_not_eq, Rmult_lt_0_compat; auto. }
    assert (E3 : exp 1 = 9) by (rewrite <- E1; apply exp_ln; lra). pose proof exp_le_3. lra.
Qed.
Print Assumptions C56_power_refuted.
(** log(n) / (log(2) log(9)) becomes log(n) / log(2): one divisor is lost. *)
Definition w_q : list expr := [lg (Sym "n"); Pow (lg (N 2)) minus_one; Pow (lg (N 9)) minus_one].
Theorem C56_quotient_refuted : (forall n, (1 <= n)%nat -> eval I0 (fun _ => INR n) (Mul w_q) = Some (ln (INR n) / ln 2 / ln 9)) /\
  (forall n, (1 <= n)%nat -> eval I0 (fun _ => INR n) (simpl_quotient_of_logs Gk numer0 denom0 (fun l => l) w_q) = Some (ln (INR n) / ln 2)) /\
  ln (INR 2) / ln 2 / ln 9 <> ln (INR 2) / ln 2.
Proof.
  assert (L2 : 0 < ln 2) by (rewrite <- ln_1; apply ln_increasing; lra).
  assert (L9 : 1 < ln 9) by (rewrite <- (ln_exp 1) at 1; apply ln_increasing; [apply exp_pos|pose proof exp_le_3; lra]).
  assert (Ri : forall u, u <> 0 -> rpow u (-1) = Some (/ u)) by (intros u Nu; change (-1) with (IZR (-1)); unfold rpow; rewrite as_int_IZR; destruct (Req_EM_T u 0); [contradiction|]; unfold powerRZ; change (Pos.to_nat 1) with 1%nat; now rewrite pow_1).
  assert (Iv : forall rho z, 0 < IZR z -> ln (IZR z) <> 0 -> eval I0 rho (Pow (lg (N z)) minus_one) = Some (/ ln (IZR z))).
  { intros rho z Pz Nz. apply (power_intro I0 rho _ _ (ln (IZR z)) (-1)); [apply eval_lg; auto; cbn [eval]; now rewrite rv_zq|apply minus_one_v|now apply Ri]. }
  split; [|split].
  - intros n Hn. assert (P : 1 <= INR n) by (change 1 with (INR 1); now apply le_INR). unfold w_q. rewrite eval_Mul, !eprod_cons, eprod_nil, (eval_lg _ _ (INR n)), !Iv; auto; try lra. cbn [olift2]. f_equal. field. lra.
  - intros n Hn. assert (P : 1 <= INR n) by (change 1 with (INR 1); now apply le_INR).
    replace (simpl_quotient_of_logs Gk numer0 denom0 (fun l => l) w_q) with (Mul [lg (Sym "n"); Pow (lg (N 9)) minus_one; Pow (lg (N 2)) minus_one; Pow (Pow (lg (N 9)) minus_one) minus_one]) by (apply expr_eqb_eq; vm_compute; reflexivity).
    rewrite eval_Mul, !eprod_cons, eprod_nil, (eval_lg _ _ (INR n)); auto; try lra. rewrite (eval_Pow I0 _ (Pow (lg (N 9)) minus_one)), !Iv, minus_one_v; auto; try lra. cbn [obind]. rewrite Ri by (apply Rinv_neq_0_compat; lra). cbn [olift2]. f_equal. field. lra.
  - change (INR 2) with 2. intros H. assert (E : ln 9 = 1); [|lra]. apply (Rmult_eq_reg_l (/ ln 9)); [|apply Rinv_neq_0_compat; lra]. rewrite Rinv_l by lra. apply (Rmult_eq_reg_l (ln 2 / ln 2)); [|unfold Rdiv; rewrite Rinv_r; lra]. unfold Rdiv in *. lra.
Qed.
Print Assumptions C56_quotient_refuted.
(** log((n-5)^2) becomes 2 log(n-5), which has no value for n = 3. *)
Theorem C56_elementary_refuted : exists r, apply_elementary_prop Gk idE (fun e => Some e) true (Pow (Add [Sym "n"; N (-5)]) (N 2)) = Some r /\
  eval I0 (fun _ => 3) (lg (Pow (Add [Sym "n"; N (-5)]) (N 2))) = Some (ln 4) /\ eval I0 (fun _ => 3) r = None.
Proof.
  exists (Mul [N 2; lg (Add [Sym "n"; N (-5)])]). split; [reflexivity|].
  assert (Ea : eval I0 (fun _ => 3) (Add [Sym "n"; N (-5)]) = Some (-2)) by (rewrite eval_Add2; cbn [eval olift2]; rewrite rv_zq; f_equal; lra). split.
  - apply eval_lg; [|lra]. apply (power_intro I0 _ _ _ (-2) 2); auto; [cbn [eval]; now rewrite rv_zq|]. change 2 with (INR 2). rewrite rpow_nat. f_equal. cbn. lra.
  - rewrite eval_Mul2. unfold lg. cbn [omap obind]. change (eval I0 (fun _ => 3) (Fun FLog [Add [Sym "n"; N (-5)]])) with (obind (obind (eval I0 (fun _ => 3) (Add [Sym "n"; N (-5)])) (fun v => obind (Some []) (fun vs => Some (v :: vs)))) (ifun I0 FLog)).
    rewrite Ea. cbn [obind]. unfold I0, ifun. destruct (Rlt_dec 0 (-2)); [lra|]. reflexivity.
Qed.
Print Assumptions C56_elementary_refuted.
(** log(-3/2), which is not real, becomes the real number -3 - log(2). *)
Theorem C56_negative_fraction_refuted : exists r, apply_elementary_prop Gk idE (fun e => Some e) true (Num (Q2Qc (-3 # 2))) = Some r /\
  eval I0 (fun _ => 0) (lg (Num (Q2Qc (-3 # 2)))) = None /\ eval I0 (fun _ => 0) r = Some (-3 - ln 2).
Proof.
  exists (Add [N (-3); Mul [N (-1); lg (N 2)]]). split.
  - assert (X : match apply_elementary_prop Gk idE (fun e => Some e) true (Num (Q2Qc (-3 # 2))) with Some r => expr_eqb r (Add [N (-3); Mul [N (-1); lg (N 2)]]) | None => false end = true) by (vm_compute; reflexivity).
    destruct (apply_elementary_prop Gk idE (fun e => Some e) true (Num (Q2Qc (-3 # 2)))) as [r|]; [|discriminate]. apply expr_eqb_eq in X. now subst.
  - split.
    + unfold lg. cbn [eval omap obind]. unfold I0, ifun. destruct (Rlt_dec 0 (rv (Q2Qc (-3 # 2)))) as [H|]; auto. exfalso. revert H. unfold rv, Q2R. cbn. lra.
    + rewrite eval_Add2, eval_Mul2, (eval_lg _ _ 2); [|cbn [eval]; now rewrite rv_zq|lra]. cbn [eval olift2]. rewrite !rv_zq. f_equal. ring.
Qed.
Print Assumptions C56_negative_fraction_refuted.
