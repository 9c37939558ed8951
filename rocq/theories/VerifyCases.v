(** Concrete runs of the verification: non-vacuity and refutations. *)
From Coq Require Import ZArith QArith Qcanon Reals List String Bool Lia Lra.
From Verif Require Import Ast ExprModel ExprSpec ExprProofs1 ExprProofs2 ExprProofs3 ExprCases SeqInterp ElimModel ElimSpec ElimProofs DecompModel NonLinProofs VerifyModel VerifySpec VerifyProofs VerifyProofs2 VerifyProofs3.
Import ListNotations.
Local Open Scope R_scope.
Local Open Scope list_scope.

(** * G0 *)
Lemma G0_x_kept : x_kept G0.
Proof.
  assert (OA : forall e, x_free e -> Forall x_free (ops_add e)) by (intros e H; destruct e; cbn [ops_add]; auto; now apply existsb_free).
  assert (OM : forall e, x_free e -> Forall x_free (ops_mul e)) by (intros e H; destruct e; cbn [ops_mul]; auto; now apply existsb_free).
  assert (PA : forall e, x_outside e = true -> Forall (fun a => x_outside a = true) (ops_add e)) by (intros e H; destruct e; cbn [ops_add]; auto; now apply forallb_out).
  assert (PM : forall e, x_outside e = true -> Forall (fun a => x_outside a = true) (ops_mul e)) by (intros e H; destruct e; cbn [ops_mul]; auto; now apply forallb_out).
  constructor.
  - intros a b Ha Hb. assert (C : (exists q, gadd G0 a b = Num q) \/ gadd G0 a b = a \/ gadd G0 a b = b \/ gadd G0 a b = Add (ops_add a ++ ops_add b)).
    { cbn [gadd G0]. destruct a, b; eauto 8; repeat match goal with |- context [if ?c then _ else _] => destruct c end; eauto 8. }
    destruct C as [(q & ->)|[->|[->| ->]]]; auto; [reflexivity|]. unfold x_free. cbn [has_x_function]. apply existsb_free, Forall_app. auto.
  - intros a b Ha Hb. assert (C : (exists q, gmul G0 a b = Num q) \/ gmul G0 a b = a \/ gmul G0 a b = b \/ gmul G0 a b = Mul (ops_mul a ++ ops_mul b)).
    { cbn [gmul G0]. destruct a, b; eauto 8; repeat match goal with |- context [if ?c then _ else _] => destruct c end; eauto 8. }
    destruct C as [(q & ->)|[->|[->| ->]]]; auto; [reflexivity|]. unfold x_free. cbn [has_x_function]. apply existsb_free, Forall_app. auto.
  - intros a b Ha Hb. unfold x_free in *. cbn [G0 gpow has_x_function]. now rewrite Ha, Hb.
  - intros f l Nf Hl. apply existsb_free in Hl. unfold x_free. cbn [G0 gfun has_x_function]. destruct f; auto. now elim Nf.
  - intros k lo up e H1 H2 H3. unfold x_free in *. cbn [G0 gsum has_x_function]. now rewrite H1, H2, H3.
  - intros k lo up e H1 H2 H3. unfold x_free in *. cbn [G0 gprod has_x_function]. now rewrite H1, H2, H3.
  - intros a b Ha Hb. assert (C : (exists q, gadd G0 a b = Num q) \/ gadd G0 a b = a \/ gadd G0 a b = b \/ gadd G0 a b = Add (ops_add a ++ ops_add b)).
    { cbn [gadd G0]. destruct a, b; eauto 8; repeat match goal with |- context [if ?c then _ else _] => destruct c end; eauto 8. }
    destruct C as [(q & ->)|[->|[->| ->]]]; auto. cbn [x_outside]. apply forallb_out, Forall_app. auto.
  - intros a b Ha Hb. assert (C : (exists q, gmul G0 a b = Num q) \/ gmul G0 a b = a \/ gmul G0 a b = b \/ gmul G0 a b = Mul (ops_mul a ++ ops_mul b)).
    { cbn [gmul G0]. destruct a, b; eauto 8; repeat match goal with |- context [if ?c then _ else _] => destruct c end; eauto 8. }
    destruct C as [(q & ->)|[->|[->| ->]]]; auto. cbn [x_outside]. apply forallb_out, Forall_app. auto.
  - intros a b Ha Hb. cbn [G0 gpow x_outside]. now rewrite Ha, Hb.
  - intros f l Hl. cbn [G0 gfun x_outside]. now apply forallb_out.
Qed.
Lemma G0_n_not_bound : n_not_bound G0.
Proof.
  assert (OA : forall e, not_bound "n" e -> Forall (not_bound "n") (ops_add e)) by (intros e H; destruct e; cbn [ops_add]; auto; now apply not_bound_all).
  assert (OM : forall e, not_bound "n" e -> Forall (not_bound "n") (ops_mul e)) by (intros e H; destruct e; cbn [ops_mul]; auto; now apply not_bound_all).
  intros a b Ha Hb. split.
  - assert (C : (exists q, gadd G0 a b = Num q) \/ gadd G0 a b = a \/ gadd G0 a b = b \/ gadd G0 a b = Add (ops_add a ++ ops_add b)).
    { cbn [gadd G0]. destruct a, b; eauto 8; repeat match goal with |- context [if ?c then _ else _] => destruct c end; eauto 8. }
    destruct C as [(q & ->)|[->|[->| ->]]]; auto; [exact Logic.I|]. cbn [not_bound]. apply not_bound_all, Forall_app. auto.
  - assert (C : (exists q, gmul G0 a b = Num q) \/ gmul G0 a b = a \/ gmul G0 a b = b \/ gmul G0 a b = Mul (ops_mul a ++ ops_mul b)).
    { cbn [gmul G0]. destruct a, b; eauto 8; repeat match goal with |- context [if ?c then _ else _] => destruct c end; eauto 8. }
    destruct C as [(q & ->)|[->|[->| ->]]]; auto; [exact Logic.I|]. cbn [not_bound]. apply not_bound_all, Forall_app. auto.
Qed.

(** * A simplification: expressions linear in n with rational coefficients *)
Fixpoint qpow (q : Qc) (k : nat) : Qc := match k with O => 1%Qc | S k => (q * qpow q k)%Qc end.
Lemma rv_qpow q k : rv (qpow q k) = rv q ^ k.
Proof. induction k as [|k IH]; cbn [qpow pow]; [apply rv_1|]. rewrite rv_mul, IH. reflexivity. Qed.
Definition lin_add (p q : option (Qc * Qc)) : option (Qc * Qc) :=
  match p, q with Some (a, b), Some (c, d) => Some (a + c, b + d)%Qc | _, _ => None end.
Definition lin_mul (p q : option (Qc * Qc)) : option (Qc * Qc) :=
  match p, q with
  | Some (a, b), Some (c, d) => if Qc_eqb a 0 then Some (b * c, b * d)%Qc else if Qc_eqb c 0 then Some (a * d, b * d)%Qc else None
  | _, _ => None
  end.
Fixpoint lin (e : expr) : option (Qc * Qc) :=
  match e with
  | Num q => Some (0, q)%Qc
  | Sym s => if String.eqb s "n" then Some (1, 0)%Qc else None
  | Add l => fold_right (fun a acc => lin_add (lin a) acc) (Some (0, 0)%Qc) l
  | Mul l => fold_right (fun a acc => lin_mul (lin a) acc) (Some (0, 1)%Qc) l
  | Pow a b => match lin a, lin b with
               | Some (u, v), Some (w, k) => if Qc_eqb u 0 && Qc_eqb w 0 && is_nonneg_int (Num k) then Some (0%Qc, qpow v (Z.to_nat (q_int k))) else None
               | _, _ => None
               end
  | _ => None
  end.
Lemma lin_ok I rho e : forall p v, lin e = Some p -> eval I rho e = Some v -> v = rv (fst p) * rho "n"%string + rv (snd p).
Proof.
  induction e using expr_ind'; intros p v L E; try discriminate L.
  - cbn in L, E. injection L as <-. injection E as <-. cbn [fst snd]. rewrite rv_0. ring.
  - cbn [lin] in L. destruct (String.eqb s "n") eqn:Es; [|discriminate]. apply String.eqb_eq in Es. subst s. injection L as <-. cbn in E. injection E as <-. cbn [fst snd]. rewrite rv_0, rv_1. ring.
  - cbn [lin] in L. rewrite eval_Add in E. revert p v L E. induction H as [|a l Ha Hl IH]; intros p v L E; cbn [fold_right] in L.
    + injection L as <-. cbn in E. injection E as <-. cbn [fst snd]. rewrite rv_0. ring.
    + rewrite esum_cons in E. apply olift2_some in E as (x & z & Ex & Ez & ->).
      destruct (lin a) as [[u1 v1]|]; [|discriminate]. destruct (fold_right _ _ l) as [[u2 v2]|]; [|discriminate].
      cbn [lin_add] in L. injection L as <-. rewrite (Ha _ _ eq_refl Ex), (IH _ _ eq_refl Ez). cbn [fst snd]. rewrite !rv_add. ring.
  - cbn [lin] in L. rewrite eval_Mul in E. revert p v L E. induction H as [|a l Ha Hl IH]; intros p v L E; cbn [fold_right] in L.
    + injection L as <-. cbn in E. injection E as <-. cbn [fst snd]. rewrite rv_0, rv_1. ring.
    + rewrite eprod_cons in E. apply olift2_some in E as (x & z & Ex & Ez & ->).
      destruct (lin a) as [[u1 v1]|]; [|discriminate]. destruct (fold_right _ _ l) as [[u2 v2]|]; [|discriminate].
      rewrite (Ha _ _ eq_refl Ex), (IH _ _ eq_refl Ez). cbn [lin_mul] in L.
      destruct (Qc_eqb u1 0) eqn:Z1; [apply Qc_eqb_eq in Z1; injection L as <-; subst u1|destruct (Qc_eqb u2 0) eqn:Z2; [apply Qc_eqb_eq in Z2; injection L as <-; subst u2|discriminate]];
        cbn [fst snd]; rewrite !rv_mul, rv_0; ring.
  - cbn [lin] in L. cbn [eval] in E. destruct (lin e1) as [[u a]|]; [|discriminate]. destruct (lin e2) as [[w k]|]; [|discriminate].
    destruct (Qc_eqb u 0 && Qc_eqb w 0 && is_nonneg_int (Num k)) eqn:C; [|discriminate]. injection L as <-.
    apply andb_true_iff in C as [C C3]. apply andb_true_iff in C as [C1 C2]. apply Qc_eqb_eq in C1, C2. subst u w.
    destruct (eval I rho e1) as [x|]; [|discriminate]. destruct (eval I rho e2) as [z|]; [|discriminate]. cbn [obind] in E.
    pose proof (IHe1 _ _ eq_refl eq_refl) as X. pose proof (IHe2 _ _ eq_refl eq_refl) as Z'. cbn [fst snd] in *. rewrite rv_0 in *. rewrite Rmult_0_l, Rplus_0_l in *. subst x z.
    cbn [is_nonneg_int] in C3. apply andb_true_iff in C3 as [C3 C4]. apply Z.leb_le in C4. apply q_is_int_spec in C3.
    rewrite C3 in E. replace (IZR (q_int k)) with (INR (Z.to_nat (q_int k))) in E by (rewrite INR_IZR_INZ, Z2Nat.id by lia; reflexivity).
    rewrite rpow_nat in E. injection E as <-. now rewrite rv_qpow.
Qed.
Definition simp (e : expr) : expr := match lin e with Some (u, v) => if Qc_eqb u 0 then Num v else e | None => e end.
Lemma simp_sound I : sound_simplification I simp.
Proof.
  split.
  - intros x e rho v E. unfold simp. destruct (lin e) as [[u w]|] eqn:L; auto. destruct (Qc_eqb u 0) eqn:Z; auto. apply Qc_eqb_eq in Z. subst u.
    rewrite (lin_ok _ rho e _ v L E). cbn [fst snd eval]. rewrite rv_0. f_equal. ring.
  - intros e F. unfold simp. destruct (lin e) as [[u w]|]; auto. destruct (Qc_eqb u 0); auto. reflexivity.
Qed.
Definition idE (e : expr) : expr := e.
Lemma idE_sound I : sound_simplification I idE.
Proof. split; unfold idE, refines; auto. Qed.

(** * The candidate (n^2+3n)/2 for x(n) = x(n-1) + 2^n *)
Definition hq : Qc := Q2Qc (1 # 2).
Definition n_ : expr := Sym "n".
Definition bn_sol : expr := Add [Mul [Num hq; Pow n_ (Num (zq 2))]; Mul [Num (zq 3); Num hq; n_]].
Definition bn_inhom : expr := Pow (Num (zq 2)) n_.
Definition bn_rhs : expr := Add [Fun FX [n_plus (-1)]; bn_inhom].
Definition bn_raw : expr := Eval vm_compute in new_residual G0 idE idE 1 bn_sol bn_rhs.
Definition bn_diff : expr := Add [n_; Num 1; Mul [Num (-(1))%Qc; Pow (Num (zq 2)) n_]].
(** expand() on the difference in question. *)
Definition bn_expand (e : expr) : expr := if expr_eqb e bn_raw then bn_diff else e.
Lemma hq_val : rv hq = / 2. Proof. unfold hq, rv, Q2Qc, this. rewrite (Qreals.Qeq_eqR _ _ (Qred_correct _)). unfold Q2R. cbn. lra. Qed.
Lemma bn_expand_sound I : sound_simplification I bn_expand.
Proof.
  split.
  - intros x e rho v E. unfold bn_expand. destruct (expr_eqb e bn_raw) eqn:B; auto. apply expr_eqb_eq in B. subst e.
    assert (T : forall q : Qc, rv q = 2 -> rpow (rv q) (rho "n"%string) = Some (Rpower 2 (rho "n"%string))) by (intros q ->; apply rpow_pos; lra).
    assert (Sq : forall a (q : Qc), rv q = INR 2 -> rpow a (rv q) = Some (a ^ 2)) by (intros a q ->; apply rpow_nat).
    assert (A2 : forall c, rv {| this := 2; canon := c |} = 2) by (intros c; unfold rv; cbn [this]; unfold Q2R; cbn; lra).
    assert (A3 : forall c, rv {| this := 3; canon := c |} = 3) by (intros c; unfold rv; cbn [this]; unfold Q2R; cbn; lra).
    assert (Ah : forall c, rv {| this := 1 # 2; canon := c |} = / 2) by (intros c; unfold rv; cbn [this]; unfold Q2R; cbn; lra).
    assert (Am : forall c, rv {| this := -1; canon := c |} = -1) by (intros c; unfold rv; cbn [this]; unfold Q2R; cbn; lra).
    assert (Z2 : rv (zq 2) = 2) by (rewrite rv_zq; reflexivity).
    unfold bn_raw, bn_diff, n_ in *. cbn [eval fold_right obind] in *.
    rewrite !Sq in * by (rewrite A2; cbn [INR]; lra). rewrite !T in * by auto. cbn [olift2] in *.
    rewrite !A2, !A3, !Ah, !Am in E. rewrite rv_opp, !rv_1. cbn [obind olift2] in E.
    replace (rpow (rho "n"%string + (-1 + 0)) 2) with (Some ((rho "n"%string + (-1 + 0)) ^ 2)) in E by (symmetry; apply (rpow_nat _ 2)).
    cbn [obind olift2] in E. rewrite <- E. apply (f_equal (@Some R)). field.
  - intros e F. unfold bn_expand. destruct (expr_eqb e bn_raw) eqn:B; auto. reflexivity.
Qed.
Definition bn_problem : problem := MkProblem bn_rhs bn_inhom 1 1 0 true (Some [1%nat]) [(0%nat, Num 0)] bn_sol None.
Lemma bn_accepted : verify_finite_order G0 simp idE idE bn_expand idE (fun _ => 0%nat) false bn_problem = Provably_correct.
Proof. vm_compute. reflexivity. Qed.
Definition bn_y (n : nat) : R := (INR n * INR n + 3 * INR n) / 2.
Lemma bn_values I rho : has_values I rho 0 bn_sol bn_y.
Proof.
  intros n _. unfold at_n, bn_sol, n_. cbn [eval fold_right obind]. unfold upd. cbn [String.eqb]. cbn.
  rewrite (rpow_num (INR n) (zq 2) 2) by (rewrite rv_zq; cbn; lra). cbn [olift2]. rewrite hq_val, rv_zq. f_equal. unfold bn_y. cbn. field.
Qed.
Lemma bn_wrong I rho : at_n I rho bn_y 2 bn_rhs = Some 6 /\ bn_y 2 <> 6.
Proof.
  split.
  - unfold at_n, bn_rhs, bn_inhom, n_. rewrite eval_Add2.
    pose proof (x_plus_val I rho bn_y 2 (-1) 1 eq_refl) as X. unfold at_n in X. rewrite X. cbn [eval obind].
    unfold upd. rewrite String.eqb_refl. rewrite rpow_nat. cbn [olift2]. rewrite rv_zq. f_equal. unfold bn_y. cbn. field.
  - unfold bn_y. cbn. lra.
Qed.
(** The difference n + 1 - 2^n is an exponential polynomial with the bases 1 and 2, as many as
    the tests; it passes them. *)
Lemma bn_form I rho y : exp_polynomial I rho y [1; 2] bn_diff.
Proof.
  unfold bn_diff. constructor; [|constructor; [|constructor; [|constructor]]].
  - apply ES_power with (k := 1%nat); [left; auto|left; auto].
  - apply ES_geometric with (d := 1); [left; auto| |exact Logic.I|intros l C; discriminate C]. exists 1. intros n. unfold at_n. cbn [eval]. rewrite rv_1, pow1. f_equal. ring.
  - apply ES_geometric with (d := 2); [right; left; auto| |exact Logic.I|].
    + exists (-1). intros n. unfold at_n, n_. cbn [eval fold_right obind]. unfold upd. rewrite String.eqb_refl, rpow_nat. cbn [olift2]. rewrite rv_opp, rv_1, rv_zq. f_equal. ring.
    + intros l C. injection C as <-. constructor; [exact Logic.I|]. constructor; [discriminate|constructor].
Qed.
Lemma bn_passes : exists cs, buckets G0 0 bn_diff = Some cs /\ forallb (passes_tests G0 simp 2) cs = true.
Proof. eexists. split; [vm_compute; reflexivity|]. vm_compute. reflexivity. Qed.
Lemma bn_nonzero I rho y : at_n I rho y 2 bn_diff = Some (-1).
Proof.
  unfold at_n, bn_diff, n_. cbn [eval fold_right obind]. unfold upd. rewrite String.eqb_refl, rpow_nat. cbn [olift2]. rewrite rv_opp, rv_1, rv_zq. f_equal. cbn. ring.
Qed.

(** * The candidate x(5) for x(n) = x(n-1), with symbolic initial conditions *)
Definition x5_problem : problem := MkProblem (Fun FX [n_plus (-1)]) (Num 0) 1 1 0 true (Some [1%nat]) [] (Fun FX [Num (nq 5)]) None.
Lemma x5_accepted : verify_finite_order G0 simp idE idE idE idE (fun _ => 0%nat) false x5_problem = Provably_correct.
Proof. vm_compute. reflexivity. Qed.
Lemma x5_values I rho c n : at_n I rho c n (Fun FX [Num (nq 5)]) = Some (c 5%nat).
Proof. unfold at_n. cbn [eval omap obind with_x ifun]. rewrite rv_nq, INR_IZR, as_int_IZR. reflexivity. Qed.

(** * Non-vacuity: x(n) = x(n-1) + 1, x(0) = 3, solution n + 3; and x(0) + n *)
Definition ok_rhs : expr := Add [Fun FX [n_plus (-1)]; Num 1].
Definition ok_sol : expr := Add [n_; Num (zq 3)].
Definition ok_expand (e : expr) : expr := simp e.
Definition ok_problem : problem := MkProblem ok_rhs (Num 1) 1 1 0 true (Some [1%nat]) [(0%nat, Num (zq 3))] ok_sol None.
Lemma ok_accepted : verify_finite_order G0 simp idE idE ok_expand idE (fun _ => 0%nat) false ok_problem = Provably_correct.
Proof. vm_compute. reflexivity. Qed.
Lemma zero_few I rho y k : (1 <= k)%nat -> few_exponentials I rho y k (Num 0).
Proof.
  intros H. split; [exact Logic.I|]. exists [1]. split; [cbn; lia|]. split; [|intros []]. apply ES_geometric with (d := 1); [left; auto| |exact Logic.I|intros l C; discriminate C].
  exists 0. intros n. unfold at_n. cbn [eval]. rewrite rv_0. f_equal. ring.
Qed.
Lemma ok_few I rho y : few_exponentials I rho y (List.length (exp_poly_decomposition G0 idE (ok_expand (Num 1)) "n") + 1) (new_residual G0 idE ok_expand 1 ok_sol ok_rhs).
Proof.
  replace (new_residual G0 idE ok_expand 1 ok_sol ok_rhs) with (Num 0) by (symmetry; apply expr_eqb_eq; vm_compute; reflexivity).
  apply zero_few. lia.
Qed.
Lemma ok_values I rho : has_values I rho 0 ok_sol (fun n => INR n + 3).
Proof. intros n _. unfold at_n, ok_sol, n_. rewrite eval_Add2. cbn [eval]. unfold upd. rewrite String.eqb_refl. cbn [olift2]. now rewrite rv_zq. Qed.
(** x(0) + n *)
Definition sy_sol : expr := Add [Fun FX [Num (nq 0)]; n_].
Definition sy_problem : problem := MkProblem ok_rhs (Num 1) 1 1 0 true (Some [1%nat]) [] sy_sol None.
Lemma sy_accepted : verify_finite_order G0 simp idE idE ok_expand idE (fun _ => 0%nat) false sy_problem = Provably_correct.
Proof. vm_compute. reflexivity. Qed.
Lemma sy_linear I rho : linear_rhs I rho 1 1 ok_rhs (Num 1).
Proof.
  exists (fun _ _ => 1), (fun _ => 1). intros x n Hn. split; [|unfold at_n; cbn [eval]; now rewrite rv_1].
  unfold at_n, ok_rhs. rewrite eval_Add2. pose proof (x_plus_val I rho x n (-1) (n - 1) ltac:(lia)) as X. unfold at_n in X. rewrite X. cbn [eval olift2 wsum]. rewrite rv_1. f_equal. ring.
Qed.
Lemma sy_ic : ic_summands sy_sol /\ ic_sum 0 1 (fst (split_solution G0 true sy_sol)).
Proof.
  split.
  - cbn [sy_sol ic_summands]. constructor; [right; exists 0%nat, []; split; [constructor|left; auto]|]. constructor; [left; reflexivity|constructor].
  - replace (fst (split_solution G0 true sy_sol)) with (Fun FX [Num (nq 0)]) by (symmetry; apply expr_eqb_eq; vm_compute; reflexivity).
    exists []. split; [constructor|left; auto].
Qed.
Lemma sy_few I rho y : let '(with_ic, part) := split_solution G0 true sy_sol in
     (forall coeffs e, fill_coefficients G0 1 0 1 with_ic = Some coeffs -> In e coeffs ->
        few_exponentials I rho (y e) 1 (new_residual G0 idE ok_expand 1 e (gsub G0 ok_rhs (Num 1)))) /\
     few_exponentials I rho (y part) (List.length (exp_poly_decomposition G0 idE (ok_expand (Num 1)) "n") + 1) (new_residual G0 idE ok_expand 1 part ok_rhs).
Proof.
  assert (E1 : split_solution G0 true sy_sol = (Fun FX [Num (nq 0)], n_)) by (unfold sy_sol; cbn; reflexivity).
  rewrite E1. split.
  - intros coeffs e E Hin. cbn [fill_coefficients set_first repeat] in E. injection E as <-. destruct Hin as [<-|[]].
    replace (new_residual G0 idE ok_expand 1 (Num 1) (gsub G0 ok_rhs (Num 1))) with (Num 0) by (symmetry; apply expr_eqb_eq; vm_compute; reflexivity).
    apply zero_few. lia.
  - replace (new_residual G0 idE ok_expand 1 n_ ok_rhs) with (Num 0) by (symmetry; apply expr_eqb_eq; vm_compute; reflexivity).
    apply zero_few. lia.
Qed.
Lemma sy_values I rho c n : at_n I rho c n sy_sol = Some (c 0%nat + INR n).
Proof.
  unfold at_n, sy_sol, n_. rewrite eval_Add2. cbn [eval omap obind with_x ifun]. rewrite rv_nq. cbn [INR]. change 0 with (IZR 0) at 1. rewrite as_int_IZR.
  unfold upd. rewrite String.eqb_refl. reflexivity.
Qed.
