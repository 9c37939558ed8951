(** An instance of the constructors that collects powers and inverts numbers; computations for
    the concrete cases and counterexamples of FactProps.v about numerators and denominators. *)
From Coq Require Import ZArith QArith Qcanon Qreals Reals List String Bool Lia Lra Permutation.
From Verif Require Import IntUtilModel Ast ExprModel ExprSpec ExprProofs1 ExprProofs2 ExprCases DecompProofs FactModel FactSpec FactProofs FactProofs2 FactCases NumDenModel NumDenSpec NumDenProofs NumDenProofs2.
Import ListNotations.
Local Open Scope R_scope.
Local Open Scope string_scope.
Local Open Scope list_scope.

Definition G1 : ginac := MkG (gadd G0)
  (fun a b => match a, b with
     | Pow x (Num p), Pow y (Num q) => if expr_eqb x y then Pow x (Num (p + q)%Qc) else gmul G0 a b
     | _, _ => gmul G0 a b
     end)
  (fun a b => if is_num 1 b then a else if is_num 1 a then Num 1 else
     match a, b with
     | Num p, Num q => if Qc_eqb q (-(1))%Qc && negb (Qc_eqb p 0) then Num (/ p)%Qc else Pow a b
     | _, _ => Pow a b
     end) Fun SumE ProdE.
Lemma rpow_add x p q u v : rpow x p = Some u -> rpow x q = Some v -> rpow x (p + q) = Some (u * v).
Proof.
  destruct (Req_EM_T x 0) as [->|N].
  - assert (Z : forall p u, rpow 0 p = Some u -> (p = 0 /\ u = 1) \/ (0 < p /\ u = 0)).
    { intros p' u'. unfold rpow. destruct (as_int p') as [z|] eqn:E.
      - apply as_int_spec in E. subst p'. destruct (Req_EM_T 0 0); [|lra]. destruct (Z.ltb_spec z 0); [discriminate|]. intros [= <-].
        destruct (Z.eq_dec z 0) as [->|Hz]; [left; auto|right]. split; [apply IZR_lt; lia|]. destruct z; try lia. cbn. apply pow_i. lia.
      - destruct (Rlt_dec 0 0); [lra|]. destruct (Req_EM_T 0 0); [|lra]. destruct (Rlt_dec 0 p'); [|discriminate]. intros [= <-]. auto. }
    assert (Z' : forall p, 0 < p -> rpow 0 p = Some 0).
    { intros p' Hp. unfold rpow. destruct (Req_EM_T 0 0) as [_|]; [|lra]. destruct (as_int p') as [z|] eqn:E.
      - apply as_int_spec in E. subst p'. apply lt_IZR in Hp. destruct (Z.ltb_spec z 0); [lia|]. f_equal. destruct z; try lia. cbn. apply pow_i. lia.
      - destruct (Rlt_dec 0 0); [lra|]. destruct (Rlt_dec 0 p'); [auto|lra]. }
    intros Hu Hv. destruct (Z _ _ Hu) as [[-> ->]|[Hp ->]], (Z _ _ Hv) as [[-> ->]|[Hq ->]].
    + rewrite Rplus_0_l. change 0 with (INR 0) at 2. rewrite rpow_nat. f_equal. cbn. lra.
    + rewrite Rplus_0_l, Z' by auto. f_equal. lra.
    + rewrite Rplus_0_r, Z' by auto. f_equal. lra.
    + rewrite Z' by lra. f_equal. lra.
  - destruct (Rlt_dec 0 x) as [Px|Nx].
    + assert (P : forall p, rpow x p = Some (Rpower x p)).
      { intros p'. unfold rpow. destruct (as_int p') as [z|] eqn:E.
        - apply as_int_spec in E. subst p'. destruct (Req_EM_T x 0); [lra|]. f_equal. now rewrite powerRZ_Rpower.
        - destruct (Rlt_dec 0 x); [auto|lra]. }
      rewrite !P. intros [= <-] [= <-]. now rewrite Rpower_plus.
    + assert (P : forall p u, rpow x p = Some u -> exists z, p = IZR z /\ u = powerRZ x z).
      { intros p' u'. unfold rpow. destruct (as_int p') as [z|] eqn:E.
        - apply as_int_spec in E. subst p'. destruct (Req_EM_T x 0); [lra|]. intros [= <-]. eauto.
        - destruct (Rlt_dec 0 x); [lra|]. destruct (Req_EM_T x 0); [lra|discriminate]. }
      intros Hu Hv. destruct (P _ _ Hu) as (z & -> & ->), (P _ _ Hv) as (z' & -> & ->). rewrite <- plus_IZR. unfold rpow. rewrite as_int_IZR.
      destruct (Req_EM_T x 0); [lra|]. f_equal. now rewrite powerRZ_add.
Qed.
Lemma G1_ok I : ginac_ok I G1.
Proof.
  destruct (G0_ok I) as [H1 H2 H3 H4 H5 H6]. split; try assumption.
  - intros a b. cbn [G1 gmul].
    destruct a as [| | | | |x [p| | | | | | | |]| | |]; try apply H2. destruct b as [| | | | |y [q| | | | | | | |]| | |]; try apply H2.
    destruct (expr_eqb x y) eqn:E; [|apply H2]. apply expr_eqb_eq in E. subst y. intros rho v H. rewrite Ast.eval_Mul2 in H. apply olift2_some in H as (u & w & Hu & Hw & ->).
    destruct (ev_pow_parts I rho _ _ _ Hu) as (x1 & y1 & X1 & Y1 & R1), (ev_pow_parts I rho _ _ _ Hw) as (x2 & y2 & X2 & Y2 & R2).
    rewrite eval_num in Y1, Y2. injection Y1 as <-. injection Y2 as <-. rewrite X1 in X2. injection X2 as <-. cbn [eval]. rewrite X1. cbn [obind]. rewrite rv_add. now apply rpow_add.
  - intros a b rho v H. cbn [G1 gpow]. destruct (ev_pow_parts I rho _ _ _ H) as (x & y & X & Y & R).
    destruct (is_num 1 b) eqn:B.
    { apply is_num_eq in B. subst b. rewrite eval_num, rv_1 in Y. injection Y as <-. change 1 with (INR 1) in R. rewrite rpow_nat in R. injection R as <-. rewrite X. f_equal. cbn. lra. }
    destruct (is_num 1 a) eqn:A.
    { apply is_num_eq in A. subst a. rewrite eval_num, rv_1 in X. injection X as <-. rewrite rpow_1 in R. injection R as <-. now rewrite eval_num, rv_1. }
    destruct a as [p| | | | | | | |]; try exact H. destruct b as [q| | | | | | | |]; try exact H.
    destruct (Qc_eqb q (-(1))%Qc && negb (Qc_eqb p 0)) eqn:C; [|exact H]. apply andb_true_iff in C as [C1 C2]. apply Qc_eqb_eq in C1. subst q.
    apply negb_true_iff in C2. assert (P : p <> 0%Qc) by (intros ->; cbn in C2; discriminate).
    rewrite eval_num in X, Y |- *. injection X as <-. injection Y as <-. rewrite rv_opp, rv_1 in R.
    assert (Np : rv p <> 0). { rewrite <- rv_0. intros E. now apply rv_inj in E. }
    unfold rpow in R. replace (- (1)) with (IZR (-1)) in R by (cbn; lra). rewrite as_int_IZR in R. destruct (Req_EM_T (rv p) 0); [contradiction|]. injection R as <-.
    f_equal. change (powerRZ (rv p) (-1)) with (/ (rv p * 1)). apply (Rmult_eq_reg_l (rv p)); auto. rewrite <- rv_mul, Qcmult_inv_r, rv_1 by auto. field. auto.
Qed.
Lemma G1_mul_one c : gmul G1 c (Num 1) = c.
Proof.
  assert (K : gmul G0 c (Num 1) = c).
  { destruct c; cbn [G0 gmul]; try reflexivity. f_equal. apply Qcmult_1_r. }
  destruct c as [| | | | |x [p| | | | | | | |]| | |]; exact K.
Qed.
Lemma G1_units : resplits_units split G1.
Proof.
  intros c l e H _. assert (E : gpow G1 (Num 1) e = Num 1). { cbn [G1 gpow]. destruct (is_num 1 e); reflexivity. } rewrite E, G1_mul_one. exact H.
Qed.
Lemma G0_mul_atom c t : (forall q, t <> Num q) -> (forall m, t <> Mul m) -> gmul G0 c t = if is_num 1 c then t else Mul (ops_mul c ++ [t]).
Proof. intros N M. destruct t; cbn [G0 gmul is_num ops_mul]; try (now destruct (N q)); try (now destruct (M l)); destruct c; reflexivity. Qed.
Lemma G1_resplits ts x : (forall t ps b f, In t ts -> split t = Some ps -> In (b, f) ps -> b = Num 1 \/ b = Sym x) -> resplits split G1 ts.
Proof.
  intros Hb. split.
  - intros c l t ps b f e H Ht Es Hin B NI. destruct (Hb t ps b f Ht Es Hin) as [->| ->]; [tauto|].
    set (g := gpow G1 (Sym x) e).
    assert (Hg : (g = Sym x /\ e = Num 1) \/ g = Pow (Sym x) e). { unfold g. cbn [G1 gpow is_num]. destruct (is_num 1 e) eqn:E; [left; split; auto; now apply is_num_eq|auto]. }
    assert (Sg : sfold (Some []) [g] = Some [(Sym x, e)]) by (destruct Hg as [[-> ->]| ->]; reflexivity).
    assert (K : gmul G1 c g = gmul G0 c g).
    { destruct c as [| | | | |y [p| | | | | | | |]| | |]; try reflexivity. destruct Hg as [[-> _]| ->]; [reflexivity|]. destruct e; try reflexivity. cbn [G1 gmul].
      destruct (expr_eqb y (Sym x)) eqn:E; [|reflexivity]. exfalso. apply expr_eqb_eq in E. subst y. apply NI. destruct H as (cs & Hc & P & _). injection Hc as <-.
      change (Sym x) with (fst (Sym x, Num p)). apply in_map, (Permutation_in _ P). now left. }
    rewrite K, G0_mul_atom by (destruct Hg as [[-> _]| ->]; discriminate).
    destruct (is_num 1 c) eqn:N.
    + apply is_num_eq in N. subst c. destruct H as (cs & Hc & Hset & Hu). destruct (split_one_proper cs Hc) as [P _]. rewrite P in Hset. apply Permutation_nil in Hset. subst l.
      exists [(Sym x, e)]. split; [destruct Hg as [[-> ->]| ->]; reflexivity|]. split; [reflexivity|]. intros f' [X|[]]. discriminate.
    + apply (resplit_append c [g] l [(Sym x, e)]); auto. intros f' [X|[]]. discriminate.
  - intros c l H. apply G1_units; auto.
Qed.

(** x^(-1) + y x^(-2) *)
Definition nd_e : expr := Add [Pow (Sym "x") (Num (zq (-1))); Mul [Sym "y"; Pow (Sym "x") (Num (zq (-2)))]].
Definition nd_n : expr := Add [Sym "y"; Sym "x"].
Definition nd_d : expr := Pow (Sym "x") (Num (zq 2)).
Lemma nd_result : numerator_denominator G1 nd_e = Some (nd_n, nd_d).
Proof. vm_compute. repeat f_equal; apply Qc_is_canon; reflexivity. Qed.
Lemma nd_den1 : numerator_denominator G1 (Pow (Sym "x") (Num (zq (-1)))) = Some (Num (zq 1), Sym "x").
Proof. vm_compute. repeat f_equal; apply Qc_is_canon; reflexivity. Qed.
Lemma nd_den2 : numerator_denominator G1 (Mul [Sym "y"; Pow (Sym "x") (Num (zq (-2)))]) = Some (Sym "y", nd_d).
Proof. vm_compute. repeat f_equal; apply Qc_is_canon; reflexivity. Qed.
Lemma split_x : split (Sym "x") = Some [(Sym "x", Num 1)]. Proof. reflexivity. Qed.
Lemma split_x2 : split nd_d = Some [(Sym "x", Num (zq 2))]. Proof. reflexivity. Qed.
Lemma nd_nice : nice_sums split G1 (numerator_denominator G1) nd_e.
Proof.
  assert (A : forall e, (forall l, e <> Add l) -> (forall l, e <> Mul l) -> (forall a b, e <> Pow a b) -> nice_sums split G1 (numerator_denominator G1) e) by (intros; now apply NsAtom).
  assert (P : forall q, nice_sums split G1 (numerator_denominator G1) (Pow (Sym "x") (Num q))) by (intros q; apply NsPow; apply A; discriminate).
  apply (NsSum split G1 _ _ [Sym "x"; nd_d]).
  - constructor; [apply P|]. constructor; [|constructor]. apply NsMul. constructor; [discriminate|]. constructor; [|constructor]. intros a b _. apply P.
  - constructor; [exists (Num (zq 1)); exact nd_den1|]. constructor; [exists (Sym "y"); exact nd_den2|constructor].
  - constructor; [|constructor; [|constructor]].
    + exists [(Sym "x", Num 1)]. split; [exists [(Sym "x", Num 1)]; split; [reflexivity|split; [reflexivity|intros f [X|[]]; discriminate]]|].
      split; [cbn; constructor; [intros []|constructor]|]. constructor; [|constructor]. exists 1%Qc, 1%nat. split; [reflexivity|]. split; [apply rv_1|lia].
    + exists [(Sym "x", Num (zq 2))]. split; [exists [(Sym "x", Num (zq 2))]; split; [reflexivity|split; [reflexivity|intros f [X|[]]; discriminate]]|].
      split; [cbn; constructor; [intros []|constructor]|]. constructor; [|constructor]. exists (zq 2), 2%nat. split; [reflexivity|]. split; [rewrite rv_zq; cbn; lra|lia].
  - apply (G1_resplits _ "x"). intros t ps b f [<-|[<-|[]]] E Hin; [rewrite split_x in E|rewrite split_x2 in E]; injection E as <-; destruct Hin as [X|[]]; injection X as <- _; auto.
Qed.

(** x^(-1/2) + x^(-3/2) at x = 4 *)
Definition nw_e : expr := Add [Pow (Sym "x") (Num (Q2Qc (-1 # 2))); Pow (Sym "x") (Num (Q2Qc (-3 # 2)))].
Definition nw_d : expr := Pow (Sym "x") (Num (zq 2)).
Definition nw_n : expr := Add [nw_d; nw_d].
Lemma pair_eqb o (n d : expr) : match o with Some (a, b) => expr_eqb a n && expr_eqb b d | None => false end = true -> o = Some (n, d).
Proof. destruct o as [[a b]|]; [|discriminate]. intros H. apply andb_true_iff in H as [H1 H2]. apply expr_eqb_eq in H1, H2. congruence. Qed.
Lemma nw_result : numerator_denominator G1 nw_e = Some (nw_n, nw_d).
Proof. apply pair_eqb. vm_compute. reflexivity. Qed.
Lemma not_int p q : (forall z, (2 * z)%Z <> p) -> q = IZR p / 2 -> as_int q = None.
Proof. intros H ->. apply as_int_none. intros z E. apply (H z). apply eq_IZR. rewrite mult_IZR. lra. Qed.
Lemma root4 : Rpower 4 (/ 2) = 2.
Proof. rewrite Rpower_sqrt by lra. replace 4 with (2 * 2) by lra. apply sqrt_square. lra. Qed.
Lemma nw_value : eval I0 (fun _ => 4) nw_e = Some (5 / 8) /\ eval I0 (fun _ => 4) nw_n = Some 32 /\ eval I0 (fun _ => 4) nw_d = Some 16.
Proof.
  assert (D : eval I0 (fun _ => 4) nw_d = Some 16).
  { unfold nw_d. cbn [eval obind]. rewrite rv_zq. change 2 with (INR 2). rewrite rpow_nat. f_equal. cbn. lra. }
  split; [|split; [unfold nw_n; rewrite eval_Add2, D; cbn; f_equal; lra|exact D]].
  unfold nw_e. rewrite eval_Add2. cbn [eval obind]. rewrite !rv_Q. unfold rpow.
  rewrite (not_int (-1) (-1 / 2)), (not_int (-3) (-3 / 2)) by (lra || (intros z; lia)).
  destruct (Rlt_dec 0 4); [|lra]. cbn [olift2]. f_equal.
  replace (-1 / 2) with (- / 2) by lra. replace (-3 / 2) with (- (1 + / 2)) by lra. rewrite !Rpower_Ropp, Rpower_plus, Rpower_1, root4 by lra. lra.
Qed.
