(** Proofs for FracProps.v. *)
From Coq Require Import ZArith QArith Qcanon Reals List String Bool Lra Lia Permutation.
From Verif Require Import Ast ExprModel ExprSpec ExprProofs1 FactModel FactSpec FactProofs FactProofs2 FactCases NumDenModel NumDenSpec NumDenProofs NumDenProofs2 NumDenCases FracModel.
Import ListNotations.
Local Open Scope R_scope.
Local Open Scope string_scope.
Local Open Scope list_scope.
Set Bullet Behavior "Strict Subproofs".

Section P.
Context (I : interp) (G : ginac) (HG : ginac_ok I G).
Lemma quotient_ok (prep : expr -> expr) fuel e num den rho v : resplits_units split_bases_exponents G ->
  (forall u, refines I u (prep u)) ->
  nice_sums split_bases_exponents G (numerator_denominator G) (distribute_mul_over_add G e) ->
  (forall n d, numerator_denominator G (distribute_mul_over_add G e) = Some (n, d) -> factorizable split_bases_exponents G prep n) ->
  numerator G prep fuel e = Some num -> denominator G e = Some den -> eval I rho e = Some v ->
  exists x y, eval I rho num = Some x /\ eval I rho den = Some y /\ y <> 0 /\ x = v * y.
Proof.
  intros U P N F En Ed E. unfold numerator, denominator in *.
  destruct (numerator_denominator G (distribute_mul_over_add G e)) as [[n d]|] eqn:Q; [|discriminate].
  destruct (factorize_no_ratio_ex G prep fuel n) as [[c r]|] eqn:R; [|discriminate]. injection En as <-. injection Ed as <-.
  assert (E' : eval I rho (distribute_mul_over_add G e) = Some v) by (apply (distribute_ok I G HG e); exact E).
  destruct (numerator_denominator_ok I G HG U _ N n d rho v Q E') as (x & y & X & Y & NZ & EQ).
  destruct (no_ratio_ok I G HG prep P fuel n c r rho x (F n d eq_refl) R X) as (cv & rv' & C & Rr & M).
  exists x, y. split; [rewrite <- M; now apply (gmul_val _ _ HG)|]. auto.
Qed.
Lemma single_ok (num_den : expr -> expr * expr) (prep : expr -> expr) fuel e res rho v :
  (forall u, refines I u (prep u)) ->
  (forall n d, num_den (distribute_mul_over_add G e) = (n, d) -> factorizable split_bases_exponents G prep n /\
     exists x y, eval I rho n = Some x /\ eval I rho d = Some y /\ y <> 0 /\ v = x / y) ->
  transform_in_single_fraction G num_den prep fuel e = Some res -> eval I rho res = Some v.
Proof.
  intros P H E. unfold transform_in_single_fraction in E. destruct (num_den (distribute_mul_over_add G e)) as [n d] eqn:Q.
  destruct (factorize_no_ratio_ex G prep fuel n) as [[c r]|] eqn:R; [|discriminate]. injection E as <-.
  destruct (H n d eq_refl) as (F & x & y & X & Y & NZ & ->).
  destruct (no_ratio_ok I G HG prep P fuel n c r rho x F R X) as (cv & rv' & C & Rr & M).
  unfold gdiv. apply (gmul_val _ _ HG); [rewrite <- M; now apply (gmul_val _ _ HG)|]. apply rinv_val; auto.
Qed.
End P.

(** x^(-1) + x^(-2) *)
Definition fr_e : expr := Add [Pow (Sym "x") (Num (zq (-1))); Pow (Sym "x") (Num (zq (-2)))].
Definition fr_n : expr := Add [Num (zq 1); Sym "x"].
Definition fr_e0 : expr := Add [Pow (Sym "x") (Num (zq (-2))); Pow (Sym "x") (Num (zq (-1)))].
Lemma fr_dist : distribute_mul_over_add G1 fr_e0 = fr_e.
Proof. reflexivity. Qed.
Lemma fr_result : numerator_denominator G1 fr_e = Some (fr_n, nd_d).
Proof. vm_compute. repeat f_equal; apply Qc_is_canon; reflexivity. Qed.
Lemma fr_den2 : numerator_denominator G1 (Pow (Sym "x") (Num (zq (-2)))) = Some (Num (zq 1), nd_d).
Proof. vm_compute. repeat f_equal; apply Qc_is_canon; reflexivity. Qed.
Lemma fr_nice : nice_sums split_bases_exponents G1 (numerator_denominator G1) fr_e.
Proof.
  assert (A : forall e, (forall l, e <> Add l) -> (forall l, e <> Mul l) -> (forall a b, e <> Pow a b) -> nice_sums split_bases_exponents G1 (numerator_denominator G1) e) by (intros; now apply NsAtom).
  assert (P : forall q, nice_sums split_bases_exponents G1 (numerator_denominator G1) (Pow (Sym "x") (Num q))) by (intros q; apply NsPow; apply A; discriminate).
  apply (NsSum split_bases_exponents G1 _ _ [Sym "x"; nd_d]).
  - constructor; [apply P|]. constructor; [apply P|constructor].
  - constructor; [exists (Num (zq 1)); exact nd_den1|]. constructor; [exists (Num (zq 1)); exact fr_den2|constructor].
  - constructor; [|constructor; [|constructor]].
    + exists [(Sym "x", Num 1)]. split; [exists [(Sym "x", Num 1)]; split; [reflexivity|split; [reflexivity|intros f [X|[]]; discriminate]]|].
      split; [cbn; constructor; [intros []|constructor]|]. constructor; [|constructor]. exists 1%Qc, 1%nat. split; [reflexivity|]. split; [apply rv_1|lia].
    + exists [(Sym "x", Num (zq 2))]. split; [exists [(Sym "x", Num (zq 2))]; split; [reflexivity|split; [reflexivity|intros f [X|[]]; discriminate]]|].
      split; [cbn; constructor; [intros []|constructor]|]. constructor; [|constructor]. exists (zq 2), 2%nat. split; [reflexivity|]. split; [rewrite rv_zq; cbn; lra|lia].
  - apply (G1_resplits _ "x"). intros t ps b f [<-|[<-|[]]] E Hin; [rewrite split_x in E|rewrite split_x2 in E]; injection E as <-; destruct Hin as [X|[]]; injection X as <- _; auto.
Qed.
Lemma zq1 : zq 1 = 1%Qc. Proof. apply Qc_is_canon. reflexivity. Qed.
Lemma one_split : exists ps, split_bases_exponents (Num 1) = Some ps.
Proof. destruct (split_bases_exponents (Num 1)) as [ps|] eqn:E; [eauto|]. vm_compute in E. discriminate. Qed.
Lemma fr_factorizable : factorizable split_bases_exponents G1 idE fr_n.
Proof.
  unfold fr_n. rewrite zq1. apply (FzSum split_bases_exponents G1 idE _ [Num 1; Sym "x"]); [reflexivity| |].
  - constructor; [|constructor; [|constructor]].
    + destruct one_split as [ps Eps]. exists ps. split; [exact Eps|]. destruct (split_one_proper ps Eps) as [Pp Pf]. split; [rewrite Pp; constructor|exact Pf].
    + exists [(Sym "x", Num 1)]. split; [reflexivity|]. split; [cbn; constructor; [intros []|constructor]|]. intros f [H|[]]; discriminate.
  - apply (G1_resplits _ "x"). intros t ps b f [<-|[<-|[]]] E Hin.
    + destruct (split_one_proper ps E) as [Pp _]. left. destruct (is_num 1 b) eqn:B; [now apply is_num_eq|].
      exfalso. assert (In (b, f) (proper ps)) as X by (unfold proper; apply filter_In; split; [exact Hin|cbn [fst]; now rewrite B]). rewrite Pp in X. destruct X.
    + rewrite split_x in E. injection E as <-. destruct Hin as [X|[]]. injection X as <- _. auto.
Qed.
Lemma fr_numerator : exists n, numerator G1 idE 3 fr_e0 = Some n.
Proof. eexists. unfold numerator. rewrite fr_dist, fr_result. cbv. reflexivity. Qed.
Lemma fr_denominator : denominator G1 fr_e0 = Some nd_d.
Proof. unfold denominator. now rewrite fr_dist, fr_result. Qed.
