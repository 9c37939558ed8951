From Coq Require Import ZArith QArith Qcanon Reals List String Bool Lia Lra.
From Verif Require Import Ast ExprModel ExprSpec ExprProofs1 ExprProofs2 ElimModel ElimSpec ElimProofs NonLinModel DecompModel DecompSpec DecompProofs VerifyProofs2 BoundVProofs WClassProofs2 ProdModel ProdSpec ProdProofs.
Import ListNotations.
Local Open Scope list_scope.
Local Open Scope R_scope.

Lemma upd_upd_ne rho a b u v s : (upd (upd rho a u) b v) s = if String.eqb s b then v else if String.eqb s a then u else rho s.
Proof. reflexivity. Qed.
Lemma bind_value o f p : bind o f = Value p -> exists e, o = Value e /\ f e = Value p.
Proof. destruct o; cbn; try discriminate. eauto. Qed.

Section Leaves.
Context (I : interp) (G : ginac) (HG : ginac_ok I G) (HF : factorial_interp I) (HB : no_new_binders G).
Context (rho0 : string -> R) (k h : string) (lo N : Z) (hk : h <> k) (hn : h <> "n"%string).
Notation rho := (env rho0 N).
Notation ev e := (eval I rho e).
Notation at_k i e := (eval I (upd rho k (IZR i)) e).
Definition fv (e : expr) (i : Z) : R := match at_k i e with Some v => v | None => 0 end.
Definition good (e : expr) : Prop := forall i, (lo <= i)%Z -> exists v, at_k i e = Some v /\ v <> 0.
Lemma fv_val e v i : at_k i e = Some v -> fv e i = v. Proof. unfold fv. now intros ->. Qed.
Lemma good_val e i : good e -> (lo <= i)%Z -> at_k i e = Some (fv e i) /\ fv e i <> 0.
Proof. intros H Hi. destruct (H i Hi) as (v & E & Hv). rewrite (fv_val _ _ _ E). auto. Qed.
Notation cnt := (Z.to_nat (N - lo + 1)).

Lemma int_v rho' z : eval I rho' (int z) = Some (IZR z). Proof. cbn [int eval]. now rewrite rv_zq. Qed.
Lemma num1_v rho' : eval I rho' (Num 1) = Some 1. Proof. cbn [eval]. now rewrite rv_1. Qed.
Lemma n_v : ev (Sym "n") = Some (IZR N). Proof. reflexivity. Qed.
Lemma fact_v rho' e z : eval I rho' e = Some (IZR z) -> (0 <= z)%Z -> eval I rho' (gfun G FFact [e]) = Some (INR (fact (Z.to_nat z))).
Proof.
  intros E Hz. apply (gfun_ok _ _ HG). cbn [eval omap]. rewrite E. cbn [obind]. rewrite <- HF. do 2 f_equal. rewrite INR_IZR_INZ. f_equal. f_equal. lia.
Qed.
Lemma fact_of_v rho' e b z : fact_of G e = Value b -> eval I rho' e = Some (IZR z) -> (0 <= z)%Z -> eval I rho' b = Some (INR (fact (Z.to_nat z))).
Proof.
  intros F E Hz. assert (b = gfun G FFact [e]) as ->; [|now apply fact_v].
  unfold fact_of in F. destruct e; try (injection F as <-; reflexivity). destruct (q_is_int q && (0 <=? q_int q)%Z)%bool; [|discriminate]. now injection F as <-.
Qed.
Lemma div_val rho' a b x y : eval I rho' a = Some x -> eval I rho' b = Some y -> y <> 0 -> eval I rho' (gdiv G a b) = Some (x / y).
Proof.
  intros A B Hy. unfold gdiv. apply (gmul_val _ _ HG); auto. eapply (gpow_val _ _ HG); [exact B|cbn [eval]; reflexivity|].
  rewrite rv_opp, rv_1. now apply inv_v.
Qed.

(** No index. *)
Lemma const_ok e : (lo <= N + 1)%Z -> has k e = false -> good e ->
  ev (gpow G e (gadd G (gsub G (Sym "n") (int lo)) (int 1))) = Some (zprod (fv e) lo cnt).
Proof.
  intros HN Hk Hg. assert (E : forall i, at_k i e = ev e).
  { intros i. apply eval_agree. intros s Hs. unfold upd at 1. destruct (String.eqb_spec s k); [subst; congruence|reflexivity]. }
  destruct (Hg lo ltac:(lia)) as (c & Ec & Nc). rewrite E in Ec.
  rewrite (zprod_ext _ (fun _ => c)); [|intros i _; apply fv_val; now rewrite E]. rewrite zprod_const.
  eapply (gpow_val _ _ HG); [exact Ec| |].
  - apply (gadd_val _ _ HG); [|apply int_v]. apply (gsub_val _ _ HG); [apply n_v|apply int_v].
  - replace (IZR N - IZR lo + 1) with (INR cnt); [apply rpow_nat|]. rewrite INR_IZR_INZ, Z2Nat.id by lia. rewrite plus_IZR, minus_IZR. reflexivity.
Qed.
(** The index itself. *)
Lemma ratio_ok a b (m : Z) : (0 <= lo + m - 1)%Z -> (lo <= N + 1)%Z -> ev a = Some (INR (fact (Z.to_nat (N + m)))) ->
  ev b = Some (INR (fact (Z.to_nat (lo + m - 1)))) -> ev (gdiv G a b) = Some (zprod (fun i => IZR (i + m)) lo cnt).
Proof.
  intros Hm HN A B. rewrite (div_val _ _ _ _ _ A B (INR_fact_nz _)). f_equal. pose proof (fact_prod m lo cnt Hm) as F.
  replace (Z.to_nat (lo + m - 1) + cnt)%nat with (Z.to_nat (N + m)) in F by lia. rewrite <- F. field. apply INR_fact_nz.
Qed.
Lemma k_v i : at_k i (Sym k) = Some (IZR i). Proof. cbn [eval]. unfold upd at 1. now rewrite String.eqb_refl. Qed.
Lemma index_ok b : (0 < lo)%Z -> (lo <= N + 1)%Z -> fact_of G (int (lo - 1)) = Value b ->
  ev (gdiv G (gfun G FFact [Sym "n"]) b) = Some (zprod (fv (Sym k)) lo cnt).
Proof.
  intros Hlo HN Fb. rewrite (zprod_ext _ (fun i => IZR (i + 0))); [|intros i _; rewrite Z.add_0_r; apply fv_val, k_v]. apply ratio_ok; try lia.
  - apply fact_v; [|lia]. rewrite Z.add_0_r. apply n_v.
  - eapply fact_of_v; [exact Fb| |lia]. rewrite int_v. do 2 f_equal. lia.
Qed.
Lemma zero_prod f (z : Z) : (lo <= z <= N)%Z -> f z = 0 -> zprod f lo cnt = 0.
Proof.
  intros Hz F. replace cnt with (Z.to_nat (z - lo) + S (Z.to_nat (N - z)))%nat by lia. rewrite zprod_app.
  replace (zprod f (lo + Z.of_nat (Z.to_nat (z - lo))) (S (Z.to_nat (N - z)))) with 0; [ring|].
  replace (lo + Z.of_nat (Z.to_nat (z - lo)))%Z with z by lia. replace (S (Z.to_nat (N - z))) with (1 + Z.to_nat (N - z))%nat by lia. rewrite zprod_app. cbn [zprod]. rewrite Z.add_0_r, F. ring.
Qed.
(** k + num *)
Lemma shift_v e num : shift_of k e = Some (Some num) -> (exists a, e = Add [a; Num num] /\ a = Sym k) \/ (e = Add [Num num; Sym k] /\ q_is_int num = true).
Proof.
  unfold shift_of. destruct e as [| | |[|a [|b [|]]]| | | | |]; try discriminate. intros H.
  assert (K : forall a, match a with Num q => if expr_eqb b (Sym k) && q_is_int q then Some (Some q) else Some None | _ => Some None end = Some (Some num) -> a = Num num /\ b = Sym k /\ q_is_int num = true).
  { intros a'. destruct a'; try discriminate. destruct (expr_eqb b (Sym k) && q_is_int q)%bool eqn:E; [|discriminate]. intros [= <-]. apply andb_true_iff in E as [E1 E2]. apply expr_eqb_eq in E1. auto. }
  destruct b; try (right; destruct (K a H) as (-> & E & Q); rewrite E; auto; fail).
  left. destruct (expr_eqb a (Sym k)) eqn:E; [|discriminate]. injection H as <-. apply expr_eqb_eq in E. eauto.
Qed.
Lemma shift_at e num i : shift_of k e = Some (Some num) -> at_k i e = Some (IZR i + rv num).
Proof.
  intros H. apply shift_v in H as [(a & -> & ->)|[-> _]]; rewrite eval_Add2, k_v; cbn [eval olift2]; [reflexivity|]. f_equal. ring.
Qed.
Lemma shift_sub e num : shift_of k e = Some (Some num) -> ev (substitute G (Sym k) (Sym "n") e) = Some (IZR N + rv num).
Proof.
  intros H. eapply (substitute_ok I G HG); [|apply n_v|now apply shift_at]. apply shift_v in H as [(a & -> & ->)|[-> _]]; cbn; tauto.
Qed.
Lemma q_int_v q : q_is_int q = true -> rv q = IZR (q_int q).
Proof.
  unfold q_is_int, rv, q_int, Q2R. intros E. apply Pos.eqb_eq in E. rewrite E. cbn. field.
Qed.
Lemma ratio_shift e num p : (lo <= N + 1)%Z -> shift_of k e = Some (Some num) -> ratio_of_factorials G k lo e num = Value p ->
  ev p = Some (zprod (fv e) lo cnt).
Proof.
  intros HN S R. unfold ratio_of_factorials in R. apply bind_value in R as (a & Fa & R). apply bind_value in R as (b & Fb & R). injection R as <-.
  assert (Q : q_is_int (zq lo + num - 1)%Qc = true /\ (0 <= q_int (zq lo + num - 1)%Qc)%Z).
  { unfold fact_of in Fb. destruct (q_is_int (zq lo + num - 1)%Qc && (0 <=? q_int (zq lo + num - 1)%Qc)%Z)%bool eqn:E; [|discriminate]. apply andb_true_iff in E as [E1 E2]. apply Z.leb_le in E2. auto. }
  destruct Q as [Q1 Q2]. pose proof (q_int_v _ Q1) as V. set (z := q_int (zq lo + num - 1)%Qc) in *. clearbody z. rewrite rv_sub, rv_add, rv_zq, rv_1 in V.
  assert (Em : rv num = IZR (z - lo + 1)) by (rewrite plus_IZR, minus_IZR; lra).
  rewrite (zprod_ext _ (fun i => IZR (i + (z - lo + 1)))).
  2:{ intros i _. apply fv_val. rewrite (shift_at e num i S), Em, <- plus_IZR. reflexivity. }
  apply ratio_ok; try lia.
  - eapply fact_of_v; [exact Fa| |lia]. rewrite (shift_sub e num S), Em, <- plus_IZR. reflexivity.
  - eapply fact_of_v; [exact Fb| |lia]. cbn [eval]. rewrite rv_sub, rv_add, rv_zq, rv_1. f_equal. replace (lo + (z - lo + 1) - 1)%Z with z by lia. lra.
Qed.
(** ... where a zero among the factors is recognised: exact for n from the zero on. *)
Lemma shift_ok e num den p : (lo <= N + 1)%Z -> shift_of k e = Some (Some num) -> product_of_shift G k lo e num den = Value p ->
  (is_pos_int num = false -> rv num <= - IZR lo -> exists z, rv num = IZR (- z) /\ (z <= N)%Z) -> ev p = Some (zprod (fv e) lo cnt).
Proof.
  intros HN S P H. unfold product_of_shift in P. destruct (is_pos_int num) eqn:Ep; [now apply (ratio_shift e num p)|].
  destruct (q_lt (- num)%Qc (zq lo)) eqn:El; [now apply (ratio_shift e num p)|]. destruct den; [discriminate|]. injection P as <-.
  assert (L : IZR lo <= - rv num).
  { unfold q_lt in El. destruct (Qclt_le_dec (- num)%Qc (zq lo)) as [|C]; [discriminate|]. apply rv_le in C. rewrite rv_zq, rv_opp in C. exact C. }
  destruct (H eq_refl ltac:(lra)) as (z & Ez & Hz). rewrite int_v. f_equal. symmetry. apply (zero_prod _ z).
  - split; [|exact Hz]. apply le_IZR. rewrite Ez, opp_IZR in L. lra.
  - apply fv_val. rewrite (shift_at e num z S), Ez, opp_IZR. f_equal. lra.
Qed.
(** The symbolic product. *)
Lemma symbolic_ok e p : symbolic G h k lo e = Value p -> no_capture k (Sym h) e -> has h e = false -> good e -> ev p = Some (zprod (fv e) lo cnt).
Proof.
  intros [= <-] NC Hh Hg. apply (gprod_ok _ _ HG). cbn [eval int]. rewrite rv_zq. cbn [obind]. change (env rho0 N "n"%string) with (IZR N). rewrite !as_int_IZR. cbn [obind].
  apply oprod_zprod with (F := fun i => eval I (upd rho h (IZR i)) (substitute G (Sym k) (Sym h) e)). intros i Hi.
  assert (E : eval I (upd (upd rho h (IZR i)) k (IZR i)) e = at_k i e).
  { apply eval_agree. intros s Hs. rewrite upd_upd_ne. unfold upd at 1. destruct (String.eqb_spec s k); auto. destruct (String.eqb_spec s h); [subst; congruence|reflexivity]. }
  eapply (substitute_ok I G HG); [exact NC| |rewrite E; now apply good_val]. cbn [eval]. unfold upd at 1. now rewrite String.eqb_refl.
Qed.
End Leaves.
