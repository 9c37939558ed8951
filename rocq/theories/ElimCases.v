From Coq Require Import ZArith QArith Qcanon Qreals Reals List String Bool Lia Lra.
From Verif Require Import Ast ExprModel ExprSpec ExprProofs1 ExprProofs2 ExprProofs3 ExprCases SeqInterp ElimModel ElimSpec ElimProofs ElimProofs2.
Import ListNotations.
Local Open Scope list_scope.
Local Open Scope R_scope.

(** An instance of the canonical constructors that also cancels t + ... - t. *)
Fixpoint remove1 (fs : list expr) (l : list expr) : option (list expr) :=
  match l with
  | [] => None
  | t :: l => if expr_eqb (Mul (ops_mul t)) (Mul fs) then Some l else option_map (cons t) (remove1 fs l)
  end.
Definition cancel (a b : expr) : option (list expr) :=
  match b with
  | Mul (Num q :: fs) => if Qc_eqb q (-(1))%Qc then remove1 fs (ops_add a) else None
  | _ => None
  end.
Definition sum_of (l : list expr) : expr := match l with [] => Num 0%Qc | [t] => t | _ => Add l end.
Definition Gc : ginac := MkG
  (fun a b => match cancel a b with Some l => sum_of l | None => gadd G0 a b end)
  (gmul G0) (gpow G0) (gfun G0) (gsum G0) (gprod G0).
Lemma sum_of_val I rho l : eval I rho (sum_of l) = esum I rho l.
Proof. destruct l as [|t [|u l]]; cbn [sum_of]; [cbn; now rewrite rv_0|now rewrite esum_1|reflexivity]. Qed.
Lemma remove1_val I rho fs l : forall l' v p, remove1 fs l = Some l' -> esum I rho l = Some v -> eprod I rho fs = Some p ->
  esum I rho l' = Some (v - p).
Proof.
  induction l as [|t l IH]; intros l' v p H Hv Hp; [discriminate|]. cbn [remove1] in H. rewrite esum_cons in Hv. apply olift2_some in Hv as (a & b & Ea & Eb & ->).
  destruct (expr_eqb _ _) eqn:E.
  - apply expr_eqb_eq in E. assert (ops_mul t = fs) as Q by congruence. rewrite <- Q, eprod_ops in Hp. assert (l = l') as <- by congruence. rewrite Eb. f_equal. replace p with a by congruence. lra.
  - destruct (remove1 fs l) as [l0|] eqn:R; [|discriminate]. cbn in H. assert (l' = t :: l0) as -> by congruence. rewrite esum_cons, Ea, (IH l0 b p); auto. cbn. f_equal. lra.
Qed.
Lemma Gc_ok I : ginac_ok I Gc.
Proof.
  destruct (G0_ok I). split; auto. intros a b rho v H. cbn [Gc gadd]. destruct (cancel a b) as [l|] eqn:E; [|now apply gadd_ok].
  rewrite eval_Add2 in H. apply olift2_some in H as (p & q & Ea & Eb & ->). rewrite sum_of_val.
  unfold cancel in E. destruct b as [| | | |[|[| | | | | | | |] fs]| | | |]; try discriminate. destruct (Qc_eqb q0 _) eqn:Eq; [|discriminate]. apply Qc_eqb_eq in Eq. subst q0.
  rewrite eval_Mul, eprod_cons in Eb. apply olift2_some in Eb as (s & u & Es & Eu & ->). rewrite eval_num, rv_opp, rv_1 in Es. assert (s = -1) by (assert (- (1) = s) by congruence; lra). subst s.
  rewrite (remove1_val _ _ _ _ _ p u E); auto; [f_equal; lra|]. now rewrite esum_ops.
Qed.
Lemma nb_ops_add a : no_binders a -> Forall no_binders (ops_add a).
Proof. intros H. destruct a; try (constructor; [exact H|constructor]). cbn in *. now rewrite no_binders_all in H. Qed.
Lemma nb_ops_mul a : no_binders a -> Forall no_binders (ops_mul a).
Proof. intros H. destruct a; try (constructor; [exact H|constructor]). cbn in *. now rewrite no_binders_all in H. Qed.
Lemma G0_nb : no_new_binders G0.
Proof.
  intros a b Ha Hb. assert (A : no_binders (Add (ops_add a ++ ops_add b))).
  { cbn. rewrite no_binders_all. apply Forall_app. split; now apply nb_ops_add. }
  assert (M : no_binders (Mul (ops_mul a ++ ops_mul b))).
  { cbn. rewrite no_binders_all. apply Forall_app. split; now apply nb_ops_mul. }
  split; [|split; [|split; auto]]; cbn [G0 gadd gmul].
  - destruct (is_num 0 a); [destruct a, b; auto; exact Logic.I|]. destruct (is_num 0 b); destruct a, b; auto; exact Logic.I.
  - destruct (is_num 1 a); [destruct a, b; auto; exact Logic.I|]. destruct (is_num 1 b); destruct a, b; auto; exact Logic.I.
Qed.
Lemma remove1_nb fs l : forall l', remove1 fs l = Some l' -> Forall no_binders l -> Forall no_binders l'.
Proof.
  induction l as [|t l IH]; intros l' H Hl; [discriminate|]. apply Forall_cons_iff in Hl as [Ht Hl]. cbn [remove1] in H. destruct (expr_eqb _ _).
  - assert (l = l') as <- by congruence. auto.
  - destruct (remove1 fs l) as [l0|]; [|discriminate]. cbn in H. assert (l' = t :: l0) as -> by congruence. constructor; auto.
Qed.
Lemma Gc_nb : no_new_binders Gc.
Proof.
  intros a b Ha Hb. destruct (G0_nb a b Ha Hb) as (A & M & P). split; [|split]; auto. cbn [Gc gadd]. destruct (cancel a b) as [l|] eqn:E; auto.
  assert (Hl : Forall no_binders l).
  { unfold cancel in E. destruct b as [| | | |[|[| | | | | | | |] fs]| | | |]; try discriminate. destruct (Qc_eqb q _); [|discriminate]. eapply remove1_nb; eauto. now apply nb_ops_add. }
  destruct l as [|t [|u l]]; cbn [sum_of]; [exact Logic.I|now apply Forall_cons_iff in Hl as [? _]|]. cbn. fold (fold_right (fun a P => no_binders a /\ P) True l).
  change (no_binders (Add (t :: u :: l))). cbn. rewrite no_binders_all. apply Forall_cons_iff in Hl as [? Hl]. apply Forall_cons_iff in Hl as [? ?]. auto.
Qed.
Definition keep (e : expr) : expr := e.
Lemma keep_ok I x e : refines (with_x I x) e (keep e). Proof. intros rho v H. exact H. Qed.

(** ** x(n) = 3 x(n+2) + 2 x(n+1) *)
Definition ng_rhs : expr := Add [Mul [Num (zq 3); Fun FX [n_plus 2]]; Mul [Num (zq 2); Fun FX [n_plus 1]]].
Definition ng_bad : expr := Add [Mul [Num (zq 2); Fun FX [n_plus 1]]; Mul [Num (zq 3); Fun FX [n_plus 2]]].
Definition pair_eqb (p q : Z * expr) : bool := Z.eqb (fst p) (fst q) && expr_eqb (snd p) (snd q).
Lemma pair_eqb_eq p q : pair_eqb p q = true -> p = q.
Proof. destruct p, q. unfold pair_eqb. cbn [fst snd]. rewrite andb_true_iff, Z.eqb_eq, expr_eqb_eq. intros [-> ->]. auto. Qed.
Lemma ng_find : find_max G0 ng_rhs = (2%Z, Num (zq 3)).
Proof. apply pair_eqb_eq. vm_compute. reflexivity. Qed.
Lemma ng_bad_find : find_max G0 ng_bad = (2%Z, Num (zq 6)).
Proof. apply pair_eqb_eq. vm_compute. reflexivity. Qed.
Lemma x_term_mul q j : x_term (Mul [Num q; Fun FX [n_plus j]]) j [Num q].
Proof. exists (n_plus j). split; [right; left; reflexivity|]. right. exists [Num q], []. split; [reflexivity|]. split; [reflexivity|]. constructor; [intros []|constructor]. Qed.
Lemma ng_values I rho x n : at_n I rho x n ng_rhs = Some (3 * x (n + 2)%nat + 2 * x (n + 1)%nat).
Proof.
  unfold ng_rhs, at_n. rewrite eval_Add2, !eval_Mul2. pose proof (x_plus_val I rho x n 2 (n + 2)%nat ltac:(lia)) as X2. pose proof (x_plus_val I rho x n 1 (n + 1)%nat ltac:(lia)) as X1.
  unfold at_n in *. rewrite X1, X2, !eval_num, !rv_zq. reflexivity.
Qed.
Theorem coeff_refuted : ~ (forall I G, (forall x, ginac_ok (with_x I x) G) -> forall rho x n l m c t cs w,
  find_max G (Add l) = (m, c) -> In t l -> x_term t m cs ->
  (forall t', In t' l -> t' <> t -> plain_term t' \/ exists j cs', x_term t' j cs' /\ (j < m)%Z) ->
  eprod (with_x I x) (upd rho "n" (INR n)) cs = Some w -> at_n I rho x n c = Some w).
Proof.
  intros H. specialize (H I0 G0 (fun x => G0_ok _) (fun _ => 0) (fun _ => 0) O (ops ng_bad) 2%Z (Num (zq 6)) (Mul [Num (zq 3); Fun FX [n_plus 2]]) [Num (zq 3)] (rv (zq 3)) ng_bad_find).
  cbn [ops ng_bad] in H. specialize (H ltac:(right; left; reflexivity) (x_term_mul _ _)).
  assert (P : forall t', In t' [Mul [Num (zq 2); Fun FX [n_plus 1]]; Mul [Num (zq 3); Fun FX [n_plus 2]]] -> t' <> Mul [Num (zq 3); Fun FX [n_plus 2]] ->
     plain_term t' \/ exists j cs', x_term t' j cs' /\ (j < 2)%Z).
  { intros t' [<-|[<-|[]]] N; [|congruence]. right. exists 1%Z, [Num (zq 2)]. split; [apply x_term_mul|lia]. }
  specialize (H P ltac:(now rewrite eprod_1)). unfold at_n in H. rewrite eval_num, !rv_zq in H. assert (6 = 3) by congruence. lra.
Qed.

(** ** Null decrements *)
Definition nd_rhs : expr := Add [Mul [Num (zq 3); x_n]; Fun FX [n_plus (-1)]].
Lemma nd_shape : one_x_n (ops nd_rhs) [Num (zq 3)] [Fun FX [n_plus (-1)]].
Proof.
  exists [], (Mul [Num (zq 3); x_n]), [Fun FX [n_plus (-1)]]. split; [reflexivity|]. split; [reflexivity|]. split.
  - constructor; [|constructor]. intros [E|(l & E & _)]; [unfold n_plus in E; congruence|discriminate].
  - right. exists [Num (zq 3)], []. split; [reflexivity|]. split; [reflexivity|]. intros [E|[]]. discriminate.
Qed.
Lemma nd_runs : exists new, eliminate_null Gc keep nd_rhs = Rewritten new.
Proof.
  unfold eliminate_null, keep, nd_rhs. destruct (coeff_x_n Gc _) as [a b] eqn:E. 
  assert (N : is_num 1 a = false). { replace a with (fst (coeff_x_n Gc (Add [Mul [Num (zq 3); x_n]; Fun FX [n_plus (-1)]]))) by now rewrite E. vm_compute. reflexivity. }
  rewrite N. eauto.
Qed.
(** x(n) = x(n) + 1 *)
Definition un_rhs : expr := Add [x_n; Num 1%Qc].
Lemma un_shape : one_x_n (ops un_rhs) [] [Num 1%Qc].
Proof.
  exists [], x_n, [Num 1%Qc]. split; [reflexivity|]. split; [reflexivity|]. split; [|left; split; reflexivity].
  constructor; [|constructor]. intros [E|(l & E & _)]; discriminate.
Qed.
Lemma un_runs : eliminate_null Gc keep un_rhs = Unsolvable.
Proof. vm_compute. reflexivity. Qed.
(** x(n) = x(n) + x(n-1)^2 *)
Definition sq_rhs : expr := Add [x_n; Pow (Fun FX [n_plus (-1)]) (Num (zq 2))].
Lemma sq_runs : eliminate_null Gc keep sq_rhs = Unsolvable.
Proof. vm_compute. reflexivity. Qed.
Lemma sq_solution I rho : solves_from I rho 1 sq_rhs (fun _ => 0).
Proof.
  intros n Hn. unfold holds_at, sq_rhs. rewrite eval_Add2. pose proof (x_n_val I rho (fun _ => 0) n) as X0. pose proof (x_plus_val I rho (fun _ => 0) n (-1) (n - 1)%nat ltac:(lia)) as X1.
  unfold at_n in *. rewrite X0. change (olift2 Rplus (Some 0) (obind (eval (with_x I (fun _ => 0)) (upd rho "n" (INR n)) (Fun FX [n_plus (-1)])) (fun x => obind (Some (rv (zq 2))) (rpow x))) = Some 0).
  rewrite X1. cbn [obind]. rewrite rv_zq. change (IZR 2) with (INR 2). rewrite rpow_nat. cbn. f_equal. lra.
Qed.
Theorem unsolvable_refuted : ~ (forall I G collect, (forall x, ginac_ok (with_x I x) G) -> (forall x e, refines (with_x I x) e (collect e)) ->
  forall rho rhs k, eliminate_null G collect rhs = Unsolvable -> forall x, ~ solves_from I rho k rhs x).
Proof. intros H. exact (H I0 Gc keep (fun x => Gc_ok _) (keep_ok I0) (fun _ => 0) sq_rhs 1%nat sq_runs _ (sq_solution _ _)). Qed.
(** x(n) = x(n) + 2 x(n-1) + 1 *)
Definition sh_rhs : expr := Add [x_n; Mul [Num (zq 2); Fun FX [n_plus (-1)]]; Num 1%Qc].
Definition sh_b : expr := Add [Mul [Num (zq 2); Fun FX [n_plus (-1)]]; Num 1%Qc].
Lemma sh_shape : one_x_n (ops sh_rhs) [] (ops sh_b).
Proof.
  exists [], x_n, (ops sh_b). split; [reflexivity|]. split; [reflexivity|]. split; [|left; split; reflexivity].
  constructor; [|constructor; [|constructor]]; intros [E|(l & E & Hl)]; try discriminate.
  assert (l = [Num (zq 2); Fun FX [n_plus (-1)]]) as -> by congruence. destruct Hl as [E'|[E'|[]]]; [discriminate|unfold n_plus in E'; congruence].
Qed.
Definition epair_eqb (p q : expr * expr) : bool := expr_eqb (fst p) (fst q) && expr_eqb (snd p) (snd q).
Lemma epair_eqb_eq p q : epair_eqb p q = true -> p = q.
Proof. destruct p, q. unfold epair_eqb. cbn [fst snd]. rewrite andb_true_iff, !expr_eqb_eq. intros [-> ->]. auto. Qed.
Lemma sh_coeff : coeff_x_n Gc sh_rhs = (Num 1%Qc, sh_b).
Proof. apply epair_eqb_eq. vm_compute. reflexivity. Qed.
Lemma sh_find : find_max Gc sh_b = ((-1)%Z, Num (zq 2)).
Proof. apply pair_eqb_eq. vm_compute. reflexivity. Qed.
Lemma sh_runs : exists new, eliminate_null Gc keep sh_rhs = Rewritten new.
Proof.
  unfold eliminate_null, keep. change sh_rhs with (Add (ops sh_rhs)) at 1. cbn iota. change (Add (ops sh_rhs)) with sh_rhs. rewrite sh_coeff.
  replace (is_num 1 (Num 1%Qc)) with true by reflexivity. replace (contains_x sh_b) with (Some true) by (vm_compute; reflexivity). rewrite sh_find. eauto.
Qed.
(** x(n) = x(n) + n x(n-1) + 1 *)
Definition vr_rhs : expr := Add [x_n; Mul [Sym "n"; Fun FX [n_plus (-1)]]; Num 1%Qc].
Definition vr_new : expr := Mul [Num (-(1))%Qc; Pow (Sym "n") (Num (-(1))%Qc)].
Definition is_rewritten (r : null_result) (e : expr) : bool := match r with Rewritten e' => expr_eqb e' e | _ => false end.
Lemma is_rewritten_eq r e : is_rewritten r e = true -> r = Rewritten e.
Proof. destruct r; cbn; try discriminate. rewrite expr_eqb_eq. congruence. Qed.
Lemma vr_runs : eliminate_null Gc keep vr_rhs = Rewritten vr_new.
Proof. apply is_rewritten_eq. vm_compute. reflexivity. Qed.
Lemma vr_solution I rho : solves_from I rho 1 vr_rhs (fun n => - / (INR n + 1)).
Proof.
  intros n Hn. unfold holds_at, vr_rhs. set (y := fun n => - / (INR n + 1)). rewrite eval_Add, !esum_cons, esum_nil, eval_Mul2, eval_num, rv_1.
  pose proof (x_n_val I rho y n) as X0. pose proof (x_plus_val I rho y n (-1) (n - 1)%nat ltac:(lia)) as X1.
  unfold at_n in *. rewrite X0, X1. replace (eval (with_x I y) (upd rho "n" (INR n)) (Sym "n")) with (Some (INR n)) by reflexivity. cbn [olift2]. f_equal.
  unfold y. rewrite minus_INR by lia. cbn [INR]. assert (1 <= INR n) by (change 1 with (INR 1); now apply le_INR). field. split; lra.
Qed.
Lemma vr_wrong I rho N : ~ solves_from I rho N vr_new (fun n => - / (INR n + 1)).
Proof.
  intros H. specialize (H (S N) ltac:(lia)). unfold holds_at, vr_new in H. rewrite eval_Mul2, eval_num, rv_opp, rv_1 in H.
  assert (P : 0 < INR (S N)) by (apply lt_0_INR; lia).
  assert (E : forall y, eval (with_x I y) (upd rho "n" (INR (S N))) (Pow (Sym "n") (Num (-(1))%Qc)) = Some (/ INR (S N))).
  { intros y. cbn [eval obind]. replace (upd rho "n" (INR (S N)) "n"%string) with (INR (S N)) by reflexivity. rewrite rv_opp, rv_1. replace (- (1)) with (IZR (-1)) by lra.
    unfold rpow. rewrite as_int_IZR. destruct (Req_EM_T (INR (S N)) 0); [lra|]. f_equal. unfold powerRZ. now rewrite Pos2Nat.inj_1, pow_1. }
  rewrite E in H. cbn [olift2] in H. assert (Q : / INR (S N) = / (INR (S N) + 1)) by (assert (- (1) * / INR (S N) = - / (INR (S N) + 1)) by congruence; lra).
  assert (INR (S N) = INR (S N) + 1); [|lra]. apply (f_equal Rinv) in Q. rewrite !Rinv_inv in Q. exact Q.
Qed.
Theorem shifted_refuted : ~ (forall I G collect, (forall x, ginac_ok (with_x I x) G) -> no_new_binders G -> (forall x e, refines (with_x I x) e (collect e)) ->
  forall rho rhs new x k, eliminate_null G collect rhs = Rewritten new -> solves_from I rho k rhs x -> exists N, solves_from I rho N new x).
Proof.
  intros H. destruct (H I0 Gc keep (fun x => Gc_ok _) Gc_nb (keep_ok I0) (fun _ => 0) vr_rhs vr_new _ 1%nat vr_runs (vr_solution _ _)) as [N E].
  exact (vr_wrong _ _ _ E).
Qed.
(** x(n) = n x(n) *)
Definition mu_rhs : expr := Mul [Sym "n"; x_n].
Lemma mu_runs : eliminate_null Gc keep mu_rhs = Rewritten (Num 0%Qc).
Proof. apply is_rewritten_eq. vm_compute. reflexivity. Qed.
Definition mu_seq (n : nat) : R := match n with 1%nat => 5 | _ => 0 end.
Lemma mu_solution I rho : solves_from I rho 0 mu_rhs mu_seq.
Proof.
  intros n _. unfold holds_at, mu_rhs. rewrite eval_Mul2. pose proof (x_n_val I rho mu_seq n) as X0. unfold at_n in X0. rewrite X0.
  replace (eval (with_x I mu_seq) (upd rho "n" (INR n)) (Sym "n")) with (Some (INR n)) by reflexivity. cbn [olift2]. f_equal. destruct n as [|[|n]]; cbn [mu_seq]; try lra. cbn. lra.
Qed.
Theorem multiple_refuted : ~ (forall I G collect, (forall x, ginac_ok (with_x I x) G) -> (forall x e, refines (with_x I x) e (collect e)) ->
  forall rho rhs new x, eliminate_null G collect rhs = Rewritten new -> solves_from I rho 0 rhs x -> solves_from I rho 0 new x).
Proof.
  intros H. pose proof (H I0 Gc keep (fun x => Gc_ok _) (keep_ok I0) (fun _ => 0) mu_rhs _ _ mu_runs (mu_solution _ _) 1%nat (Nat.le_0_l _)) as E.
  unfold holds_at in E. rewrite eval_num, rv_0 in E. cbn in E. assert (0 = 5) by congruence. lra.
Qed.
