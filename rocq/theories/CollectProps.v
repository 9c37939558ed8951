(** C57: collecting equal bases and exponents (src/simplify.cc:293-503). *)
From Coq Require Import ZArith QArith Qcanon Reals List String Bool Lia Lra.
From Verif Require Import Ast ExprModel ExprSpec ExprProofs1 ExprProofs2 NonLinProofs DecompCases VerifyCases CollectModel CollectSpec CollectProofs CollectProofs2 CollectProofs3.
Import ListNotations.
Local Open Scope list_scope.
Local Open Scope R_scope.

(** Equal and opposite exponents collected: the value is kept if no base is 0. *)
Theorem C57_same_exponents : forall (I : interp) (G : ginac), ginac_ok I G ->
  forall simplify_nd, (forall e, refines I e (simplify_nd e)) ->
  forall rho only_n l v, bases_nonzero I rho l -> eval I rho (Mul l) = Some v -> eval I rho (collect_same_exponents G simplify_nd only_n (Mul l)) = Some v.
Proof. exact collect_same_exponents_ok. Qed.
Print Assumptions C57_same_exponents.
(** Powers that all have the same exponent become one power. *)
Theorem C57_exponents_merged : forall (G : ginac), knows_one G -> forall simplify_nd x b bs,
  collect_same_exponents G simplify_nd false (Mul (map (fun c => Pow c x) (b :: bs))) = gpow G (simplify_nd (fold_left (gmul G) bs b)) x.
Proof. exact exponents_merged. Qed.
Print Assumptions C57_exponents_merged.
(** Equal bases collected, if no factor is the base of another one. *)
Theorem C57_same_base : forall (I : interp) (G : ginac), ginac_ok I G ->
  forall rho l v, (forall b x, In (Pow b x) l -> ~ In b l) -> eval I rho (Mul l) = Some v -> eval I rho (collect_same_base G (Mul l)) = Some v.
Proof. intros I G HG rho l v Ap. apply (collect_same_base_ok I G HG). now apply apart_single. Qed.
Print Assumptions C57_same_base.
(** Also if one is, provided that the power that absorbs it occurs once only in the product. *)
Theorem C57_absorbed_factors_partial : forall (I : interp) (G : ginac), ginac_ok I G ->
  forall rho l v, absorbs_single G l -> eval I rho (Mul l) = Some v -> eval I rho (collect_same_base G (Mul l)) = Some v.
Proof. exact collect_same_base_ok. Qed.
Print Assumptions C57_absorbed_factors_partial.
(** Powers that all have the same base become one power. *)
Theorem C57_bases_merged : forall (G : ginac), knows_one G -> forall b x xs,
  collect_same_base G (Mul (map (fun y => Pow b y) (x :: xs))) = gpow G b (fold_left (gadd G) xs x).
Proof. exact bases_merged. Qed.
Print Assumptions C57_bases_merged.
(** Both. *)
Theorem C57_collect_partial : forall (I : interp) (G : ginac), ginac_ok I G ->
  forall simplify_nd, (forall e, refines I e (simplify_nd e)) ->
  forall rho l v, bases_nonzero I rho l -> (forall l', collect_same_exponents G simplify_nd false (Mul l) = Mul l' -> absorbs_single G l') ->
  eval I rho (Mul l) = Some v -> eval I rho (collect_base_exponent G simplify_nd (Mul l)) = Some v.
Proof.
  intros I G HG si Hs rho l v Nz As H. unfold collect_base_exponent. apply (collect_same_exponents_ok I G HG si Hs rho false l v Nz) in H.
  destruct (collect_same_exponents G si false (Mul l)) eqn:E; auto. apply (collect_same_base_ok I G HG); auto.
Qed.
Print Assumptions C57_collect_partial.

(** * Cases *)
(** A simplifier with a^0 = 1 and a^1 = a. *)
Definition Gk : ginac := MkG (gadd G0) (gmul G0) (fun b x => if expr_eqb x (Num 0) then Num 1 else if expr_eqb x (Num 1) then b else Pow b x) Fun SumE ProdE.
Lemma Gk_ok I : ginac_ok I Gk.
Proof.
  destruct (G0_ok I) as [A B C D E F]. constructor; auto. intros a b rho v Ev. cbn [gpow Gk].
  destruct (expr_eqb b (Num 0)) eqn:E1; [|destruct (expr_eqb b (Num 1)) eqn:E2; auto].
  - apply expr_eqb_eq in E1. subst b. apply power_inv in Ev as (u & y & U & Y & P). rewrite num0 in Y. injection Y as <-. rewrite rpow_0 in P. rewrite num1. exact P.
  - apply expr_eqb_eq in E2. subst b. apply power_inv in Ev as (u & y & U & Y & P). rewrite num1 in Y. injection Y as <-. rewrite rpow_1r in P. congruence.
Qed.
Lemma Gk_one : knows_one Gk.
Proof.
  split; [|split; [|split]].
  - intros b. cbn [gpow Gk]. now rewrite expr_eqb_refl.
  - intros a. destruct a; try reflexivity. cbn. f_equal. apply Qcmult_1_l.
  - intros a. destruct a; try reflexivity. cbn. f_equal. apply Qcmult_1_r.
  - apply expr_eqb_eq. vm_compute. reflexivity.
Qed.
(** - x x^n x^3 2^n 3^m (1/6)^(-n) *)
Definition c_l : list expr := [Num (-(1))%Qc; Sym "x"; Pow (Sym "x") (Sym "n"); Pow (Sym "x") (Num (zq 3)); Pow (Num (zq 2)) (Sym "n"); Pow (Num (zq 3)) (Sym "m"); Pow (Num (Q2Qc (1 # 6))) (Mul [Num (-(1))%Qc; Sym "n"])].
(** A test for [absorbs_single]. *)
Fixpoint occb (a e : expr) : bool :=
  expr_eqb a e || match e with
  | Add l | Mul l | Fun _ l => existsb (occb a) l
  | Pow b x => occb a b || occb a x
  | SumE k lo up b | ProdE k lo up b => expr_eqb a (Sym k) || occb a lo || occb a up || occb a b
  | _ => false
  end.
Lemma occb_complete a e : occurs a e -> occb a e = true.
Proof.
  induction 1 as [|e b Hb Ho IH]; [destruct a; cbn [occb]; now rewrite expr_eqb_refl|].
  assert (Bin : forall k lo up c, In b [Sym k; lo; up; c] -> (expr_eqb a (Sym k) || occb a lo || occb a up || occb a c)%bool = true).
  { intros k lo up c [<-|[<-|[<-|[<-|[]]]]]; [|rewrite IH, ?orb_true_r; reflexivity..]. change (occb a (Sym k)) with (expr_eqb a (Sym k) || false)%bool in IH. rewrite orb_false_r in IH. now rewrite IH. }
  destruct e; cbn [ops] in Hb; try contradiction; cbn [occb]; apply orb_true_iff; right; try (apply existsb_exists; now exists b); try (now apply Bin).
  destruct Hb as [<-|[<-|[]]]; rewrite IH; auto. now rewrite orb_true_r.
Qed.
Fixpoint one_of (old : expr) (l : list expr) : bool :=
  match l with [] => false | a :: l => if expr_eqb a old then forallb (fun b => negb (occb old b)) l else negb (occb old a) && one_of old l end.
Lemma one_of_sound old l : one_of old l = true -> exists l1 l2, l = l1 ++ old :: l2 /\ Forall (fun a => ~ occurs old a) (l1 ++ l2).
Proof.
  assert (N : forall a, negb (occb old a) = true -> ~ occurs old a) by (intros a H O; apply occb_complete in O; rewrite O in H; discriminate).
  induction l as [|a l IH]; cbn [one_of]; [discriminate|]. destruct (expr_eqb a old) eqn:E.
  - apply expr_eqb_eq in E. subst a. intros H. exists [], l. split; auto. cbn [app]. apply Forall_forall. intros b Hb. apply N. rewrite forallb_forall in H. auto.
  - intros H. apply andb_true_iff in H as [H1 H2]. destruct (IH H2) as (l1 & l2 & -> & F). exists (a :: l1), l2. split; auto. cbn. constructor; auto.
Qed.
Definition singleb (old e : expr) : bool := expr_eqb e old || match e with Mul l => one_of old l | _ => false end.
Lemma singleb_sound old e : singleb old e = true -> single_factor old e.
Proof.
  unfold singleb. destruct (expr_eqb e old) eqn:E; [left; now apply expr_eqb_eq|]. cbn [orb]. destruct e; try discriminate. intros H. right. destruct (one_of_sound _ _ H) as (l1 & l2 & -> & F). exists l1, l2. split; auto. split; auto. intros Q. apply expr_eqb_eq in Q. congruence.
Qed.
Definition stepb (G : ginac) p f (st : expr * bool) : expr * bool :=
  (add_factor G p f (fst st), snd st && (if plain_factor f then match absorber G f p with Some (old, _) => singleb old (fst st) | None => true end else true)).
Definition absorbs_singleb (G : ginac) (l : list expr) : bool :=
  let '(acc, p) := bases_loop G (List.length (entries l)) (entries l) (Num 1) in snd (fold_right (stepb G p) (acc, true) l).
Lemma absorbs_singleb_sound G l : absorbs_singleb G l = true -> absorbs_single G l.
Proof.
  intros H l1 f l2 old new acc p Hb El Pf Ab. unfold absorbs_singleb in H. rewrite Hb in H. subst l. clear Hb.
  assert (F : forall m, fst (fold_right (stepb G p) (acc, true) m) = fold_right (add_factor G p) acc m) by (induction m as [|a m IH]; cbn [fold_right]; auto; unfold stepb at 1; cbn [fst]; now rewrite IH).
  rewrite fold_right_app in H. cbn [fold_right] in H.
  assert (T : forall m st, snd (fold_right (stepb G p) st m) = true -> snd st = true) by (induction m as [|a m IH]; intros st; cbn [fold_right]; auto; unfold stepb at 1; cbn [snd]; intros X; apply andb_true_iff in X as [X _]; auto).
  apply T in H. unfold stepb at 1 in H. cbn [snd] in H. apply andb_true_iff in H as [_ H]. rewrite Pf, Ab, F in H. now apply singleb_sound.
Qed.
Definition c_r : expr := Mul [Pow (Num (zq 3)) (Sym "m"); Pow (Sym "x") (Num (zq 4)); Pow (Mul [Pow (Num (Q2Qc (1 # 6))) (Num (zq (-1))); Num (zq 2); Sym "x"]) (Sym "n"); Num (zq (-1))].
Example C57_case : collect_base_exponent Gk idE (Mul c_l) = c_r /\
  (forall rho, rho "x"%string <> 0 -> bases_nonzero I0 rho c_l) /\
  (forall l', collect_same_exponents Gk idE false (Mul c_l) = Mul l' -> absorbs_single Gk l') /\
  exists v, eval I0 (fun _ => 2) (Mul c_l) = Some v /\ eval I0 (fun _ => 2) c_r = Some v.
Proof.
  assert (N : forall rho, rho "x"%string <> 0 -> bases_nonzero I0 rho c_l).
  { intros rho Hx b x u Hi Hu. unfold c_l in Hi. cbn [In] in Hi.
    assert (K : forall c, b = c -> (forall w, eval I0 rho c = Some w -> w <> 0) -> u <> 0) by (intros c -> K; now apply K).
    assert (KS : forall w, eval I0 rho (Sym "x") = Some w -> w <> 0) by (intros w [= <-]; auto).
    assert (KN : forall q w, rv q <> 0 -> eval I0 rho (Num q) = Some w -> w <> 0) by (intros q w Hq; cbn [eval]; congruence).
    destruct Hi as [E|[E|[E|[E|[E|[E|[E|[]]]]]]]]; try discriminate E.
    - apply (K (Sym "x")); auto. congruence.
    - apply (K (Sym "x")); auto. congruence.
    - apply (K (Num (zq 2))); [congruence|]. intros w. apply KN. rewrite rv_zq. lra.
    - apply (K (Num (zq 3))); [congruence|]. intros w. apply KN. rewrite rv_zq. lra.
    - apply (K (Num (Q2Qc (1 # 6)))); [congruence|]. intros w. apply KN. unfold rv, Q2R. cbn. lra. }
  assert (S1 : collect_base_exponent Gk idE (Mul c_l) = c_r) by (apply expr_eqb_eq; vm_compute; reflexivity).
  assert (A : forall l', collect_same_exponents Gk idE false (Mul c_l) = Mul l' -> absorbs_single Gk l').
  { intros l' H. apply absorbs_singleb_sound. assert (X : match collect_same_exponents Gk idE false (Mul c_l) with Mul l' => absorbs_singleb Gk l' | _ => false end = true) by (vm_compute; reflexivity). now rewrite H in X. }
  split; auto. split; auto. split; auto.
  assert (D : exists v, eval I0 (fun _ => 2) (Mul c_l) = Some v).
  { assert (Dm : forall l, Forall (fun a => exists v, eval I0 (fun _ => 2) a = Some v) l -> exists v, eval I0 (fun _ => 2) (Mul l) = Some v).
    { intros l F. induction F as [|a l [v Hv] Hl [w Hw]]; [exists 1; reflexivity|]. exists (v * w). rewrite eval_Mul in *. rewrite eprod_cons, Hv, Hw. reflexivity. }
    assert (Dp : forall b x u y, eval I0 (fun _ => 2) b = Some u -> 0 < u -> eval I0 (fun _ => 2) x = Some y -> exists v, eval I0 (fun _ => 2) (Pow b x) = Some v).
    { intros b x u y Hb Pu Hx. exists (Rpower u y). apply (power_intro I0 _ _ _ u y); auto. now apply rpow_pos. }
    apply Dm. unfold c_l. constructor; [eexists; reflexivity|]. constructor; [eexists; reflexivity|]. constructor; [apply (Dp _ _ 2 2); auto; lra|].
    constructor; [apply (Dp _ _ 2 (rv (zq 3))); auto; lra|]. constructor; [apply (Dp _ _ (rv (zq 2)) 2); auto; rewrite rv_zq; lra|]. constructor; [apply (Dp _ _ (rv (zq 3)) 2); auto; rewrite rv_zq; lra|].
    constructor; [|constructor]. destruct (Dm [Num (-(1))%Qc; Sym "n"]) as [y Hy]; [constructor; [eexists; reflexivity|constructor; [eexists; reflexivity|constructor]]|].
    apply (Dp _ _ (rv (Q2Qc (1 # 6))) y); auto. unfold rv, Q2R. cbn. lra. }
  destruct D as [v D]. exists v. split; auto. rewrite <- S1. apply (C57_collect_partial I0 Gk (Gk_ok I0) idE (fun e rho w H => H)); auto; apply N; lra.
Qed.

(** * A power that occurs twice: x x^n 2^(x^n) becomes x^(n+1) 2^(x^(n+1)) *)
Definition d_l : list expr := [Sym "x"; Pow (Sym "x") (Sym "n"); Pow (Num (zq 2)) (Pow (Sym "x") (Sym "n"))].
Theorem C57_absorbed_factors_refuted : (forall rho, rho "x"%string <> 0 -> bases_nonzero I0 rho d_l) /\
  (forall x n, eval I0 (upd (upd (fun _ => 0) "n" (INR n)) "x" (INR x)) (Mul d_l) = Some (INR x * (INR x ^ n * 2 ^ (x ^ n)))) /\
  (forall x n, eval I0 (upd (upd (fun _ => 0) "n" (INR n)) "x" (INR x)) (collect_same_base Gk (Mul d_l)) = Some (INR x ^ (n + 1) * 2 ^ (x ^ (n + 1)))).
Proof.
  split; [|split].
  - intros rho Hx b x u Hi Hu. cbn [In d_l] in Hi. destruct Hi as [E|[E|[E|[]]]]; try discriminate E.
    + assert (b = Sym "x") by congruence. subst b. cbn [eval] in Hu. congruence.
    + assert (b = Num (zq 2)) by congruence. subst b. cbn [eval] in Hu. rewrite rv_zq in Hu. assert (u = 2) by congruence. lra.
  - intros x n. unfold d_l. rewrite eval_Mul, !eprod_cons, eprod_nil. cbn [eval obind]. change (upd (upd (fun _ => 0) "n" (INR n)) "x" (INR x) "x"%string) with (INR x). change (upd (upd (fun _ => 0) "n" (INR n)) "x" (INR x) "n"%string) with (INR n).
    rewrite rpow_nat. cbn [obind]. rewrite <- pow_INR, rpow_nat, rv_zq. cbn [olift2]. rewrite Rmult_1_r. reflexivity.
  - intros x n. replace (collect_same_base Gk (Mul d_l)) with (Mul [Pow (Num (zq 2)) (Pow (Sym "x") (Add [Sym "n"; Num 1])); Pow (Sym "x") (Add [Sym "n"; Num 1])]) by (apply expr_eqb_eq; vm_compute; reflexivity).
    rewrite eval_Mul2. assert (En : eval I0 (upd (upd (fun _ => 0) "n" (INR n)) "x" (INR x)) (Add [Sym "n"; Num 1]) = Some (INR (n + 1))).
    { rewrite eval_Add2. cbn [eval olift2]. rewrite rv_1. change (upd (upd (fun _ => 0) "n" (INR n)) "x" (INR x) "n"%string) with (INR n). rewrite plus_INR. reflexivity. }
    rewrite !eval_Pow, En. cbn [eval obind]. change (upd (upd (fun _ => 0) "n" (INR n)) "x" (INR x) "x"%string) with (INR x). rewrite rpow_nat. cbn [obind olift2]. rewrite <- pow_INR, rpow_nat, rv_zq. cbn [olift2]. rewrite Rmult_comm. reflexivity.
Qed.
Print Assumptions C57_absorbed_factors_refuted.
Example C57_absorbed_differs : 2 * (2 ^ 1 * 2 ^ (2 ^ 1)) <> 2 ^ (1 + 1) * 2 ^ (2 ^ (1 + 1)).
Proof. cbn. lra. Qed.
