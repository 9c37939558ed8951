From Coq Require Import ZArith QArith Qcanon Reals List String Bool Lia Lra.
From Verif Require Import Ast ExprModel ExprSpec ExprProofs1 ExprProofs2 ExprProofs3 BlackboardModel BlackboardSpec BlackboardProofs BlackboardProofs2 NamesSpec SqrModel SqrSpec.
Import ListNotations.
Local Open Scope list_scope.
Local Open Scope nat_scope.

Lemma rf_add_inv l : rational_form (Add l) -> Forall rational_form l. Proof. now inversion 1. Qed.
Lemma rf_mul_inv l : rational_form (Mul l) -> Forall rational_form l. Proof. now inversion 1. Qed.

(** Empty dictionaries. *)
Lemma ia_empty e : indices_apart (fun _ => None) e.
Proof.
  induction e using expr_ind'; cbn; auto; try (now apply ia_all). 
  - repeat split; auto. intros; discriminate.
  - repeat split; auto. intros; discriminate.
Qed.

Section D.
Variable G : ginac.
Variable D : dict.
(** Expressions without defined symbols expand as with the empty dictionary. *)
Lemma expands_none : (forall e e', expands G D e e' -> (forall z, has z e = true -> D z = None) -> expands G (fun _ => None) e e') /\
  (forall l l', expands_all G D l l' -> (forall z, existsb (has z) l = true -> D z = None) -> expands_all G (fun _ => None) l l').
Proof.
  apply expands_ind2; intros; try (constructor; auto; fail).
  - rewrite (H0 z) in e0; [discriminate|]. cbn. apply String.eqb_refl.
  - constructor; [apply H|apply H0]; intros z Hz; apply H1; cbn; rewrite Hz, ?orb_true_r; auto.
  - constructor; [apply H|apply H0|apply H1|apply H2]; intros z Hz; apply H3; cbn; try (cbn in Hz); rewrite Hz, ?orb_true_r; auto.
  - constructor; [apply H|apply H0|apply H1|apply H2]; intros z Hz; apply H3; cbn; try (cbn in Hz); rewrite Hz, ?orb_true_r; auto.
  - constructor; [apply H|apply H0]; intros z Hz; apply H1; cbn; rewrite Hz, ?orb_true_r; auto.
Qed.
Hypothesis NS : no_new_symbols G.
Lemma add_all_has z l : has z (fold_right (fun a acc => gadd G acc a) (Num 0%Qc) l) = true -> existsb (has z) l = true.
Proof.
  destruct NS as (A & _). induction l as [|a l IH]; cbn [fold_right existsb]; [discriminate|]. intros H. apply A in H. cbn in H. rewrite orb_false_r in H. apply orb_true_iff in H as [H|H]; [rewrite (IH H)|rewrite H]; auto using orb_true_r.
Qed.
Lemma mul_all_has z l : has z (fold_right (fun a acc => gmul G acc a) (Num 1%Qc) l) = true -> existsb (has z) l = true.
Proof.
  destruct NS as (_ & A & _). induction l as [|a l IH]; cbn [fold_right existsb]; [discriminate|]. intros H. apply A in H. cbn in H. rewrite orb_false_r in H. apply orb_true_iff in H as [H|H]; [rewrite (IH H)|rewrite H]; auto using orb_true_r.
Qed.
Lemma none_has z : (forall e e', expands G (fun _ => None) e e' -> has z e' = true -> has z e = true) /\
  (forall l l', expands_all G (fun _ => None) l l' -> existsb (has z) l' = true -> existsb (has z) l = true).
Proof.
  apply expands_ind2; auto.
  - discriminate.
  - intros l l' _ IH H. apply add_all_has in H. cbn. auto.
  - intros l l' _ IH H. apply mul_all_has in H. cbn. auto.
  - intros a b a' b' _ IH1 _ IH2 H. apply NS in H. cbn in *. apply orb_true_iff in H as [H|H]; [rewrite IH1|rewrite IH2]; auto using orb_true_r.
  - intros f l l' _ IH H. apply NS in H. cbn in *. auto.
  - intros k lo up e k' lo' up' e' X _ _ IH1 _ IH2 _ IH3 H. inversion X; subst; [|discriminate]. cbn [apply_sum] in H. apply NS in H. cbn in *.
    rewrite !orb_true_iff in *. intuition.
  - intros k lo up e k' lo' up' e' X _ _ IH1 _ IH2 _ IH3 H. inversion X; subst; [|discriminate]. cbn [apply_prod] in H. apply NS in H. cbn in *.
    rewrite !orb_true_iff in *. intuition.
  - intros a l a' l' _ IH1 _ IH2 H. cbn in *. rewrite !orb_true_iff in *. intuition.
Qed.

Variable I : interp.
Hypothesis HG : ginac_ok I G.
(** No definition uses a defined symbol. *)
Hypothesis FLAT : forall z d, D z = Some d -> forall y, has y d = true -> D y = None.
Lemma flat_expands d d' : (forall y, has y d = true -> D y = None) -> expands G D d d' ->
  (forall z, has z d' = true -> D z = None) /\ forall rho v, eval I rho d = Some v -> eval I rho d' = Some v.
Proof.
  intros F X. pose proof (proj1 expands_none d d' X F) as X0. split.
  - intros z Hz. apply F. now apply (proj1 (none_has z) d d').
  - intros rho v. apply (proj1 (expands_value G I HG (fun _ => None) ltac:(discriminate)) d d' X0 rho v).
    + intros z e Hz. discriminate.
    + apply ia_empty.
Qed.
Lemma rational_expands :
  (forall e e', expands G D e e' -> rational_form e -> (forall z, has z e' = true -> D z = None) /\
     forall rho v, satisfies I D rho -> eval I rho e = Some v -> eval I rho e' = Some v) /\
  (forall l l', expands_all G D l l' -> Forall rational_form l -> (forall z, existsb (has z) l' = true -> D z = None) /\ forall rho, satisfies I D rho ->
     (forall v, esum I rho l = Some v -> esum I rho l' = Some v) /\ (forall v, eprod I rho l = Some v -> eprod I rho l' = Some v)).
Proof.
  apply expands_ind2.
  - intros q _. split; auto. discriminate.
  - intros c _. split; auto. discriminate.
  - intros z N _. split; auto. intros y Hy. cbn in Hy. apply String.eqb_eq in Hy. now subst.
  - intros z e v Hz X _ _. destruct (flat_expands e v (FLAT z e Hz) X) as [A B]. split; auto. intros rho w S E. apply B. rewrite (S z e Hz). exact E.
  - intros l l' _ IH R. destruct (IH (rf_add_inv l R)) as [A B]. split.
    + intros z Hz. apply A. now apply add_all_has.
    + intros rho v S E. apply add_all_ok; auto. rewrite eval_Add in *. now apply B.
  - intros l l' _ IH R. destruct (IH (rf_mul_inv l R)) as [A B]. split.
    + intros z Hz. apply A. now apply mul_all_has.
    + intros rho v S E. apply mul_all_ok; auto. rewrite eval_Mul in *. now apply B.
  - intros a b a' b' _ IH1 X _ R. inversion R as [| | | | |a0 q Ra Rq]; subst. inversion X; subst. destruct (IH1 Ra) as [A B]. split.
    + intros z Hz. apply NS in Hz. cbn in Hz. rewrite orb_false_r in Hz. auto.
    + intros rho v S E. apply (gpow_ok _ _ HG). cbn [eval] in *. destruct (eval I rho a) as [x|] eqn:E1; [|discriminate]. rewrite (B rho x S E1). exact E.
  - intros f l l' _ _ R. inversion R.
  - intros k lo up e k' lo' up' e' _ _ _ _ _ _ _ _ R. inversion R.
  - intros k lo up e k' lo' up' e' _ _ _ _ _ _ _ _ R. inversion R.
  - intros _. split; auto. discriminate.
  - intros a l a' l' _ IH1 _ IH2 R. inversion R as [|? ? R1 R2]; subst. destruct (IH1 R1) as [A1 B1], (IH2 R2) as [A2 B2]. split.
    + intros z Hz. cbn in Hz. apply orb_true_iff in Hz as [Hz|Hz]; auto.
    + intros rho S. destruct (B2 rho S) as [C1 C2]. split; intros v; [rewrite !esum_cons|rewrite !eprod_cons]; rewrite !olift2_some; intros (x & y & Hx & Hy & ->); exists x, y; auto.
Qed.
End D.

Section S.
Variable G : ginac.
Variable fresh : nat -> string.
Variable I : interp.
Hypothesis HG : ginac_ok I G.
Hypothesis NS : no_new_symbols G.
Hypothesis KR : keeps_rational G.
Hypothesis INJ : forall i j, fresh i = fresh j -> i = j.
Variable y : list string.

Definition clean (e : expr) : Prop := forall i, has (fresh i) e = false.
Definition GI (s : board) (D : dict) : Prop :=
  BInv G (fst s) D /\ forall z d, D z = Some d -> (exists i, i < snd s /\ z = fresh i) /\ clean d /\ forall w, In w y -> has w d = false.
Definition extends (D D' : dict) : Prop := forall z d, D z = Some d -> D' z = Some d.
Definition valued (D : dict) (rho : string -> R) : Prop := forall z d, D z = Some d -> exists v, eval I rho d = Some v.
Definition agree (rho rho' : string -> R) : Prop := forall z, (forall i, z <> fresh i) -> rho z = rho' z.
(** The effect of hiding on the value of e. *)
Definition works (D D' : dict) (val : (string -> R) -> option R) (e1 : expr) : Prop :=
  forall rho v, val rho = Some v -> valued D rho -> valued D' rho /\
    forall rho', agree rho rho' -> satisfies I D' rho' -> eval I rho' e1 = Some v.
Definition good (f : board -> call (board * expr)) (val : (string -> R) -> option R) : Prop :=
  forall s D, GI s D -> exists s' D' e1, f s = Done (s', e1) /\ GI s' D' /\ extends D D' /\ rational_form e1 /\ works D D' val e1.

Lemma ext_sat D D' rho : extends D D' -> satisfies I D' rho -> satisfies I D rho.
Proof. intros E S z d H. apply S. now apply E. Qed.
Lemma clean_eval e rho rho' : clean e -> agree rho rho' -> eval I rho e = eval I rho' e.
Proof. intros C A. apply eval_agree. intros z Hz. apply A. intros i ->. rewrite C in Hz. discriminate. Qed.

Lemma hide_good e : clean e -> (forall w, In w y -> has w e = false) -> good (fun s => Done (hide fresh s e)) (fun rho => eval I rho e).
Proof.
  intros C Cy s D [B F]. unfold hide.
  assert (N : D (fresh (snd s)) = None).
  { destruct (D (fresh (snd s))) as [d|] eqn:E; auto. apply F in E as ((i & L & E) & _). apply INJ in E. lia. }
  pose proof (insert_inv G (fst s) D (fresh (snd s)) e B) as B'. unfold d_insert in B'. rewrite N in B'.
  eexists _, _, _. split; [reflexivity|]. split; [split; [exact B'|]|].
  - cbn [fst snd]. unfold dset. intros z d. destruct (String.eqb z (fresh (snd s))) eqn:E.
    + intros [= <-]. apply String.eqb_eq in E. split; [exists (snd s); split; [lia|auto]|split; [exact C|exact Cy]].
    + intros H. apply F in H as ((i & L & H) & Hc). split; auto. exists i. split; [lia|auto].
  - split; [|split; [constructor|]].
    + intros z d H. unfold dset. destruct (String.eqb z (fresh (snd s))) eqn:E; auto. apply String.eqb_eq in E. congruence.
    + intros rho v E V. split.
      * intros z d. unfold dset. destruct (String.eqb z (fresh (snd s))); [intros [= <-]; eauto|apply V].
      * intros rho' A S. specialize (S (fresh (snd s)) e). unfold dset in S. rewrite String.eqb_refl in S. specialize (S eq_refl). cbn [eval].
        rewrite <- S, <- (clean_eval e rho rho' C A). exact E.
Qed.
Lemma leaf_good e : clean e -> rational_form e -> good (fun s => Done (s, e)) (fun rho => eval I rho e).
Proof.
  intros C R s D H. exists s, D, e. split; [reflexivity|]. split; [exact H|]. split; [intros z d Hz; auto|]. split; [exact R|].
  intros rho v E V. split; auto. intros rho' A _. rewrite <- (clean_eval e rho rho' C A). exact E.
Qed.
Lemma list_good (f : board -> expr -> call (board * expr)) (op : expr -> expr -> expr) (u : expr) (rop : R -> R -> R) (val : list expr -> (string -> R) -> option R) l :
  rational_form u -> (forall rho, eval I rho u = val [] rho) ->
  (forall a l rho, val (a :: l) rho = olift2 rop (eval I rho a) (val l rho)) ->
  (forall a b, rational_form a -> rational_form b -> rational_form (op a b)) ->
  (forall rho a b x w, eval I rho a = Some x -> eval I rho b = Some w -> eval I rho (op a b) = Some (rop w x)) ->
  clean u -> Forall (fun e => good (fun s => f s e) (fun rho => eval I rho e)) l ->
  good (fun s => from_last f op u s l) (val l).
Proof.
  intros Ru Vu Vc Rop Vop Cu. induction 1 as [|a l Ha Hl IH]; intros s D H.
  - destruct (leaf_good u Cu Ru s D H) as (s' & D' & e1 & E & H' & X & R & W). exists s', D', e1. split; [exact E|]. split; [exact H'|]. split; [exact X|]. split; [exact R|].
    intros rho v. rewrite <- Vu. apply W.
  - destruct (IH s D H) as (s1 & D1 & e1 & E1 & H1 & X1 & R1 & W1). destruct (Ha s1 D1 H1) as (s2 & D2 & e2 & E2 & H2 & X2 & R2 & W2).
    exists s2, D2, (op e1 e2). split; [|split; [exact H2|split; [|split]]].
    + cbn [from_last]. change ((fix go (l0 : list expr) : call (board * expr) := _) l) with (from_last f op u s l).
      rewrite E1. cbn [cbind fst snd]. rewrite E2. reflexivity.
    + intros z d Hz. auto.
    + auto.
    + intros rho v Ev V. rewrite Vc, olift2_some in Ev. destruct Ev as (x & w & Ex & Ew & ->). destruct (W1 rho w Ew V) as [V1 P1]. destruct (W2 rho x Ex V1) as [V2 P2].
      split; auto. intros rho' A S. apply Vop; [apply P1|apply P2]; auto. eapply ext_sat; eauto.
Qed.

Lemma poly_list z l (P : is_polynomial z (Add l) = true \/ is_polynomial z (Mul l) = true) : Forall (fun e => is_polynomial z e = true) l.
Proof.
  assert (Q : is_scalar_representation z (Add l) = true \/ forallb (is_polynomial z) l = true).
  { destruct P as [P|P]; cbn [is_polynomial] in P; apply orb_true_iff in P; exact P. }
  apply Forall_forall. intros e He. destruct Q as [Q|Q].
  - apply is_scalar_representation_spec in Q. cbn [has] in Q. assert (Z : has z e = false).
    { destruct (has z e) eqn:E; auto. assert (existsb (has z) l = true) by (apply existsb_exists; eauto). congruence. }
    apply is_scalar_representation_spec in Z. destruct e; cbn [is_polynomial]; rewrite Z; auto.
  - rewrite forallb_forall in Q. auto.
Qed.
Lemma poly_scalar z e : is_scalar_representation z e = true -> is_polynomial z e = true.
Proof. destruct e; intros H; unfold is_polynomial; fold is_polynomial; rewrite H; auto. Qed.
Lemma poly_base z a b : is_polynomial z (Pow a b) = true -> is_polynomial z a = true.
Proof.
  cbn [is_polynomial]. rewrite orb_true_iff, andb_true_iff. intros [H|[H _]]; auto. cbn in H. apply andb_true_iff in H as [H _]. now apply poly_scalar.
Qed.
Definition is_function (e : expr) : Prop := match e with Fun _ _ | SumE _ _ _ _ | ProdE _ _ _ _ => True | _ => False end.
Lemma poly_function z e : is_function e -> is_polynomial z e = true -> has z e = false.
Proof.
  intros F P. apply is_scalar_representation_spec. destruct e; try easy; unfold is_polynomial in P; rewrite orb_false_r in P; exact P.
Qed.
Lemma function_good e : is_function e -> clean e -> Forall (fun z => is_polynomial z e = true) y -> good (fun s => if existsb (fun x => has x e) y then Undefined else Done (hide fresh s e)) (fun rho => eval I rho e).
Proof.
  intros F C P. replace (existsb (fun x => has x e) y) with false; [apply hide_good; auto; intros w Hw; rewrite Forall_forall in P; apply poly_function; auto|]. symmetry. clear -F P. induction P as [|z l Hz _ IH]; auto. cbn. now rewrite IH, (poly_function z e F Hz).
Qed.
Lemma clean_in l e : (forall i, existsb (has (fresh i)) l = false) -> In e l -> clean e.
Proof. intros H He i. destruct (has (fresh i) e) eqn:E; auto. rewrite <- (H i). symmetry. apply existsb_exists. eauto. Qed.

Theorem substitute_good e : clean e -> Forall (fun z => is_polynomial z e = true) y -> good (fun s => substitute_critical G fresh y s e) (fun rho => eval I rho e).
Proof.
  destruct KR as (K1 & K2 & K3).
  induction e using expr_ind'; intros C P; cbn [substitute_critical].
  - apply leaf_good; auto. constructor.
  - apply leaf_good; auto. constructor.
  - apply leaf_good; auto. constructor.
  - apply (list_good (substitute_critical G fresh y) (gadd G) (Num 0%Qc) Rplus (fun l rho => eval I rho (Add l)) l); [constructor| | |exact K1| |intros i; reflexivity|].
    + intros rho. rewrite eval_Add. cbn. now rewrite rv_0.
    + intros a l0 rho. rewrite !eval_Add. apply esum_cons.
    + intros rho a b x w Ha Hb. apply (gadd_ok _ _ HG). rewrite eval_Add2, Ha, Hb. cbn. f_equal. lra.
    + rewrite Forall_forall in *. intros e He. apply H; auto.
      * eapply clean_in; eauto.
      * apply Forall_forall. intros z Hz. specialize (P z Hz). pose proof (poly_list z l (or_introl P)) as Q. rewrite Forall_forall in Q. auto.
  - apply (list_good (substitute_critical G fresh y) (gmul G) (Num 1%Qc) Rmult (fun l rho => eval I rho (Mul l)) l); [constructor| | |exact K2| |intros i; reflexivity|].
    + intros rho. rewrite eval_Mul. cbn. now rewrite rv_1.
    + intros a l0 rho. rewrite !eval_Mul. apply eprod_cons.
    + intros rho a b x w Ha Hb. apply (gmul_ok _ _ HG). rewrite eval_Mul2, Ha, Hb. cbn. f_equal. lra.
    + rewrite Forall_forall in *. intros e He. apply H; auto.
      * eapply clean_in; eauto.
      * apply Forall_forall. intros z Hz. specialize (P z Hz). pose proof (poly_list z l (or_intror P)) as Q. rewrite Forall_forall in Q. auto.
  - destruct (int_num e2) eqn:B; cbn [negb].
    2: { apply hide_good; auto. intros w Hw. rewrite Forall_forall in P. specialize (P w Hw). apply is_scalar_representation_spec.
         cbn [is_polynomial] in P. apply orb_true_iff in P as [P|P]; [exact P|]. apply andb_true_iff in P as [_ P]. exfalso. destruct e2; try discriminate. cbn in *. rewrite B in P. discriminate. }
    destruct e2 as [q| | | | | | | |]; try discriminate. cbn [int_num] in B. apply q_is_int_spec in B.
    assert (C1 : clean e1). { intros i. specialize (C i). cbn in C. rewrite orb_false_r in C. exact C. }
    intros s D H. destruct (IHe1 C1) with (s := s) (D := D) as (s1 & D1 & a1 & E1 & H1 & X1 & R1 & W1); auto.
    { eapply Forall_impl; [|exact P]. intros w. apply poly_base. }
    exists s1, D1, (gpow G a1 (Num q)). rewrite E1. cbn [cbind fst snd substitute_critical]. split; [reflexivity|]. split; [exact H1|]. split; [exact X1|]. split; [apply K3; [exact R1|exists (q_int q); exact B]|].
    intros rho v Ev V. cbn [eval] in Ev. destruct (eval I rho e1) as [x|] eqn:Ex; [|discriminate]. destruct (W1 rho x Ex V) as [V1 P1]. split; auto.
    intros rho' A S. apply (gpow_ok _ _ HG). cbn [eval]. rewrite (P1 rho' A S). exact Ev.
  - apply function_good; auto. exact Logic.I.
  - apply function_good; auto. exact Logic.I.
  - apply function_good; auto. exact Logic.I.
Qed.

Theorem hidden_ok x : clean x -> Forall (fun z => is_polynomial z x = true) y ->
  exists b k x1, substitute_critical G fresh y (empty_blackboard, 0) x = Done (b, k, x1) /\ rational_form x1 /\
    forall z d, get_definition b z = Done d -> d <> Sym z -> exists i, i < k /\ z = fresh i /\ forall w, In w y -> has w d = false.
Proof.
  intros C P. destruct (substitute_good x C P (empty_blackboard, 0) (fun _ => None)) as ([b k] & D & x1 & E & [B F] & _ & R & W).
  { split; [apply empty_inv|]. intros; discriminate. }
  exists b, k, x1. split; [exact E|]. split; [exact R|]. intros z d Hd Nd. rewrite (get_inv G b D z B) in Hd. destruct (D z) as [d'|] eqn:Ez; [|congruence].
  injection Hd as ->. destruct (F z d Ez) as ((i & L & ->) & _ & H). exists i. auto.
Qed.
Theorem sqrfree_ok gsq x : clean x -> Forall (fun z => is_polynomial z x = true) y -> factorises I (gsq y) ->
  exists e1 f0, forall f, f0 <= f -> sqrfree G fresh gsq f x y = Done e1 /\ same_value I x e1.
Proof.
  intros C P FA.
  destruct (substitute_good x C P (empty_blackboard, 0) (fun _ => None)) as (s & D & x1 & E & [B F] & _ & R & W).
  { split; [apply empty_inv|]. intros; discriminate. }
  destruct (FA x1 R) as [R2 V2].
  assert (FLAT : forall z d, D z = Some d -> forall k, has k d = true -> D k = None).
  { intros z d Hz k Hk. destruct (D k) as [d'|] eqn:Ek; auto. apply F in Ek as ((i & _ & ->) & _). apply F in Hz as (_ & Cd & _). rewrite Cd in Hk. discriminate. }
  assert (AC : acyclic D). { exists (fun _ => 0). intros z e k Hz Hk Nk. destruct (Nk (FLAT z e Hz k Hk)). }
  destruct (acyclic_expands G D AC (gsq y x1)) as [e1 X].
  destruct (proj1 (rational_expands G D NS I HG FLAT) _ _ X R2) as [N1 V1].
  destruct B as [S1 W1 T1 Iv Eb]. pose proof (proj1 (expands_ext G D (benv (fst s)) (fun z => eq_sym (Eb z))) _ _ X) as X'.
  destruct (proj1 (rw_complete G (index (fst s)) (map rhs (defs (fst s))) (timestamp (fst s)) W1) _ _ X') as (f0 & Hf).
  exists e1, f0. intros f Hle. split.
  - unfold sqrfree. replace (forallb (fun z => is_polynomial z x) y) with true by (symmetry; apply forallb_forall; rewrite Forall_forall in P; auto).
    rewrite E. cbn [cbind fst snd]. destruct (Hf f Hle (defs (fst s)) Iv) as (ds' & _ & E1). unfold rewrite_bb. rewrite E1. reflexivity.
  - intros rho v Ev.
    destruct (W rho v Ev) as [Vd Vx]. { intros z d Hz. discriminate. }
    pose (rho' := fun z => match D z with Some d => match eval I rho d with Some w => w | None => 0%R end | None => rho z end).
    assert (A : agree rho rho').
    { intros z Hz. unfold rho'. destruct (D z) as [d|] eqn:Ez; auto. apply F in Ez as ((i & _ & ->) & _). now destruct (Hz i). }
    assert (S : satisfies I D rho').
    { intros z d Hz. rewrite <- (clean_eval d rho rho') by (auto; apply (F z d Hz)). unfold rho'. rewrite Hz. destruct (Vd z d Hz) as [w Hw]. now rewrite Hw. }
    rewrite (eval_agree I e1 rho rho').
    + apply V1; auto.
    + intros z Hz. apply N1 in Hz. unfold rho'. now rewrite Hz.
Qed.
End S.
