(** Expressions as handled by PURRS (class Expr, a wrapper of GiNaC::ex: src/Expr.defs.hh,
    src/Expr.inlines.hh) and their values.
    Simplifications: numbers are rational (GiNaC also has floating point and complex ones);
    GiNaC's automatic canonicalisation is represented by the constructors of [ginac], about
    which only value preservation is ever assumed; expression lists are omitted. *)
From Coq Require Import ZArith QArith Qcanon Qreals Reals List String Bool Lia Lra.
Import ListNotations.

(** Functors (Expr.inlines.hh: is_the_x_function, is_the_log_function, ...). *)
Inductive fname :=
  FX | FFloor | FSc | FMod | FBinom | FFact | FLog | FExp | FSin | FCos | FTan | FMax | FMin | FOther (s : string).

(** is_a_number / is_a_constant / is_a_symbol / is_a_add / is_a_mul / is_a_power /
    is_a_function; the functions sum and prod, which bind their first argument, are apart. *)
Inductive expr :=
  | Num (q : Qc)
  | Cst (c : string)
  | Sym (s : string)
  | Add (l : list expr)
  | Mul (l : list expr)
  | Pow (a b : expr)
  | Fun (f : fname) (l : list expr)
  | SumE (k : string) (lo up e : expr)
  | ProdE (k : string) (lo up e : expr).

Section Ind.
Variable P : expr -> Prop.
Hypothesis HNum : forall q, P (Num q).
Hypothesis HCst : forall c, P (Cst c).
Hypothesis HSym : forall s, P (Sym s).
Hypothesis HAdd : forall l, Forall P l -> P (Add l).
Hypothesis HMul : forall l, Forall P l -> P (Mul l).
Hypothesis HPow : forall a b, P a -> P b -> P (Pow a b).
Hypothesis HFun : forall f l, Forall P l -> P (Fun f l).
Hypothesis HSum : forall k lo up e, P lo -> P up -> P e -> P (SumE k lo up e).
Hypothesis HProd : forall k lo up e, P lo -> P up -> P e -> P (ProdE k lo up e).
Fixpoint expr_ind' (e : expr) : P e :=
  let fix go (l : list expr) : Forall P l :=
    match l with [] => Forall_nil _ | a :: l => Forall_cons _ (expr_ind' a) (go l) end in
  match e with
  | Num q => HNum q | Cst c => HCst c | Sym s => HSym s
  | Add l => HAdd l (go l) | Mul l => HMul l (go l)
  | Pow a b => HPow a b (expr_ind' a) (expr_ind' b)
  | Fun f l => HFun f l (go l)
  | SumE k lo up e => HSum k lo up e (expr_ind' lo) (expr_ind' up) (expr_ind' e)
  | ProdE k lo up e => HProd k lo up e (expr_ind' lo) (expr_ind' up) (expr_ind' e)
  end.
End Ind.

Definition fname_eqb (f g : fname) : bool :=
  match f, g with
  | FX, FX | FFloor, FFloor | FSc, FSc | FMod, FMod | FBinom, FBinom | FFact, FFact | FLog, FLog
  | FExp, FExp | FSin, FSin | FCos, FCos | FTan, FTan | FMax, FMax | FMin, FMin => true
  | FOther s, FOther t => String.eqb s t
  | _, _ => false
  end.
Lemma fname_eqb_eq f g : fname_eqb f g = true <-> f = g.
Proof. destruct f, g; cbn; try (split; [discriminate|congruence]); try tauto. rewrite String.eqb_eq. split; congruence. Qed.

Definition Qc_eqb (a b : Qc) : bool := if Qc_eq_dec a b then true else false.
Lemma Qc_eqb_eq a b : Qc_eqb a b = true <-> a = b.
Proof. unfold Qc_eqb. destruct (Qc_eq_dec a b); split; congruence. Qed.

(** operator== on expressions: structural equality. *)
Fixpoint expr_eqb (a b : expr) : bool :=
  let fix go (l m : list expr) : bool :=
    match l, m with [], [] => true | x :: l, y :: m => expr_eqb x y && go l m | _, _ => false end in
  match a, b with
  | Num p, Num q => Qc_eqb p q
  | Cst c, Cst d => String.eqb c d
  | Sym s, Sym t => String.eqb s t
  | Add l, Add m => go l m
  | Mul l, Mul m => go l m
  | Pow x y, Pow z w => expr_eqb x z && expr_eqb y w
  | Fun f l, Fun g m => fname_eqb f g && go l m
  | SumE k lo up e, SumE k' lo' up' e' => String.eqb k k' && expr_eqb lo lo' && expr_eqb up up' && expr_eqb e e'
  | ProdE k lo up e, ProdE k' lo' up' e' => String.eqb k k' && expr_eqb lo lo' && expr_eqb up up' && expr_eqb e e'
  | _, _ => false
  end.
Lemma expr_eqb_eq a b : expr_eqb a b = true <-> a = b.
Proof.
  revert b. induction a using expr_ind'; intros b; destruct b; cbn [expr_eqb]; try (split; [discriminate|congruence]).
  - rewrite Qc_eqb_eq. split; congruence.
  - rewrite String.eqb_eq. split; congruence.
  - rewrite String.eqb_eq. split; congruence.
  - transitivity (l = l0); [|split; congruence]. revert l0. induction H as [|x l Hx Hl IH]; intros [|y m];
      try (split; [discriminate|congruence]); [tauto|]. rewrite andb_true_iff, Hx, IH. split; [intros [-> ->]; auto|intros E; injection E; auto].
  - transitivity (l = l0); [|split; congruence]. revert l0. induction H as [|x l Hx Hl IH]; intros [|y m];
      try (split; [discriminate|congruence]); [tauto|]. rewrite andb_true_iff, Hx, IH. split; [intros [-> ->]; auto|intros E; injection E; auto].
  - rewrite andb_true_iff, IHa1, IHa2. split; [intros [-> ->]; auto|intros E; injection E; auto].
  - rewrite andb_true_iff, fname_eqb_eq. transitivity (f = f0 /\ l = l0); [|split; [intros [-> ->]; auto|intros E; injection E; auto]].
    assert (E : forall l0, (fix go (l m : list expr) : bool := match l, m with [], [] => true | x :: l, y :: m => expr_eqb x y && go l m | _, _ => false end) l l0 = true <-> l = l0).
    { induction H as [|x l Hx Hl IH]; intros [|y m];
      try (split; [discriminate|congruence]); [tauto|]. rewrite andb_true_iff, Hx, IH. split; [intros [-> ->]; auto|intros E; injection E; auto]. }
    rewrite E. tauto.
  - rewrite !andb_true_iff, String.eqb_eq, IHa1, IHa2, IHa3. split; [intros [[[-> ->] ->] ->]; auto|intros E; injection E; auto].
  - rewrite !andb_true_iff, String.eqb_eq, IHa1, IHa2, IHa3. split; [intros [[[-> ->] ->] ->]; auto|intros E; injection E; auto].
Qed.
Lemma expr_eqb_refl a : expr_eqb a a = true. Proof. now apply expr_eqb_eq. Qed.

(** nops() and op(i)/arg(i). *)
Definition ops (e : expr) : list expr :=
  match e with
  | Add l | Mul l | Fun _ l => l
  | Pow a b => [a; b]
  | SumE k lo up e | ProdE k lo up e => [Sym k; lo; up; e]
  | _ => []
  end.

(** GiNaC's ex::has(symbol): occurrence, bound or not. *)
Fixpoint has (s : string) (e : expr) : bool :=
  match e with
  | Num _ | Cst _ => false
  | Sym t => String.eqb s t
  | Add l | Mul l | Fun _ l => existsb (has s) l
  | Pow a b => has s a || has s b
  | SumE k lo up e | ProdE k lo up e => String.eqb s k || has s lo || has s up || has s e
  end.

(** * Values *)
Local Open Scope R_scope.

Definition as_int (v : R) : option Z := let z := Int_part v in if Req_EM_T (IZR z) v then Some z else None.
Lemma as_int_spec v z : as_int v = Some z <-> v = IZR z.
Proof.
  unfold as_int. destruct (Req_EM_T (IZR (Int_part v)) v) as [E|E]; split; intros H.
  - injection H as <-. auto.
  - f_equal. apply eq_IZR. congruence.
  - discriminate.
  - exfalso. apply E. rewrite H. f_equal. unfold Int_part.
    assert (U : up (IZR z) = (z + 1)%Z).
    { symmetry. apply tech_up; rewrite plus_IZR; lra. }
    rewrite U. lia.
Qed.
Lemma as_int_IZR z : as_int (IZR z) = Some z. Proof. now apply as_int_spec. Qed.

(** Real powers: integer exponents for any base (nonzero if negative), others for base > 0;
    0^b = 0 for b > 0. *)
Definition rpow (a b : R) : option R :=
  match as_int b with
  | Some z => if Req_EM_T a 0 then (if Z.ltb z 0 then None else Some (powerRZ a z)) else Some (powerRZ a z)
  | None => if Rlt_dec 0 a then Some (Rpower a b)
            else if Req_EM_T a 0 then (if Rlt_dec 0 b then Some 0 else None) else None
  end.

Definition obind {A B} (o : option A) (f : A -> option B) : option B := match o with Some a => f a | None => None end.
Definition olift2 (f : R -> R -> R) (a b : option R) : option R :=
  match a, b with Some x, Some y => Some (f x y) | _, _ => None end.
Fixpoint osum (n : nat) (f : nat -> option R) : option R :=
  match n with O => Some 0 | S m => olift2 Rplus (osum m f) (f m) end.
Fixpoint oprod (n : nat) (f : nat -> option R) : option R :=
  match n with O => Some 1 | S m => olift2 Rmult (oprod m f) (f m) end.
Definition omap {A} (f : A -> option R) : list A -> option (list R) :=
  fix go l := match l with
  | [] => Some []
  | a :: l => match f a, go l with Some v, Some vs => Some (v :: vs) | _, _ => None end
  end.

(** Interpretation of the constants (Pi, ...) and of the functors, partial. *)
Record interp := MkI { icst : string -> R; ifun : fname -> list R -> option R }.
Definition upd (rho : string -> R) (k : string) (v : R) : string -> R :=
  fun s => if String.eqb s k then v else rho s.
Definition rv (q : Qc) : R := Q2R (this q).

Section Eval.
Variable I : interp.
Fixpoint eval (rho : string -> R) (e : expr) {struct e} : option R :=
  match e with
  | Num q => Some (rv q)
  | Cst c => Some (icst I c)
  | Sym s => Some (rho s)
  | Add l => fold_right (fun a acc => olift2 Rplus (eval rho a) acc) (Some 0) l
  | Mul l => fold_right (fun a acc => olift2 Rmult (eval rho a) acc) (Some 1) l
  | Pow a b => obind (eval rho a) (fun x => obind (eval rho b) (rpow x))
  | Fun f l => obind (omap (eval rho) l) (ifun I f)
  | SumE k lo up e =>
    obind (eval rho lo) (fun a => obind (eval rho up) (fun b =>
    obind (as_int a) (fun za => obind (as_int b) (fun zb =>
    osum (Z.to_nat (zb - za + 1)) (fun i => eval (upd rho k (IZR (za + Z.of_nat i))) e)))))
  | ProdE k lo up e =>
    obind (eval rho lo) (fun a => obind (eval rho up) (fun b =>
    obind (as_int a) (fun za => obind (as_int b) (fun zb =>
    oprod (Z.to_nat (zb - za + 1)) (fun i => eval (upd rho k (IZR (za + Z.of_nat i))) e)))))
  end.
(** [e'] has the value of [e] wherever [e] has one. *)
Definition refines (e e' : expr) : Prop := forall rho v, eval rho e = Some v -> eval rho e' = Some v.
End Eval.

(** Constructors as offered by GiNaC (operators +, *, pwr, apply, unevaluated sum/prod). *)
Record ginac := MkG {
  gadd : expr -> expr -> expr;
  gmul : expr -> expr -> expr;
  gpow : expr -> expr -> expr;
  gfun : fname -> list expr -> expr;
  gsum : string -> expr -> expr -> expr -> expr;
  gprod : string -> expr -> expr -> expr -> expr }.
(** The only thing assumed about them: they preserve values. *)
Record ginac_ok (I : interp) (G : ginac) : Prop := MkGok {
  gadd_ok : forall a b, refines I (Add [a; b]) (gadd G a b);
  gmul_ok : forall a b, refines I (Mul [a; b]) (gmul G a b);
  gpow_ok : forall a b, refines I (Pow a b) (gpow G a b);
  gfun_ok : forall f l, refines I (Fun f l) (gfun G f l);
  gsum_ok : forall k lo up e, refines I (SumE k lo up e) (gsum G k lo up e);
  gprod_ok : forall k lo up e, refines I (ProdE k lo up e) (gprod G k lo up e) }.

(** An instance: flattening of nested sums and products, arithmetic on numbers, neutral elements. *)
Definition is_num (q : Qc) (e : expr) : bool := match e with Num p => Qc_eqb p q | _ => false end.
Definition ops_add (e : expr) : list expr := match e with Add l => l | _ => [e] end.
Definition ops_mul (e : expr) : list expr := match e with Mul l => l | _ => [e] end.
Definition G0 : ginac := MkG
  (fun a b => match a, b with
     | Num p, Num q => Num (p + q)%Qc
     | _, _ => if is_num 0%Qc a then b else if is_num 0%Qc b then a else Add (ops_add a ++ ops_add b)
     end)
  (fun a b => match a, b with
     | Num p, Num q => Num (p * q)%Qc
     | _, _ => if is_num 1%Qc a then b else if is_num 1%Qc b then a else Mul (ops_mul a ++ ops_mul b)
     end)
  Pow Fun SumE ProdE.

(** * Basic lemmas *)
Lemma rv_add p q : rv (p + q)%Qc = rv p + rv q.
Proof. unfold rv. rewrite <- Q2R_plus. unfold Qcplus, Q2Qc, this at 1. apply Qeq_eqR, Qred_correct. Qed.
Lemma rv_mul p q : rv (p * q)%Qc = rv p * rv q.
Proof. unfold rv. rewrite <- Q2R_mult. unfold Qcmult, Q2Qc, this at 1. apply Qeq_eqR, Qred_correct. Qed.
Lemma rv_opp p : rv (- p)%Qc = - rv p.
Proof. unfold rv. rewrite <- Q2R_opp. unfold Qcopp, Q2Qc, this at 1. apply Qeq_eqR, Qred_correct. Qed.
Lemma rv_sub p q : rv (p - q)%Qc = rv p - rv q.
Proof. unfold Qcminus. rewrite rv_add, rv_opp. reflexivity. Qed.
Lemma rv_0 : rv 0%Qc = 0. Proof. unfold rv. cbn. apply RMicromega.Q2R_0. Qed.
Lemma rv_1 : rv 1%Qc = 1. Proof. unfold rv. cbn. apply RMicromega.Q2R_1. Qed.
Lemma rv_inj p q : rv p = rv q -> p = q.
Proof. intros H. apply Qc_is_canon, eqR_Qeq, H. Qed.
Lemma rv_lt p q : rv p < rv q <-> (p < q)%Qc.
Proof. unfold rv, Qclt. split; [apply Rlt_Qlt|apply Qlt_Rlt]. Qed.
Lemma rv_le p q : rv p <= rv q <-> (p <= q)%Qc.
Proof. unfold rv, Qcle. split; [apply Rle_Qle|apply Qle_Rle]. Qed.
Definition zq (z : Z) : Qc := Q2Qc (inject_Z z).
Lemma rv_zq z : rv (zq z) = IZR z.
Proof. unfold rv, zq, Q2Qc, this. rewrite (Qeq_eqR _ _ (Qred_correct _)). unfold Q2R. cbn. lra. Qed.

Definition esum I rho (l : list expr) := fold_right (fun a acc => olift2 Rplus (eval I rho a) acc) (Some 0) l.
Definition eprod I rho (l : list expr) := fold_right (fun a acc => olift2 Rmult (eval I rho a) acc) (Some 1) l.
Lemma olift2_some f a b v : olift2 f a b = Some v <-> exists x y, a = Some x /\ b = Some y /\ v = f x y.
Proof.
  destruct a as [x|], b as [y|]; cbn; split; intros H; try discriminate; try (destruct H as (?&?&?&?&?); discriminate).
  - injection H as <-. eauto.
  - destruct H as (x' & y' & [= ->] & [= ->] & ->). auto.
Qed.
Lemma esum_cons I rho a l : esum I rho (a :: l) = olift2 Rplus (eval I rho a) (esum I rho l). Proof. reflexivity. Qed.
Lemma eprod_cons I rho a l : eprod I rho (a :: l) = olift2 Rmult (eval I rho a) (eprod I rho l). Proof. reflexivity. Qed.
Lemma esum_nil I rho : esum I rho [] = Some 0. Proof. reflexivity. Qed.
Lemma eprod_nil I rho : eprod I rho [] = Some 1. Proof. reflexivity. Qed.
Lemma esum_app I rho l m : esum I rho (l ++ m) = olift2 Rplus (esum I rho l) (esum I rho m).
Proof.
  induction l as [|a l IH]; cbn [app].
  - rewrite esum_nil. unfold olift2. destruct (esum I rho m); auto. f_equal. lra.
  - rewrite !esum_cons, IH.
    destruct (eval I rho a), (esum I rho l), (esum I rho m); cbn; auto. f_equal. lra.
Qed.
Lemma eprod_app I rho l m : eprod I rho (l ++ m) = olift2 Rmult (eprod I rho l) (eprod I rho m).
Proof.
  induction l as [|a l IH]; cbn [app].
  - rewrite eprod_nil. unfold olift2. destruct (eprod I rho m); auto. f_equal. lra.
  - rewrite !eprod_cons, IH.
    destruct (eval I rho a), (eprod I rho l), (eprod I rho m); cbn; auto. f_equal. lra.
Qed.
Lemma eval_Add I rho l : eval I rho (Add l) = esum I rho l. Proof. reflexivity. Qed.
Lemma eval_Mul I rho l : eval I rho (Mul l) = eprod I rho l. Proof. reflexivity. Qed.
Lemma esum_1 I rho e : esum I rho [e] = eval I rho e.
Proof. unfold esum, fold_right, olift2. destruct (eval I rho e); auto. f_equal. lra. Qed.
Lemma eprod_1 I rho e : eprod I rho [e] = eval I rho e.
Proof. unfold eprod, fold_right, olift2. destruct (eval I rho e); auto. f_equal. lra. Qed.
Lemma esum_ops I rho e : esum I rho (ops_add e) = eval I rho e.
Proof. destruct e; try apply esum_1. reflexivity. Qed.
Lemma eprod_ops I rho e : eprod I rho (ops_mul e) = eval I rho e.
Proof. destruct e; try apply eprod_1. reflexivity. Qed.
Lemma eval_Add2 I rho a b : eval I rho (Add [a; b]) = olift2 Rplus (eval I rho a) (eval I rho b).
Proof. cbn [eval fold_right]. destruct (eval I rho a), (eval I rho b); cbn; auto. f_equal. lra. Qed.
Lemma eval_Mul2 I rho a b : eval I rho (Mul [a; b]) = olift2 Rmult (eval I rho a) (eval I rho b).
Proof. cbn [eval fold_right]. destruct (eval I rho a), (eval I rho b); cbn; auto. f_equal. lra. Qed.
Lemma is_num_eq q e : is_num q e = true <-> e = Num q.
Proof. destruct e; cbn; try (split; discriminate). rewrite Qc_eqb_eq. split; congruence. Qed.

Lemma gadd_val I G : ginac_ok I G -> forall rho a b x y, eval I rho a = Some x -> eval I rho b = Some y ->
  eval I rho (gadd G a b) = Some (x + y).
Proof. intros HG rho a b x y Ha Hb. apply (gadd_ok _ _ HG). rewrite eval_Add2, Ha, Hb. reflexivity. Qed.
Lemma gmul_val I G : ginac_ok I G -> forall rho a b x y, eval I rho a = Some x -> eval I rho b = Some y ->
  eval I rho (gmul G a b) = Some (x * y).
Proof. intros HG rho a b x y Ha Hb. apply (gmul_ok _ _ HG). rewrite eval_Mul2, Ha, Hb. reflexivity. Qed.
Lemma gpow_val I G : ginac_ok I G -> forall rho a b x y v, eval I rho a = Some x -> eval I rho b = Some y ->
  rpow x y = Some v -> eval I rho (gpow G a b) = Some v.
Proof. intros HG rho a b x y v Ha Hb E. apply (gpow_ok _ _ HG). cbn [eval]. rewrite Ha, Hb. exact E. Qed.

Lemma G0_ok I : ginac_ok I G0.
Proof.
  split.
  - intros a b rho v H. rewrite eval_Add2 in H. cbn [G0 gadd].
    assert (K : eval I rho (if is_num 0%Qc a then b else if is_num 0%Qc b then a else Add (ops_add a ++ ops_add b)) = Some v).
    { destruct (is_num 0%Qc a) eqn:Ea; [|destruct (is_num 0%Qc b) eqn:Eb].
      - apply is_num_eq in Ea. subst a. apply olift2_some in H as (x & y & Hx & Hy & ->). cbn in Hx.
        injection Hx as <-. rewrite rv_0, Rplus_0_l. auto.
      - apply is_num_eq in Eb. subst b. apply olift2_some in H as (x & y & Hx & Hy & ->). cbn in Hy.
        injection Hy as <-. rewrite rv_0, Rplus_0_r. auto.
      - rewrite eval_Add, esum_app, !esum_ops. auto. }
    destruct a, b; auto. cbn in H |- *. rewrite rv_add. auto.
  - intros a b rho v H. rewrite eval_Mul2 in H. cbn [G0 gmul].
    assert (K : eval I rho (if is_num 1%Qc a then b else if is_num 1%Qc b then a else Mul (ops_mul a ++ ops_mul b)) = Some v).
    { destruct (is_num 1%Qc a) eqn:Ea; [|destruct (is_num 1%Qc b) eqn:Eb].
      - apply is_num_eq in Ea. subst a. apply olift2_some in H as (x & y & Hx & Hy & ->). cbn in Hx.
        injection Hx as <-. rewrite rv_1, Rmult_1_l. auto.
      - apply is_num_eq in Eb. subst b. apply olift2_some in H as (x & y & Hx & Hy & ->). cbn in Hy.
        injection Hy as <-. rewrite rv_1, Rmult_1_r. auto.
      - rewrite eval_Mul, eprod_app, !eprod_ops. auto. }
    destruct a, b; auto. cbn in H |- *. rewrite rv_mul. auto.
  - intros a b rho v H. exact H.
  - intros f l rho v H. exact H.
  - intros k lo up e rho v H. exact H.
  - intros k lo up e rho v H. exact H.
Qed.

(** Values do not depend on symbols that do not occur. *)
Lemma osum_ext n f g : (forall i, (i < n)%nat -> f i = g i) -> osum n f = osum n g.
Proof. induction n; cbn; intros H; auto. rewrite IHn, H by (auto; lia). reflexivity. Qed.
Lemma oprod_ext n f g : (forall i, (i < n)%nat -> f i = g i) -> oprod n f = oprod n g.
Proof. induction n; cbn; intros H; auto. rewrite IHn, H by (auto; lia). reflexivity. Qed.
Lemma omap_ext {A} (f g : A -> option R) l : Forall (fun a => f a = g a) l -> omap f l = omap g l.
Proof. induction 1 as [|a l E _ IH]; cbn; auto. rewrite E. fold (omap f l) (omap g l). rewrite IH. reflexivity. Qed.
Lemma eval_agree I e : forall rho rho', (forall s, has s e = true -> rho s = rho' s) -> eval I rho e = eval I rho' e.
Proof.
  induction e using expr_ind'; intros rho rho' A; cbn [eval has] in *; auto.
  - rewrite A; auto. apply String.eqb_refl.
  - induction H as [|a l Ha Hl IH]; auto. cbn [fold_right existsb] in *. rewrite (Ha rho rho'), IH; auto;
      intros s Hs; apply A; rewrite Hs; auto using orb_true_r.
  - induction H as [|a l Ha Hl IH]; auto. cbn [fold_right existsb] in *. rewrite (Ha rho rho'), IH; auto;
      intros s Hs; apply A; rewrite Hs; auto using orb_true_r.
  - rewrite (IHe1 rho rho'), (IHe2 rho rho'); auto; intros s Hs; apply A; rewrite Hs; auto using orb_true_r.
  - f_equal. apply omap_ext. apply Forall_forall. intros a Ha. rewrite Forall_forall in H. apply H; auto.
    intros s Hs. apply A. apply existsb_exists. eauto.
  - rewrite (IHe1 rho rho'), (IHe2 rho rho'); try (intros s Hs; apply A; rewrite Hs; rewrite ?orb_true_r; auto; fail).
    destruct (eval I rho' e1); cbn; auto. destruct (eval I rho' e2); cbn; auto.
    destruct (as_int r); cbn; auto. destruct (as_int r0); cbn; auto.
    apply osum_ext. intros i _. apply IHe3. intros s Hs. unfold upd. destruct (String.eqb s k); auto.
    apply A. rewrite Hs. rewrite ?orb_true_r; auto.
  - rewrite (IHe1 rho rho'), (IHe2 rho rho'); try (intros s Hs; apply A; rewrite Hs; rewrite ?orb_true_r; auto; fail).
    destruct (eval I rho' e1); cbn; auto. destruct (eval I rho' e2); cbn; auto.
    destruct (as_int r); cbn; auto. destruct (as_int r0); cbn; auto.
    apply oprod_ext. intros i _. apply IHe3. intros s Hs. unfold upd. destruct (String.eqb s k); auto.
    apply A. rewrite Hs. rewrite ?orb_true_r; auto.
Qed.
Lemma eval_upd_fresh I rho k v e : has k e = false -> eval I (upd rho k v) e = eval I rho e.
Proof.
  intros H. apply eval_agree. intros s Hs. unfold upd. destruct (String.eqb s k) eqn:E; auto.
  apply String.eqb_eq in E. congruence.
Qed.
