(** Proofs about GiacModel.v. *)
From Coq Require Import ZArith QArith Qcanon Reals List String Bool Lia Lra.
From Verif Require Import Ast ExprModel ExprSpec ExprProofs1 ExprProofs2 ExprProofs3 ExprCases GiacModel GiacSpec.
Import ListNotations.
Local Open Scope list_scope.
Local Open Scope R_scope.
Set Bullet Behavior "Strict Subproofs".

Section Ind.
Variable P : gen -> Prop.
Hypothesis H1 : forall z, P (GInt z).
Hypothesis H2 : forall n d, P n -> P d -> P (GFrac n d).
Hypothesis H3 : forall s, P (GIdnt s).
Hypothesis H4 : forall l, Forall P l -> P (GVec l).
Hypothesis H5 : forall o l, Forall P l -> P (GSymb o (GVec l)).
Hypothesis H6 : forall o a, (forall l, a <> GVec l) -> P a -> P (GSymb o a).
Hypothesis H7 : P GOther.
Fixpoint gen_ind' (g : gen) : P g :=
  let fix go (l : list gen) : Forall P l :=
    match l with [] => Forall_nil _ | a :: l => Forall_cons _ (gen_ind' a) (go l) end in
  match g with
  | GInt z => H1 z
  | GFrac n d => H2 n d (gen_ind' n) (gen_ind' d)
  | GIdnt s => H3 s
  | GVec l => H4 l (go l)
  | GSymb o a =>
    match a as a0 return P a0 -> P (GSymb o a0) with
    | GVec l => fun _ => H5 o l (go l)
    | GInt z => fun h => H6 o (GInt z) ltac:(discriminate) h
    | GFrac n d => fun h => H6 o (GFrac n d) ltac:(discriminate) h
    | GIdnt s => fun h => H6 o (GIdnt s) ltac:(discriminate) h
    | GSymb o' b => fun h => H6 o (GSymb o' b) ltac:(discriminate) h
    | GOther => fun h => H6 o GOther ltac:(discriminate) h
    end (gen_ind' a)
  | GOther => H7
  end.
End Ind.

Section P.
Variable I : interp.
Variable G : ginac.
Hypothesis HG : ginac_ok I G.
Variable ff : string -> option fname.
Variable gt : gen -> gen -> gen.
Notation tb := (translate_back G ff).
Notation gv := (gval I ff).

Fixpoint factors (l : list gen) : option expr :=
  match l with
  | [] => Some (Num 1%Qc)
  | a :: l' => match factors l' with None => None | Some e =>
      match tb a with None => None | Some x => Some (gmul G e x) end end
  end.
Fixpoint terms (l : list gen) : option expr :=
  match l with
  | [] => Some (Num 0%Qc)
  | a :: l' => match terms l' with None => None | Some e =>
      match tb a with None => None | Some x => Some (gadd G e x) end end
  end.
Definition fine (rho : string -> R) (g : gen) : Prop := fits g -> forall v, gv rho g = Some v -> exists e, tb g = Some e /\ eval I rho e = Some v.
Lemma int32 z : (- 2147483648 <= z <= 2147483647)%Z -> is_int32 z = true.
Proof. intros H. unfold is_int32. apply andb_true_iff. split; apply Z.leb_le; lia. Qed.
Lemma int32' z : is_int32 z = true -> (- 2147483648 <= z <= 2147483647)%Z.
Proof. unfold is_int32. intros H. apply andb_true_iff in H as [A B]. apply Z.leb_le in A. apply Z.leb_le in B. lia. Qed.
Lemma factors_ok rho l : Forall (fine rho) l -> fits (GVec l) ->
  forall v, fold_right (fun a acc => olift2 Rmult (gv rho a) acc) (Some 1) l = Some v -> exists e, factors l = Some e /\ eval I rho e = Some v.
Proof.
  induction 1 as [|a l Ha Hl IH]; intros F v E.
  - cbn in E. injection E as <-. eexists. split; [reflexivity|]. cbn [eval]. now rewrite rv_1.
  - cbn [fits fold_right] in F. destruct F as [Fa Fl]. cbn [fold_right] in E. destruct (gv rho a) as [x|] eqn:X; [|discriminate].
    destruct (fold_right _ (Some 1) l) as [y|] eqn:Y; [|discriminate]. cbn in E. injection E as <-.
    destruct (IH Fl _ eq_refl) as (e & E1 & E2). destruct (Ha Fa _ X) as (e' & E3 & E4). cbn [factors]. rewrite E1, E3.
    eexists. split; [reflexivity|]. apply (gmul_ok _ _ HG). rewrite eval_Mul2, E2, E4. cbn. f_equal. ring.
Qed.
Lemma terms_ok rho l : Forall (fine rho) l -> fits (GVec l) ->
  forall v, fold_right (fun a acc => olift2 Rplus (gv rho a) acc) (Some 0) l = Some v -> exists e, terms l = Some e /\ eval I rho e = Some v.
Proof.
  induction 1 as [|a l Ha Hl IH]; intros F v E.
  - cbn in E. injection E as <-. eexists. split; [reflexivity|]. cbn [eval]. now rewrite rv_0.
  - cbn [fits fold_right] in F. destruct F as [Fa Fl]. cbn [fold_right] in E. destruct (gv rho a) as [x|] eqn:X; [|discriminate].
    destruct (fold_right _ (Some 0) l) as [y|] eqn:Y; [|discriminate]. cbn in E. injection E as <-.
    destruct (IH Fl _ eq_refl) as (e & E1 & E2). destruct (Ha Fa _ X) as (e' & E3 & E4). cbn [terms]. rewrite E1, E3.
    eexists. split; [reflexivity|]. apply (gadd_ok _ _ HG). rewrite eval_Add2, E2, E4. cbn. f_equal. ring.
Qed.
Lemma frac_ok a b : b <> 0%Z -> rv (zq a / zq b)%Qc = IZR a / IZR b.
Proof.
  intros B. assert (E : rv (zq a / zq b)%Qc * IZR b = IZR a).
  { rewrite <- (rv_zq b) at 1. rewrite <- rv_mul. rewrite <- (rv_zq a). f_equal. rewrite Qcmult_comm. apply Qcmult_div_r.
    intros C. apply (f_equal rv) in C. rewrite rv_zq, rv_0 in C. apply eq_IZR in C. auto. }
  apply not_0_IZR in B. rewrite <- E. field. exact B.
Qed.
Lemma rpow_inv v : v <> 0 -> rpow v (-1) = Some (/ v).
Proof.
  intros V. unfold rpow. rewrite as_int_IZR. destruct (Req_EM_T v 0) as [C|_]; [contradiction|]. f_equal. unfold powerRZ. change (Pos.to_nat 1) with 1%nat. now rewrite pow_1.
Qed.
Lemma inv_fine rho a : fine rho a -> fine rho (GSymb OInv a).
Proof.
  intros H F v E. cbn [gval] in E. destruct (gv rho a) as [x|] eqn:X; [|discriminate]. cbn [obind] in E.
  destruct (Req_EM_T x 0) as [|NX]; [discriminate|]. injection E as <-. destruct (H F _ X) as (e & E1 & E2).
  cbn [translate_back]. rewrite E1. eexists. split; [reflexivity|]. apply (gpow_ok _ _ HG). cbn [eval]. rewrite E2, rv_zq. cbn [obind]. now apply rpow_inv.
Qed.
Lemma fun_fine rho s a : fine rho a -> fine rho (GSymb (OFun s) a).
Proof.
  intros H F v E. cbn [gval] in E. cbn [translate_back]. destruct (ff s) as [f|]; [|discriminate].
  destruct (gv rho a) as [x|] eqn:X; [|discriminate]. cbn [obind] in E. destruct (H F _ X) as (e & E1 & E2). rewrite E1.
  eexists. split; [reflexivity|]. apply (gfun_ok _ _ HG). cbn [eval omap]. rewrite E2. exact E.
Qed.
Theorem back_ok rho g : fine rho g.
Proof.
  induction g as [z|n d _ _|s|l _|o l IH|o a NV IH|] using gen_ind'; intros F v E.
  - cbn in E. injection E as <-. cbn in *. rewrite int32 by exact F. eexists. split; [reflexivity|]. cbn [eval]. now rewrite rv_zq.
  - cbn in *. destruct n as [x| | | | |]; try discriminate. destruct d as [y| | | | |]; try discriminate. destruct F as [F1 F2].
    destruct (Z.eqb y 0) eqn:Y; [discriminate|]. injection E as <-. cbn in F1, F2. rewrite !int32 by assumption. cbn [andb negb].
    eexists. split; [reflexivity|]. cbn [eval]. apply Z.eqb_neq in Y. now rewrite frac_ok.
  - cbn in *. injection E as <-. eexists. split; reflexivity.
  - discriminate.
  - destruct o as [| | | |s].
    + destruct F as [_ F]. exact (factors_ok rho l IH F v E).
    + destruct F as [_ F]. exact (terms_ok rho l IH F v E).
    + discriminate.
    + cbn [gval] in E. destruct l as [|a [|b [|c l]]]; try discriminate. inversion IH as [|? ? Ha IH']; subst. inversion IH' as [|? ? Hb _]; subst.
      cbn [fits fold_right] in F. destruct F as (Fa & Fb & _). destruct (gv rho a) as [x|] eqn:X; [|discriminate]. cbn [obind] in E.
      destruct (gv rho b) as [y|] eqn:Y; [|discriminate]. cbn [obind] in E. destruct (Ha Fa _ X) as (ea & A1 & A2). destruct (Hb Fb _ Y) as (eb & B1 & B2).
      cbn [translate_back]. rewrite A1, B1. eexists. split; [reflexivity|]. apply (gpow_ok _ _ HG). cbn [eval]. rewrite A2, B2. exact E.
    + cbn [gval] in E. destruct (ff s); discriminate.
  - destruct o as [| | | |s].
    + destruct F as [(l & ->) _]. destruct (NV l eq_refl).
    + destruct F as [(l & ->) _]. destruct (NV l eq_refl).
    + exact (inv_fine rho a IH F v E).
    + cbn [gval] in E. destruct a as [| | |l| |]; try discriminate. destruct (NV l eq_refl).
    + exact (fun_fine rho s a IH F v E).
  - discriminate.
Qed.

(** * The numeric factors *)
Hypothesis HT : times_ok I ff gt.
Lemma split_vector_ok rho l : forall v, fold_right (fun a acc => olift2 Rmult (gv rho a) acc) (Some 1) l = Some v ->
  exists x y, gv rho (fst (split_vector gt l)) = Some x /\ gv rho (snd (split_vector gt l)) = Some y /\ x * y = v.
Proof.
  induction l as [|a l IH]; intros v E.
  - cbn in E. injection E as <-. exists 1, 1. split; [reflexivity|]. split; [reflexivity|]. ring.
  - cbn [fold_right] in E. destruct (gv rho a) as [u|] eqn:U; [|discriminate]. destruct (fold_right _ (Some 1) l) as [w|] eqn:W; [|discriminate].
    cbn in E. injection E as <-. destruct (IH _ eq_refl) as (x & y & X & Y & <-). cbn [split_vector]. destruct (split_vector gt l) as [p q]. cbn [fst snd] in X, Y.
    destruct (is_numeric_factor a); cbn [fst snd].
    + exists (x * u), y. split; [now apply HT|]. split; [exact Y|]. ring.
    + exists x, (y * u). split; [exact X|]. split; [now apply HT|]. ring.
Qed.
Theorem split_ok rho g v : (forall a, g = GSymb OProd a -> exists l, a = GVec l) -> gv rho g = Some v ->
  exists x y, gv rho (fst (split_factors gt g)) = Some x /\ gv rho (snd (split_factors gt g)) = Some y /\ x * y = v.
Proof.
  intros PV E.
  assert (D : (exists x y, gv rho (fst (if is_numeric_factor g then (gt (GInt 1) g, GInt 1) else (GInt 1, gt (GInt 1) g))) = Some x /\
    gv rho (snd (if is_numeric_factor g then (gt (GInt 1) g, GInt 1) else (GInt 1, gt (GInt 1) g))) = Some y /\ x * y = v)).
  { assert (O1 : gv rho (GInt 1) = Some 1) by reflexivity. destruct (is_numeric_factor g); cbn [fst snd].
    - exists (1 * v), 1. split; [now apply HT|]. split; [exact O1|]. ring.
    - exists 1, (1 * v). split; [exact O1|]. split; [now apply HT|]. ring. }
  destruct g as [z|n d|s|l|o a|]; try exact D. destruct o; try exact D.
  destruct (PV a eq_refl) as (l & ->). exact (split_vector_ok rho l v E).
Qed.
Theorem factors_value rho g v n p : (forall a, g = GSymb OProd a -> exists l, a = GVec l) ->
  fits (fst (split_factors gt g)) -> fits (snd (split_factors gt g)) -> gv rho g = Some v ->
  factors_of G ff gt g = (n, p) -> exists e f x y, n = Some e /\ p = Some f /\ eval I rho e = Some x /\ eval I rho f = Some y /\ x * y = v.
Proof.
  intros PV F1 F2 E H. destruct (split_ok rho g v PV E) as (x & y & X & Y & M). unfold factors_of in H. injection H as <- <-.
  destruct (back_ok rho _ F1 _ X) as (e & E1 & E2). destruct (back_ok rho _ F2 _ Y) as (f & E3 & E4). exists e, f, x, y. repeat (split; [assumption|]). exact M.
Qed.
(** Without inverses the numeric part is a number. *)
Lemma const_value a : is_numeric_factor a = true -> (forall b, a <> GSymb OInv b) -> forall rho u, gv rho a = Some u -> forall rho', gv rho' a = Some u.
Proof.
  intros N NI rho u E rho'. destruct a as [z|n d|s|l|o b|]; try discriminate.
  - exact E.
  - cbn in *. destruct n; try discriminate. destruct d; try discriminate. exact E.
  - destruct o; try discriminate. destruct (NI b eq_refl).
Qed.
Theorem numeric_part rho g v : no_inverse g -> (forall a, g = GSymb OProd a -> exists l, a = GVec l) -> gv rho g = Some v ->
  exists r, forall rho', gv rho' (fst (split_factors gt g)) = Some r.
Proof.
  intros NI PV E. assert (O1 : forall rho', gv rho' (GInt 1) = Some 1) by reflexivity.
  assert (D : (forall b, g <> GSymb OInv b) -> exists r, forall rho', gv rho' (fst (if is_numeric_factor g then (gt (GInt 1) g, GInt 1) else (GInt 1, gt (GInt 1) g))) = Some r).
  { intros N. destruct (is_numeric_factor g) eqn:Q; cbn [fst].
    - exists (1 * v). intros rho'. apply HT; [reflexivity|]. exact (const_value g Q N rho v E rho').
    - exists 1. exact O1. }
  assert (V : forall l, (forall a, ~ In (GSymb OInv a) l) -> forall v, fold_right (fun a acc => olift2 Rmult (gv rho a) acc) (Some 1) l = Some v ->
    exists r, forall rho', gv rho' (fst (split_vector gt l)) = Some r).
  { induction l as [|a l IH]; intros NV w W.
    - exists 1. exact O1.
    - cbn [fold_right] in W. destruct (gv rho a) as [u|] eqn:U; [|discriminate]. destruct (fold_right _ (Some 1) l) as [t|] eqn:T; [|discriminate].
      destruct (IH (fun b h => NV b (or_intror h)) _ eq_refl) as (r & Hr). cbn [split_vector]. destruct (split_vector gt l) as [p q]. cbn [fst] in Hr.
      destruct (is_numeric_factor a) eqn:Q; cbn [fst].
      + exists (r * u). intros rho'. apply HT; [apply Hr|]. apply (const_value a Q) with (rho := rho); auto. intros b ->. exact (NV b (or_introl eq_refl)).
      + exists r. exact Hr. }
  destruct g as [z|n d|s|l|o a|]; try (apply D; discriminate). destruct o; try (apply D; discriminate).
  - destruct (PV a eq_refl) as (l & ->). exact (V l NI v E).
  - destruct NI.
Qed.
End P.
