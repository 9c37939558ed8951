(** Proofs about XargModel.v. *)
From Coq Require Import ZArith QArith Qcanon Reals List String Bool Lia Lra.
From Verif Require Import Ast ExprModel ExprSpec ExprProofs1 ExprProofs2 ExprProofs3 ExprCases SrchSpec SrchProofs XargModel.
Import ListNotations.
Local Open Scope string_scope.
Local Open Scope list_scope.
Local Open Scope R_scope.
Set Bullet Behavior "Strict Subproofs".

Section L.
Variables I1 I2 : interp.
Hypothesis HC : forall c, icst I1 c = icst I2 c.
Hypothesis HF : forall f l, f <> FX -> ifun I1 f l = ifun I2 f l.
Variable G : ginac.
Hypothesis HG : ginac_ok I2 G.
Variable h : expr -> expr.
Variable ok : expr -> Prop.
Hypothesis HX : forall a rho v, ok a -> eval I1 rho (Fun FX [a]) = Some v -> eval I2 rho (gfun G FX [h a]) = Some v.
Definition moves (e : expr) : Prop := forall rho v, eval I1 rho e = Some v -> eval I2 rho (on_x G h e) = Some v.
Lemma esum2 rho l v : Forall moves l -> esum I1 rho l = Some v -> esum I2 rho (map (on_x G h) l) = Some v.
Proof.
  intros F. revert v. induction F as [|a l Ha Hl IH]; intros v E; [exact E|]. cbn [map]. rewrite esum_cons in *.
  destruct (eval I1 rho a) as [x|] eqn:X; [|discriminate]. destruct (esum I1 rho l) as [y|]; [|discriminate]. rewrite (Ha rho x X), (IH y eq_refl). exact E.
Qed.
Lemma eprod2 rho l v : Forall moves l -> eprod I1 rho l = Some v -> eprod I2 rho (map (on_x G h) l) = Some v.
Proof.
  intros F. revert v. induction F as [|a l Ha Hl IH]; intros v E; [exact E|]. cbn [map]. rewrite eprod_cons in *.
  destruct (eval I1 rho a) as [x|] eqn:X; [|discriminate]. destruct (eprod I1 rho l) as [y|]; [|discriminate]. rewrite (Ha rho x X), (IH y eq_refl). exact E.
Qed.
Lemma omap2 rho l v : Forall moves l -> omap (eval I1 rho) l = Some v -> omap (eval I2 rho) (map (on_x G h) l) = Some v.
Proof.
  intros F. revert v. induction F as [|a l Ha Hl IH]; intros v E; [exact E|]. cbn [map]. rewrite omap_cons in *.
  destruct (eval I1 rho a) as [x|] eqn:X; [|discriminate]. destruct (omap (eval I1 rho) l) as [y|]; [|discriminate]. rewrite (Ha rho x X), (IH y eq_refl). exact E.
Qed.
Lemma on_x_moves e : (forall l, inside (Fun FX l) e -> exists a, l = [a] /\ ok a) -> moves e.
Proof.
  assert (K : forall e l, (forall a, In a l -> In a (children e)) -> (forall l, inside (Fun FX l) e -> exists a, l = [a] /\ ok a) ->
    Forall (fun e => (forall l, inside (Fun FX l) e -> exists a, l = [a] /\ ok a) -> moves e) l -> Forall moves l).
  { intros f l C H F. rewrite Forall_forall in *. intros a Ha. apply (F a Ha). intros u Hu. apply H. exact (inside_child _ a f (C a Ha) Hu). }
  induction e as [q|c|s|l IH|l IH|a b IHa IHb|f l IH|k lo up e I1' I2' I3'|k lo up e I1' I2' I3'] using expr_ind'; intros H rho v E; cbn [on_x].
  - exact E.
  - cbn [eval] in *. now rewrite <- HC.
  - exact E.
  - apply (add_all_ok _ _ HG). rewrite eval_Add in *. apply esum2; [|exact E]. exact (K (Add l) l (fun a h => h) H IH).
  - apply (mul_all_ok _ _ HG). rewrite eval_Mul in *. apply eprod2; [|exact E]. exact (K (Mul l) l (fun a h => h) H IH).
  - pose proof (K (Pow a b) [a; b] (fun a h => h) H ltac:(repeat constructor; assumption)) as F. inversion F as [|? ? Fa F']; subst. inversion F' as [|? ? Fb _]; subst.
    apply (gpow_ok _ _ HG). cbn [eval] in *. destruct (eval I1 rho a) as [x|] eqn:X; [|discriminate]. cbn [obind] in E.
    destruct (eval I1 rho b) as [y|] eqn:Y; [|discriminate]. rewrite (Fa rho x X), (Fb rho y Y). exact E.
  - assert (D : f = FX \/ f <> FX) by (destruct f; ((left; reflexivity) || (right; discriminate))). destruct D as [-> |D].
    + destruct (H l (inside_itself _)) as (a & -> & Oa). exact (HX a rho v Oa E).
    + pose proof (K (Fun f l) l (fun a h => h) H IH) as F.
      assert (GL : eval I2 rho (gfun G f (map (on_x G h) l)) = Some v).
      { apply (gfun_ok _ _ HG). cbn [eval] in *. destruct (omap (eval I1 rho) l) as [vs|] eqn:V; [|discriminate].
        rewrite (omap2 rho l vs F V). cbn [obind] in *. now rewrite <- HF. }
      destruct f; try exact GL. destruct (D eq_refl).
  - pose proof (K (SumE k lo up e) [lo; up; e] (fun a h => or_intror h) H ltac:(repeat constructor; assumption)) as F.
    inversion F as [|? ? F1 F']; subst. inversion F' as [|? ? F2 F'']; subst. inversion F'' as [|? ? F3 _]; subst.
    apply (gsum_ok _ _ HG). apply eval_sum_inv in E as (a & b & Ea & Eb & Es). apply (eval_sum_intro _ _ _ _ _ _ _ a b); auto.
    eapply osum_mono; [|exact Es]. intros i Hi u Hu. exact (F3 _ u Hu).
  - pose proof (K (ProdE k lo up e) [lo; up; e] (fun a h => or_intror h) H ltac:(repeat constructor; assumption)) as F.
    inversion F as [|? ? F1 F']; subst. inversion F' as [|? ? F2 F'']; subst. inversion F'' as [|? ? F3 _]; subst.
    apply (gprod_ok _ _ HG). apply eval_prod_inv in E as (a & b & Ea & Eb & Es). apply (eval_prod_intro _ _ _ _ _ _ _ a b); auto.
    eapply oprod_mono; [|exact Es]. intros i Hi u Hu. exact (F3 _ u Hu).
Qed.
End L.

(** The sequence n -> x(n + num). *)
Definition later (x : list R -> option R) (num : Z) : list R -> option R := fun l => match l with [t] => x [t + IZR num] | _ => None end.
Theorem increase_ok I G x : ginac_ok (with_x I x) G -> forall e num,
  (forall l, inside (Fun FX l) e -> exists a, l = [a] /\ forall l', ~ inside (Fun FX l') a) ->
  forall rho v, eval (with_x I (later x num)) rho e = Some v -> eval (with_x I x) rho (increase_argument_x_function G e num) = Some v.
Proof.
  intros HG e num H. unfold increase_argument_x_function.
  refine (on_x_moves (with_x I (later x num)) (with_x I x) (fun c => eq_refl) _ G HG _ (fun a => forall l', ~ inside (Fun FX l') a) _ e H).
  - intros f l N. destruct f; try reflexivity. destruct (N eq_refl).
  - intros a rho v N E. apply (gfun_ok _ _ HG). cbn [eval omap] in *.
    assert (NX : has_x_function a = false).
    { destruct (has_x_function a) eqn:X; [|reflexivity]. apply x_function_exact in X. destruct X as (l & X). destruct (N l X). }
    rewrite (has_x_function_ok I a NX (later x num) x) in E. destruct (eval (with_x I x) rho a) as [t|] eqn:T; [|discriminate].
    assert (A : eval (with_x I x) rho (gadd G a (Num (zq num))) = Some (t + IZR num)).
    { apply (gadd_ok _ _ HG). rewrite eval_Add2, T, eval_num, rv_zq. reflexivity. }
    rewrite A. exact E.
Qed.
Theorem no_x_untouched I G : ginac_ok I G -> forall h e, (forall l, ~ inside (Fun FX l) e) -> forall rho v, eval I rho e = Some v -> eval I rho (on_x G h e) = Some v.
Proof.
  intros HG h e H. refine (on_x_moves I I (fun c => eq_refl) (fun f l _ => eq_refl) G HG h (fun _ => False) _ e _).
  - intros a rho v [].
  - intros l Hl. destruct (H l Hl).
Qed.
Theorem no_x_change I G : ginac_ok I G -> forall s r e, (forall l, ~ inside (Fun FX l) e) -> forall rho v,
  eval I rho e = Some v -> eval I rho (change_variable_function_x G e s r) = Some v.
Proof. intros HG s r e H. exact (no_x_untouched I G HG _ e H). Qed.
Section C.
Variable I : interp.
Variable G : ginac.
Hypothesis HG : ginac_ok I G.
Theorem change_ok s r e : no_capture s r e -> ~ outside_x (Sym s) e -> (forall l, inside (Fun FX l) e -> exists a, l = [a]) -> forall rho v w,
  eval I rho r = Some w -> eval I (upd rho s w) e = Some v -> eval I rho (change_variable_function_x G e s r) = Some v.
Proof.
  unfold change_variable_function_x.
  assert (NO : forall e c, (forall l, e <> Fun FX l) -> ~ outside_x (Sym s) e -> In c (children e) -> ~ outside_x (Sym s) c).
  { intros f c N H Hc Ho. apply H. exact (outside_child _ c f N Hc Ho). }
  assert (NU : forall e c, (forall l, inside (Fun FX l) e -> exists a, l = [a]) -> In c (children e) -> forall l, inside (Fun FX l) c -> exists a, l = [a]).
  { intros f c H Hc l Hl. apply H. exact (inside_child _ c f Hc Hl). }
  induction e using expr_ind'; intros NC NS UN rho v w Hr H'; cbn [on_x].
  - exact H'.
  - exact H'.
  - cbn in H' |- *. unfold upd in H'. destruct (String.eqb s0 s) eqn:E; [|exact H']. apply String.eqb_eq in E. subst s0. destruct NS. constructor.
  - apply (add_all_ok _ _ HG). cbn in NC. rewrite no_capture_all in NC. rewrite eval_Add in *.
    eapply esum_map; [|exact H']. rewrite Forall_forall in *. intros a Ha u Hu.
    exact (H a Ha (NC a Ha) (NO (Add l) a ltac:(discriminate) NS Ha) (NU (Add l) a UN Ha) rho u w Hr Hu).
  - apply (mul_all_ok _ _ HG). cbn in NC. rewrite no_capture_all in NC. rewrite eval_Mul in *.
    eapply eprod_map; [|exact H']. rewrite Forall_forall in *. intros a Ha u Hu.
    exact (H a Ha (NC a Ha) (NO (Mul l) a ltac:(discriminate) NS Ha) (NU (Mul l) a UN Ha) rho u w Hr Hu).
  - destruct NC as [NC1 NC2]. apply (gpow_ok _ _ HG). cbn [eval] in *.
    destruct (eval I (upd rho s w) e1) as [x|] eqn:E1; [|discriminate]. cbn [obind] in *.
    destruct (eval I (upd rho s w) e2) as [y|] eqn:E2; [|discriminate]. cbn [obind] in *.
    assert (C1 : In e1 (children (Pow e1 e2))) by (cbn; auto). assert (C2 : In e2 (children (Pow e1 e2))) by (cbn; auto).
    assert (NF : forall l, Pow e1 e2 <> Fun FX l) by (intros u' C; discriminate).
    rewrite (IHe1 NC1 (NO (Pow e1 e2) e1 NF NS C1) (NU (Pow e1 e2) e1 UN C1) rho x w Hr E1), (IHe2 NC2 (NO (Pow e1 e2) e2 NF NS C2) (NU (Pow e1 e2) e2 UN C2) rho y w Hr E2). exact H'.
  - assert (D : f = FX \/ f <> FX) by (destruct f; ((left; reflexivity) || (right; discriminate))). destruct D as [-> |D].
    + destruct (UN l (inside_itself _)) as (a & ->). apply (gfun_ok _ _ HG). cbn [eval omap] in *. destruct (eval I (upd rho s w) a) as [t|] eqn:T; [|discriminate].
      cbn in NC. destruct NC as [NC _]. rewrite (substitute_ok I G HG s r a NC rho t w Hr T). exact H'.
    + assert (GL : eval I rho (gfun G f (map (on_x G (substitute G (Sym s) r)) l)) = Some v).
      { apply (gfun_ok _ _ HG). cbn in NC. rewrite no_capture_all in NC. cbn [eval] in *.
        destruct (omap (eval I (upd rho s w)) l) as [vs|] eqn:E; [|discriminate].
        rewrite (omap_map I (upd rho s w) rho _ l vs); auto. rewrite Forall_forall in *. intros a Ha u Hu. 
        assert (NF : forall u', Fun f l <> Fun FX u') by (intros u' C; injection C as C _; auto).
        exact (H a Ha (NC a Ha) (NO (Fun f l) a NF NS Ha) (NU (Fun f l) a UN Ha) rho u w Hr Hu). }
      destruct f; try exact GL. destruct (D eq_refl).
  - destruct NC as (N1 & N2 & N3 & N4 & N5). set (E0 := SumE k e1 e2 e3) in *.
    assert (C1 : In e1 (children E0)) by (cbn; auto). assert (C2 : In e2 (children E0)) by (cbn; auto). assert (C3 : In e3 (children E0)) by (cbn; auto).
    assert (NF : forall l, E0 <> Fun FX l) by (intros u C; unfold E0 in C; discriminate).
    apply (gsum_ok _ _ HG). apply eval_sum_inv in H' as (a & b & Ea & Eb & Es).
    apply (eval_sum_intro _ _ _ _ _ _ _ a b); eauto. eapply osum_mono; [|exact Es].
    intros i Hi u Hu. cbv beta in Hu |- *. apply (IHe3 N5 (NO _ _ NF NS C3) (NU _ _ UN C3) _ u w); [rewrite eval_upd_fresh; auto|].
    rewrite <- Hu. apply eval_ext. intros t. rewrite <- upd_comm; auto.
  - destruct NC as (N1 & N2 & N3 & N4 & N5). set (E0 := ProdE k e1 e2 e3) in *.
    assert (C1 : In e1 (children E0)) by (cbn; auto). assert (C2 : In e2 (children E0)) by (cbn; auto). assert (C3 : In e3 (children E0)) by (cbn; auto).
    assert (NF : forall l, E0 <> Fun FX l) by (intros u C; unfold E0 in C; discriminate).
    apply (gprod_ok _ _ HG). apply eval_prod_inv in H' as (a & b & Ea & Eb & Es).
    apply (eval_prod_intro _ _ _ _ _ _ _ a b); eauto. eapply oprod_mono; [|exact Es].
    intros i Hi u Hu. cbv beta in Hu |- *. apply (IHe3 N5 (NO _ _ NF NS C3) (NU _ _ UN C3) _ u w); [rewrite eval_upd_fresh; auto|].
    rewrite <- Hu. apply eval_ext. intros t. rewrite <- upd_comm; auto.
Qed.
End C.
(** x(x(n)), for x(t) = 2 t *)
Definition twice (l : list R) : option R := match l with [t] => Some (2 * t) | _ => None end.
Lemma nested_refuted : ~ (forall e num rho v, eval (with_x I0 (later twice num)) rho e = Some v ->
  eval (with_x I0 twice) rho (increase_argument_x_function G0 e num) = Some v).
Proof.
  intros H. specialize (H (Fun FX [Fun FX [Sym "n"]]) 1%Z (fun _ => 0) (2 * (2 * (0 + 1) + 1)) eq_refl).
  cbn in H. injection H. rewrite rv_zq. lra.
Qed.
(** n x(n) *)
Lemma outside_refuted : ~ (forall e s r rho v w, no_capture s r e -> (forall l, inside (Fun FX l) e -> exists a, l = [a]) ->
  eval (with_x I0 twice) rho r = Some w -> eval (with_x I0 twice) (upd rho s w) e = Some v ->
  eval (with_x I0 twice) rho (change_variable_function_x G0 e s r) = Some v).
Proof.
  intros H. specialize (H (Sym "n") "n" (Num (zq 1)) (fun _ => 0) 1 1 Logic.I).
  assert (U : forall l, inside (Fun FX l) (Sym "n") -> exists a, l = [a]). { intros l C. inversion C as [|c f Hc _]; subst. destruct Hc. }
  specialize (H U). cbn [eval] in H. rewrite rv_zq in H. specialize (H eq_refl eq_refl). cbn in H. injection H. lra.
Qed.
