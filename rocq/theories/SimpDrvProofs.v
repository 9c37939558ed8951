From Coq Require Import ZArith QArith Qcanon Reals List String Bool Lia Lra.
From Coquelicot Require Import Complex.
From Verif Require Import IntUtilModel Fld CplxF Ast ExprModel ExprSpec ExprProofs1 ExprProofs2 NonLinProofs NumFormModel NumFormSpec NumFormProofs RatRootProofs CollectModel CollectSpec CollectProofs CollectProofs2 CollectProofs3 PowModel PowSpec PowProofs LogSpec SimpDrvModel SimpDrvSpec.
Import ListNotations.
Local Open Scope list_scope.
Local Open Scope R_scope.

(** * Collected exponents, with the weaker assumption on simplify_nd *)
Section Collect.
Context (I : interp) (G : ginac) (HG : ginac_ok I G) (nd : expr -> expr) (rho : string -> R).
Notation ev := (eval I rho).
Lemma exponents_loop_kept only n : forall l acc a t, List.length l = n -> nzs I rho l ->
  (forall b v, In b (merged G only n l) -> ev b = Some v -> ev (nd b) = Some v) ->
  ev acc = Some a -> eprod I rho (map pw l) = Some t -> ev (exponents_loop G nd only n l acc) = Some (a * t).
Proof.
  induction n as [|n IH]; intros l acc a t L Nl Hs Ea Et; destruct l as [|[b x] l]; try discriminate; cbn [exponents_loop merged] in *.
  - cbn [map] in Et. rewrite eprod_nil in Et. injection Et as <-. now rewrite Rmult_1_r.
  - apply prod_cons in Et as (s & r & Es & Er & ->). inversion Nl as [|? ? Nb Nl']; subst. cbn [fst] in Nb. destruct (same_exponents G only b x l) as [[b' x'] l'] eqn:H.
    destruct (same_exponents_ok I G HG rho only l b x s r _ _ H Nb Nl' Es Er) as (s' & t' & A & B & C & D & E & F). cbn in L. rewrite <- C, <- Rmult_assoc. apply IH; auto; [lia|intros; apply Hs; auto; now right|].
    apply (gmul_val _ _ HG); auto. unfold pw in A. cbn [fst snd] in A. apply power_inv in A as (u & y & U & Y & P). apply (gpow_val _ _ HG _ _ _ u y); auto. apply Hs; auto. now left.
Qed.
Lemma same_exponents_kept only l v : bases_nonzero I rho l -> fractions_kept I G nd rho only l -> ev (Mul l) = Some v -> ev (collect_same_exponents G nd only (Mul l)) = Some v.
Proof.
  intros Nz Fk H. rewrite eval_Mul in H. destruct (entries_ok I rho l Nz v H) as [Nl (u & w & Hu & Hw & ->)]. unfold collect_same_exponents. cbn [ops].
  apply (plain_loop I G HG); auto. replace u with (1 * u) by ring. apply exponents_loop_kept; auto. apply num1.
Qed.
Lemma collect_kept l v : call_valid I G nd rho (CallCollect l) -> ev (Mul l) = Some v -> ev (collect_base_exponent G nd (Mul l)) = Some v.
Proof.
  intros (Nz & Fk & As) H. unfold collect_base_exponent. apply (same_exponents_kept false l v Nz Fk) in H.
  destruct (collect_same_exponents G nd false (Mul l)) eqn:E; auto. apply (collect_same_base_ok I G HG); auto.
Qed.
End Collect.

(** * Numbers *)
Lemma std_shape k r s : reduce_to_standard_form k r = IntUtilModel.Ret s -> irr s = 1%Z \/ (1 < irr s)%Z.
Proof.
  unfold reduce_to_standard_form. destruct (k =? 0)%Z; [discriminate|]. destruct (Qnum (this r) =? 0)%Z.
  - destruct (k <? 0)%Z; [discriminate|]. intros [= <-]. now left.
  - destruct (k <? 0)%Z; destruct (_ =? 1)%Z; try (intros [= <-]; now left).
    all: repeat match goal with |- context [partial_factor ?a ?b] => destruct (partial_factor a b) as [[? ?]| |]; try discriminate end.
    all: repeat match goal with |- context [to_std_form ?a ?b ?c] => destruct (to_std_form a b c) end.
    all: match goal with |- context [(1 <? ?g)%Z] => destruct (1 <? g)%Z end.
    all: match goal with |- IntUtilModel.Ret (if (1 <? ?p)%Z then _ else _) = _ -> _ => destruct (Z.ltb_spec 1 p) end; intros [= <-]; cbn [irr]; auto.
Qed.
Lemma red_prod_shape b1 e1 b2 e2 s : red_prod b1 e1 b2 e2 = IntUtilModel.Ret s -> irr s = 1%Z \/ (1 < irr s)%Z.
Proof.
  unfold red_prod. destruct (_ || _)%bool; [discriminate|]. destruct (if (0 <? Qnum (this e1))%Z then _ else _) as [n1 d1]. destruct (if (0 <? Qnum (this e2))%Z then _ else _) as [n2 d2].
  apply std_shape.
Qed.
Definition std_val (r : Qc * option (Qc * Qc)) : R := match r with (q, None) => rv q | (q, Some (m, x)) => rv q * Rpower (rv m) (rv x) end.
Lemma factor_val s q : std_factor s = Some q -> std_value s = RtoC (rv q * Rpower (IZR (irr s)) (/ IZR (idx s))).
Proof.
  unfold std_factor, std_value. destruct (sgn s) as [|[|[|]]]; try discriminate; intros [= <-]; fold (zq (snum s)) (zq (sden s)).
  - cbn [fpow]. change (@f1 CF) with (RtoC 1). rewrite Cmult_1_l, rv_div, !rv_zq. reflexivity.
  - assert (E : fpow (K := CF) Ci 2 = RtoC (-1)) by (cbn [fpow]; change (@fmul CF) with Cmult; change (@f1 CF) with (RtoC 1); unfold Cmult, Ci, RtoC; cbn [fst snd]; f_equal; lra).
    rewrite E, <- RtoC_mult, rv_opp, rv_div, !rv_zq. f_equal. ring.
Qed.
Lemma numbers_val b1 x1 b2 x2 r cs : call_red_prod b1 x1 b2 x2 = Some (r, cs) -> cs = [([], CallNumbers b1 x1 b2 x2)] /\
  (0 < rv b1 -> 0 < rv b2 -> rv x1 <> 0 -> rv x2 <> 0 -> std_val r = Rpower (rv b1) (rv x1) * Rpower (rv b2) (rv x2)) /\
  match r with (_, Some (m, _)) => 0 < rv m | _ => True end.
Proof.
  unfold call_red_prod, calling. destruct (red_prod b1 x1 b2 x2) as [s| |] eqn:E; try discriminate. destruct (std_factor s) as [q|] eqn:Eq; [|discriminate]. intros X.
  assert (r = (q, std_root s)) by congruence. assert (cs = [([], CallNumbers b1 x1 b2 x2)]) by congruence. subst. clear X. split; auto. unfold std_root.
  pose proof (red_prod_shape _ _ _ _ _ E) as Sh. pose proof (factor_val s q Eq) as Fv. split.
  - intros B1 B2 X1 X2. destruct (red_prod_positive b1 x1 b2 x2 B1 B2 X1 X2) as (s' & E' & V). rewrite E in E'. injection E' as <-. rewrite Fv in V. apply RtoC_inj in V. rewrite <- V.
    destruct (Z.ltb_spec 1 (irr s)) as [H|H]; unfold std_val.
    + rewrite RatRootProofs.rv_inv, !rv_zq. reflexivity.
    + assert (J : irr s = 1%Z) by lia. rewrite J. rewrite Rpower_1_l. ring.
  - destruct (Z.ltb_spec 1 (irr s)) as [H|H]; auto. rewrite rv_zq. apply IZR_lt. lia.
Qed.

(** * Runs *)
Section Runs.
Context (I : interp) (G : ginac) (HG : ginac_ok I G) (HK : keeps_integers I G) (expand nd : expr -> expr) (He : forall e, refines I e (expand e)) (Hx : exp_std I).
Notation valid := (calls_valid I G nd).
Lemma bind_some {A B} (m : run A) (f : A -> run B) b cs : bind m f = Some (b, cs) -> exists a c d, m = Some (a, c) /\ f a = Some (b, d) /\ cs = c ++ d.
Proof. unfold bind. destruct m as [[a c]|]; [|discriminate]. destruct (f a) as [[b' d]|] eqn:E; [|discriminate]. intros H. exists a, c, d. assert (b' = b) by congruence. assert (c ++ d = cs) by congruence. subst. auto. Qed.
Lemma ret_some {A} (a b : A) cs : ret a = Some (b, cs) -> a = b /\ cs = [].
Proof. unfold ret. intros H. split; congruence. Qed.
Lemma valid_app rho c d : valid rho (c ++ d) -> valid rho c /\ valid rho d.
Proof. intros H. split; intros ks x Hi; apply (H ks x); apply in_or_app; auto. Qed.
Lemma valid_below rho k cs z : valid rho (map (fun p => (k :: fst p, snd p)) cs) -> valid (upd rho k (IZR z)) cs.
Proof.
  intros H ks c Hi rho' Ag Iz. apply (H (k :: ks) c); [apply in_map_iff; exists (ks, c); auto| |].
  - intros s Hn. rewrite Ag by (intros X; apply Hn; now right). unfold upd. destruct (String.eqb_spec s k) as [->|]; auto. exfalso. apply Hn. now left.
  - intros s [<-|Hs]; [|now apply Iz]. destruct (in_dec string_dec k ks) as [Hk|Hk]; [now apply Iz|]. exists z. rewrite Ag by auto. unfold upd. now rewrite String.eqb_refl.
Qed.
Lemma valid_one rho c : valid rho [([], c)] -> call_valid I G nd rho c.
Proof. intros H. apply (H [] c); [now left|auto|]. intros s []. Qed.
(** [m] has the value of [e]. *)
Definition keeps (e : expr) (m : run expr) : Prop := forall rho r cs v, m = Some (r, cs) -> valid rho cs -> eval I rho e = Some v -> eval I rho r = Some v.
Definition sound (rec : expr -> run expr) : Prop := forall e, keeps e (rec e).
Lemma keeps_ret e : keeps e (ret e). Proof. intros rho r cs v H _. apply ret_some in H as [<- _]. auto. Qed.
Lemma keeps_powers e input : keeps e (call_powers G e input).
Proof.
  intros rho r cs v H V. unfold call_powers, calling in H. assert (r = simplify_powers G e input) by congruence. assert (cs = [([], CallPowers e)]) by congruence. subst. clear H.
  apply valid_one in V. exact (simplify_powers_ok I G rho HG HK e input v V).
Qed.
Lemma keeps_collect l : keeps (Mul l) (call_collect G nd l).
Proof.
  intros rho r cs v H V. unfold call_collect, calling in H. assert (r = collect_base_exponent G nd (Mul l)) by congruence. assert (cs = [([], CallCollect l)]) by congruence. subst. clear H.
  apply valid_one in V. now apply (collect_kept I G HG nd rho).
Qed.
Lemma keeps_exponents o l : keeps (Mul l) (call_exponents G nd o l).
Proof.
  intros rho r cs v H V. unfold call_exponents, calling in H. assert (r = collect_same_exponents G nd o (Mul l)) by congruence. assert (cs = [([], CallExponents o l)]) by congruence. subst. clear H.
  apply valid_one in V as [V1 V2]. now apply (same_exponents_kept I G HG nd rho).
Qed.
(** Loops that build sums and products. *)
Lemma loop_sum (f : expr -> run expr) step l : (forall a acc, step a acc = bind (f a) (fun b => ret (gadd G acc b))) -> (forall a, In a l -> keeps a (f a)) -> keeps (Add l) (loop step (Num 0) l).
Proof.
  intros Hs. induction l as [|a l IH]; intros Hf rho r cs v H V Ev; cbn [loop] in H.
  - apply ret_some in H as [<- _]. rewrite eval_Add, esum_nil in Ev. injection Ev as <-. cbn [eval]. now rewrite rv_0.
  - apply bind_some in H as (acc & c & d & H1 & H2 & ->). rewrite Hs in H2. apply bind_some in H2 as (b & c2 & d2 & H2 & H3 & ->). apply ret_some in H3 as [<- ->].
    apply valid_app in V as [V1 V2]. apply valid_app in V2 as [V2 _]. rewrite eval_Add, esum_cons in Ev. apply olift2_some in Ev as (x & y & Ex & Ey & ->).
    rewrite Rplus_comm. apply (gadd_val _ _ HG); [apply (IH (fun a Ha => Hf a (or_intror Ha)) rho acc c y H1 V1); now rewrite eval_Add|now apply (Hf a (or_introl eq_refl) rho b c2 x)].
Qed.
Lemma loop_prod (f : expr -> run expr) step l : (forall a acc, step a acc = bind (f a) (fun b => ret (gmul G acc b))) -> (forall a, In a l -> keeps a (f a)) -> keeps (Mul l) (loop step (Num 1) l).
Proof.
  intros Hs. induction l as [|a l IH]; intros Hf rho r cs v H V Ev; cbn [loop] in H.
  - apply ret_some in H as [<- _]. rewrite eval_Mul, eprod_nil in Ev. injection Ev as <-. cbn [eval]. now rewrite rv_1.
  - apply bind_some in H as (acc & c & d & H1 & H2 & ->). rewrite Hs in H2. apply bind_some in H2 as (b & c2 & d2 & H2 & H3 & ->). apply ret_some in H3 as [<- ->].
    apply valid_app in V as [V1 V2]. apply valid_app in V2 as [V2 _]. rewrite eval_Mul, eprod_cons in Ev. apply olift2_some in Ev as (x & y & Ex & Ey & ->).
    rewrite Rmult_comm. apply (gmul_val _ _ HG); [apply (IH (fun a Ha => Hf a (or_intror Ha)) rho acc c y H1 V1); now rewrite eval_Mul|now apply (Hf a (or_introl eq_refl) rho b c2 x)].
Qed.
Lemma rec_expand rec : sound rec -> forall a, keeps a (rec (expand a)).
Proof. intros Hr a rho r cs v H V Ev. apply (Hr (expand a) rho r cs v H V). now apply He. Qed.
Lemma keeps_bind e m (f : expr -> run expr) : keeps e m -> (forall r, keeps r (f r)) -> keeps e (bind m f).
Proof. intros Hm Hf rho r cs v H V Ev. apply bind_some in H as (a & c & d & H1 & H2 & ->). apply valid_app in V as [V1 V2]. apply (Hf a rho r d v H2 V2). exact (Hm rho a c v H1 V1 Ev). Qed.

(** * Functions *)
Lemma each_ok rec : sound rec -> forall l rho m cs vs, each (fun a => rec (expand a)) l = Some (m, cs) -> valid rho cs -> omap (eval I rho) l = Some vs -> omap (eval I rho) m = Some vs.
Proof.
  intros Hr. induction l as [|a l IH]; intros rho m cs vs H V Ev; cbn [each] in H.
  - apply ret_some in H as [<- _]. exact Ev.
  - apply bind_some in H as (b & c & d & H1 & H2 & ->). apply bind_some in H2 as (m' & c2 & d2 & H2 & H3 & ->). apply ret_some in H3 as [<- ->]. apply valid_app in V as [V1 V2]. apply valid_app in V2 as [V2 _].
    cbn [omap] in Ev |- *. fold (omap (eval I rho) l) in Ev. fold (omap (eval I rho) m'). destruct (eval I rho a) as [x|] eqn:Ea; [|discriminate]. destruct (omap (eval I rho) l) as [xs|] eqn:El; [|discriminate].
    rewrite (rec_expand rec Hr a rho b c x H1 V1 Ea), (IH rho m' c2 xs H2 V2 El). exact Ev.
Qed.
Lemma arguments_ok rec : sound rec -> forall e, keeps e (arguments G expand rec e).
Proof.
  intros Hr e. destruct e as [q|c|s|l|l|b x|f l|k lo up b|k lo up b]; try apply keeps_ret; cbn [arguments]; intros rho r cs v H V Ev.
  - apply bind_some in H as (m & c & d & H1 & H2 & ->). apply ret_some in H2 as [<- ->]. rewrite app_nil_r in V. apply (gfun_ok _ _ HG). cbn [eval] in Ev |- *. destruct (omap (eval I rho) l) as [vs|] eqn:El; [|discriminate]. rewrite (each_ok rec Hr l rho m c vs H1 V El). exact Ev.
  - apply bind_some in H as (lo' & c1 & d1 & H1 & H & ->). apply bind_some in H as (up' & c2 & d2 & H2 & H & ->). apply bind_some in H as (b' & c3 & d3 & H3 & H & ->). apply ret_some in H as [<- ->].
    apply valid_app in V as [V1 V]. apply valid_app in V as [V2 V]. apply valid_app in V as [V3 _]. unfold below in H3. destruct (rec (expand b)) as [[b0 c0]|] eqn:Hb; [|discriminate]. assert (b0 = b') by congruence. assert (E3 : c3 = map (fun p => (k :: fst p, snd p)) c0) by congruence. subst b0. rewrite E3 in V3.
    apply (gsum_ok _ _ HG). cbn [eval] in Ev |- *. destruct (eval I rho lo) as [a|] eqn:Ea; [|discriminate]. destruct (eval I rho up) as [u|] eqn:Eu; [|discriminate].
    rewrite (rec_expand rec Hr lo rho lo' c1 a H1 V1 Ea), (rec_expand rec Hr up rho up' c2 u H2 V2 Eu). cbn [obind] in Ev |- *. destruct (as_int a) as [za|]; [|discriminate]. destruct (as_int u) as [zu|]; [|discriminate]. cbn [obind] in Ev |- *.
    revert Ev. apply osum_mono. intros i _ w Hw. apply (rec_expand rec Hr b _ b' c0 w Hb); auto. now apply valid_below.
  - apply bind_some in H as (lo' & c1 & d1 & H1 & H & ->). apply bind_some in H as (up' & c2 & d2 & H2 & H & ->). apply bind_some in H as (b' & c3 & d3 & H3 & H & ->). apply ret_some in H as [<- ->].
    apply valid_app in V as [V1 V]. apply valid_app in V as [V2 V]. apply valid_app in V as [V3 _]. unfold below in H3. destruct (rec (expand b)) as [[b0 c0]|] eqn:Hb; [|discriminate]. assert (b0 = b') by congruence. assert (E3 : c3 = map (fun p => (k :: fst p, snd p)) c0) by congruence. subst b0. rewrite E3 in V3.
    apply (gprod_ok _ _ HG). cbn [eval] in Ev |- *. destruct (eval I rho lo) as [a|] eqn:Ea; [|discriminate]. destruct (eval I rho up) as [u|] eqn:Eu; [|discriminate].
    rewrite (rec_expand rec Hr lo rho lo' c1 a H1 V1 Ea), (rec_expand rec Hr up rho up' c2 u H2 V2 Eu). cbn [obind] in Ev |- *. destruct (as_int a) as [za|]; [|discriminate]. destruct (as_int u) as [zu|]; [|discriminate]. cbn [obind] in Ev |- *.
    revert Ev. apply oprod_mono. intros i _ w Hw. apply (rec_expand rec Hr b _ b' c0 w Hb); auto. now apply valid_below.
Qed.

(** * Powers *)
Lemma one_power_ok rec : sound rec -> forall input b x, keeps (Pow b x) (one_power G expand rec input b x).
Proof.
  intros Hr input b x rho r cs v H V Ev. unfold one_power in H. apply bind_some in H as (b' & c1 & d1 & H1 & H & ->). apply bind_some in H as (x' & c2 & d2 & H2 & H & ->).
  apply valid_app in V as [V1 V]. apply valid_app in V as [V2 V]. apply power_inv in Ev as (u & y & U & Y & P).
  apply (rec_expand rec Hr b rho b' c1 u H1 V1) in U. apply (rec_expand rec Hr x rho x' c2 y H2 V2) in Y.
  assert (O : (let t := expand (gpow G b' x') in match t with Pow _ _ => call_powers G t input | _ => ret t end) = Some (r, d2) -> eval I rho r = Some v).
  { cbv zeta. intros H'. assert (Et : eval I rho (expand (gpow G b' x')) = Some v) by (apply He, (gpow_val _ _ HG _ _ _ u y); auto).
    destruct (expand (gpow G b' x')) eqn:E; try (apply ret_some in H' as [<- _]; exact Et). exact (keeps_powers _ input rho r d2 v H' V Et). }
  destruct b' as [q| | | | | | | |]; try (apply O; exact H). destruct x' as [p| | | | | | | |]; try (apply O; exact H). clear O.
  apply bind_some in H as (s & c3 & d3 & H3 & H & ->). apply ret_some in H as [<- ->]. rewrite app_nil_r in V. destruct (numbers_val _ _ _ _ _ _ H3) as (-> & Val & Pm). apply valid_one in V as (Q1 & Q2 & Q3 & Q4).
  cbn [eval] in U, Y. assert (u = rv q) by congruence. assert (y = rv p) by congruence. subst. rewrite rpow_pos in P by auto. injection P as <-.
  specialize (Val Q1 Q2 Q3 Q4). rewrite rv_1, Rpower_1_l, Rmult_1_r in Val. rewrite <- Val. unfold std_expr, std_val. destruct s as [s [[m t]|]]; [|reflexivity]. apply (gmul_val _ _ HG); [reflexivity|]. apply (gpow_val _ _ HG _ _ _ (rv m) (rv t)); auto. now apply rpow_pos.
Qed.
(** * Products *)
Lemma manip_powers_ok rec : sound rec -> forall input l, keeps (Mul l) (manip_powers G expand rec input l).
Proof.
  intros Hr input l. unfold manip_powers. apply (loop_prod (fun f => match f with Pow b x => one_power G expand rec input b x | _ => ret f end)).
  - intros a acc. destruct a; try reflexivity.
  - intros a _. destruct a; try apply keeps_ret. now apply one_power_ok.
Qed.
Lemma manip_functions_ok rec : sound rec -> forall e, keeps e (manip_functions G expand rec e).
Proof.
  intros Hr e. destruct e as [q|c|s|l|l|b x|f l|k lo up b|k lo up b]; try (apply arguments_ok; exact Hr). cbn [manip_functions]. intros rho r cs v H V Ev.
  apply bind_some in H as (st & c & d & H1 & H2 & ->). apply ret_some in H2 as [<- ->]. rewrite app_nil_r in V. rewrite eval_Mul in Ev.
  assert (K : exists x y, eval I rho (fst st) = Some x /\ eval I rho (snd st) = Some y /\ v = x * y).
  { revert st c v H1 V Ev. induction l as [|a l IH]; intros st c v H1 V Ev; cbn [loop] in H1.
    - apply ret_some in H1 as [<- _]. exists 1, 1. cbn [fst snd eval]. rewrite rv_1. rewrite eprod_nil in Ev. injection Ev as <-. split; auto. split; auto. ring.
    - apply bind_some in H1 as (st' & c1 & d1 & H1 & H2 & ->). apply valid_app in V as [V1 V2]. rewrite eprod_cons in Ev. apply olift2_some in Ev as (x & y & Ex & Ey & ->).
      destruct (IH st' c1 y H1 V1 Ey) as (p & q & Ep & Eq & ->). destruct (is_function a).
      + apply bind_some in H2 as (g & c2 & d2 & H2 & H3 & ->). apply ret_some in H3 as [<- ->]. rewrite app_nil_r in V2. exists (p * x), q. cbn [fst snd]. split; [apply (gmul_val _ _ HG); auto; exact (arguments_ok rec Hr a rho g c2 x H2 V2 Ex)|]. split; auto. ring.
      + apply ret_some in H2 as [<- ->]. exists p, (q * x). cbn [fst snd]. split; auto. split; [apply (gmul_val _ _ HG); auto|]. ring. }
  destruct K as (x & y & Kx & Ky & ->). now apply (gmul_val _ _ HG).
Qed.
Lemma manip_exp_ok e : refines I e (manip_exp G e).
Proof.
  intros rho v Ev. destruct e as [q|c|s|l|l|b x|f l|k lo up b|k lo up b]; auto. cbn [manip_exp]. rewrite eval_Mul in Ev.
  assert (K : exists x y, eval I rho (fst (fold_right (exp_step G) (Num 0, Num 1) l)) = Some x /\ eval I rho (snd (fold_right (exp_step G) (Num 0, Num 1) l)) = Some y /\ v = exp x * y).
  { revert v Ev. induction l as [|a l IH]; intros v Ev; cbn [fold_right].
    - exists 0, 1. cbn [fst snd eval]. rewrite rv_0, rv_1. rewrite eprod_nil in Ev. injection Ev as <-. split; auto. split; auto. rewrite exp_0. ring.
    - rewrite eprod_cons in Ev. apply olift2_some in Ev as (x & y & Ex & Ey & ->). destruct (IH y Ey) as (p & q & Ep & Eq & ->). set (st := fold_right (exp_step G) (Num 0, Num 1) l) in *. clearbody st.
      assert (Other : exists x0 y0, eval I rho (fst st) = Some x0 /\ eval I rho (gmul G (snd st) a) = Some y0 /\ x * (exp p * q) = exp x0 * y0).
      { exists p, (q * x). split; auto. split; [apply (gmul_val _ _ HG); auto|]. ring. }
      unfold exp_step. destruct a as [| | | | | |f m| |]; auto. destruct f; auto. destruct m as [|a m]; auto. destruct m; auto. cbn [fst snd]. cbn [eval omap] in Ex. destruct (eval I rho a) as [w|] eqn:Ea; [|discriminate]. cbn [obind] in Ex. rewrite Hx in Ex. injection Ex as <-.
      exists (p + w), q. split; [apply (gadd_val _ _ HG); auto|]. split; auto. rewrite exp_plus. ring. }
  destruct K as (x & y & Kx & Ky & ->). apply (gmul_val _ _ HG); auto. apply (gfun_ok _ _ HG). cbn [eval omap]. rewrite Kx. cbn [obind]. apply Hx.
Qed.
Lemma reduce_product_ok l : keeps (Mul l) (reduce_product G l).
Proof.
  intros rho r cs v H V Ev. unfold reduce_product in H. apply bind_some in H as ([[[b1 x1] red] rest] & c & d & H1 & H2 & ->). apply ret_some in H2 as [<- ->]. rewrite app_nil_r in V. rewrite eval_Mul in Ev.
  assert (K : exists w, 0 < rv b1 /\ eval I rho red = Some (Rpower (rv b1) (rv x1)) /\ eval I rho rest = Some w /\ v = Rpower (rv b1) (rv x1) * w).
  { revert b1 x1 red rest c v H1 V Ev. induction l as [|a l IH]; intros b1 x1 red rest c v H1 V Ev; cbn [loop] in H1.
    - apply ret_some in H1 as [H1 _]. injection H1 as <- <- <- <-. exists 1. cbn [eval]. rewrite rv_1, Rpower_1_l. rewrite eprod_nil in Ev. injection Ev as <-. split; [lra|]. split; auto. split; auto. ring.
    - apply bind_some in H1 as ([[[b x] red'] rest'] & c1 & d1 & H1 & H2 & ->). apply valid_app in V as [V1 V2]. rewrite eprod_cons in Ev. apply olift2_some in Ev as (p & y & Ex & Ey & ->).
      destruct (IH b x red' rest' c1 y H1 V1 Ey) as (w & Pb & Er & Ew & ->).
      assert (Other : ret (b, x, red', gmul G rest' a) = Some (b1, x1, red, rest, d1) -> exists w0, 0 < rv b1 /\ eval I rho red = Some (Rpower (rv b1) (rv x1)) /\ eval I rho rest = Some w0 /\ p * (Rpower (rv b) (rv x) * w) = Rpower (rv b1) (rv x1) * w0).
      { intros E. apply ret_some in E as [E _]. assert (b = b1) by congruence. assert (x = x1) by congruence. assert (red' = red) by congruence. assert (gmul G rest' a = rest) by congruence. subst.
        exists (w * p). split; auto. split; auto. split; [apply (gmul_val _ _ HG); auto|]. ring. }
      unfold reduce_step in H2. destruct a as [| | | | |ab ax| | |]; try (apply Other; exact H2). destruct ab as [b2| | | | | | | |]; try (apply Other; exact H2). destruct ax as [x2| | | | | | | |]; try (apply Other; exact H2). clear Other.
      apply bind_some in H2 as (s & c2 & d2 & H2 & H3 & ->). apply valid_app in V2 as [V2 _]. destruct (numbers_val _ _ _ _ _ _ H2) as (-> & Val & Pm). apply valid_one in V2 as (Q1 & Q2 & Q3 & Q4). specialize (Val Q1 Q2 Q3 Q4).
      cbn [eval obind] in Ex. rewrite rpow_pos in Ex by auto. assert (Ep : p = Rpower (rv b2) (rv x2)) by congruence. clear Ex. subst p.
      destruct s as [q [[m t]|]]; apply ret_some in H3 as [H3 _]; unfold std_val in Val.
      + assert (m = b1) by congruence. assert (t = x1) by congruence. assert (Hred : gpow G (Num m) (Num t) = red) by congruence. assert (Hrest : (if Qc_eqb q 1 then rest' else gmul G rest' (Num q)) = rest) by congruence. clear H3. subst b1 x1 red rest.
        exists (w * rv q). split; auto. split; [apply (gpow_val _ _ HG _ _ _ (rv m) (rv t)); auto; now apply rpow_pos|]. split.
        * destruct (Qc_eqb q 1) eqn:E1; [|apply (gmul_val _ _ HG); auto]. apply Qc_eqb_eq in E1. subst q. now rewrite rv_1, Rmult_1_r.
        * transitivity (Rpower (rv b) (rv x) * Rpower (rv b2) (rv x2) * w); [ring|]. rewrite <- Val. ring.
      + assert (q = b1) by congruence. assert (1%Qc = x1) by congruence. assert (Hred : gpow G (Num q) (Num 1) = red) by congruence. assert (rest' = rest) by congruence. clear H3. subst b1 x1 red rest.
        assert (Pq : 0 < rv q) by (rewrite Val; apply Rmult_lt_0_compat; apply exp_pos).
        exists w. split; auto. split; [apply (gpow_val _ _ HG _ _ _ (rv q) (rv 1)); auto; now apply rpow_pos|]. split; auto. rewrite rv_1, Rpower_1, Val by auto. ring. }
  destruct K as (w & _ & Kr & Kw & ->). now apply (gmul_val _ _ HG).
Qed.
Lemma on_products_ok rule : (forall l, keeps (Mul l) (rule l)) -> forall e, keeps e (on_products G rule e).
Proof.
  intros Hr e. destruct e as [q|c|s|l|l|b x|f l|k lo up b|k lo up b]; try apply keeps_ret; [|apply Hr]. cbn [on_products].
  apply (loop_sum (fun t => match t with Mul m => rule m | _ => ret t end)).
  - intros a acc. destruct a; reflexivity.
  - intros a _. destruct a; try apply keeps_ret. apply Hr.
Qed.
Lemma manip_factor_ok rec : sound rec -> forall input l, keeps (Mul l) (manip_factor G expand nd rec input l).
Proof.
  intros Hr input l. unfold manip_factor. apply keeps_bind; [now apply manip_powers_ok|]. intros e. apply keeps_bind; [now apply manip_functions_ok|]. clear e. intros e. apply keeps_bind.
  - intros rho r cs v H V Ev. apply (on_products_ok (reduce_product G) reduce_product_ok (manip_exp G e) rho r cs v H V). now apply manip_exp_ok.
  - intros r. apply on_products_ok. apply keeps_collect.
Qed.
Theorem simplify_output_ok fuel input : sound (simplify_output G expand nd fuel input).
Proof.
  induction fuel as [|fuel IH]; intros e; [intros ? ? ? ? H; discriminate H|]. cbn [simplify_output]. destruct e as [q|c|s|l|l|b x|f l|k lo up b|k lo up b]; try apply keeps_ret.
  - apply (loop_sum (fun a => simplify_output G expand nd fuel input (expand a))); [reflexivity|]. intros a _. now apply rec_expand.
  - now apply manip_factor_ok.
  - apply keeps_bind; [now apply one_power_ok|]. intros r. destruct r; try apply keeps_ret. apply keeps_collect.
  - now apply arguments_ok.
  - now apply arguments_ok.
  - now apply arguments_ok.
Qed.
Theorem simplify_input_ok fuel input : sound (simplify_input G expand nd fuel input).
Proof.
  induction fuel as [|fuel IH]; intros e; [intros ? ? ? ? H; discriminate H|]. cbn [simplify_input]. destruct e as [q|c|s|l|l|b x|f l|k lo up b|k lo up b]; try apply keeps_ret.
  - apply (loop_sum (fun a => simplify_input G expand nd fuel input (expand a))); [reflexivity|]. intros a _. now apply rec_expand.
  - apply keeps_bind; [apply (loop_prod (fun a => simplify_input G expand nd fuel input (expand a))); [reflexivity|]; intros a _; now apply rec_expand|]. intros r. destruct r; try apply keeps_ret. apply keeps_exponents.
  - apply keeps_powers.
  - now apply arguments_ok.
  - now apply arguments_ok.
  - now apply arguments_ok.
Qed.
End Runs.
