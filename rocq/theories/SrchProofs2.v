(** Polynomials with rational coefficients; the largest index of x. *)
From Coq Require Import ZArith QArith Qcanon List String Bool Lia Lra Reals.
From Verif Require Import Ast ExprModel ExprSpec ExprProofs1 ExprProofs2 ExprProofs3 SrchModel SrchSpec SrchProofs.
Import ListNotations.
Local Open Scope list_scope.
Local Open Scope R_scope.
Set Bullet Behavior "Strict Subproofs".

Section P.
Variable I : interp.
Theorem rat_poly_function x e : positive_integer_powers e -> is_rational_polynomial x e = true -> polynomial_function I x e.
Proof.
  induction e using expr_ind'; intros PI P; cbn [is_rational_polynomial] in P; apply orb_true_iff in P as [P|P];
    try (apply pf_scalar, (proj1 (is_rational_scalar_ok I x _ PI P))); try discriminate; intros rho; cbn [positive_integer_powers] in PI.
  - apply String.eqb_eq in P. subst s. right. exists [0; 1]. intros t. cbn. unfold upd. rewrite String.eqb_refl. f_equal. lra.
  - induction H as [|a l Ha Hl IH].
    + right. exists []. intros t. reflexivity.
    + cbn [forallb] in P. apply andb_true_iff in P as [P1 P2]. cbn [fold_right] in PI. destruct PI as [PA PL]. destruct (Ha PA P1 rho) as [N|[c Hc]].
      * left. intros t. rewrite eval_Add, esum_cons, N. reflexivity.
      * destruct (IH PL P2) as [N|[d Hd]].
        -- left. intros t. specialize (N t). rewrite eval_Add in *. rewrite esum_cons, N. destruct (eval I (upd rho x t) a); auto.
        -- right. exists (cadd c d). intros t. specialize (Hd t). rewrite eval_Add in *. rewrite esum_cons, Hc, Hd. cbn. now rewrite rpoly_cadd.
  - induction H as [|a l Ha Hl IH].
    + right. exists [1]. intros t. cbn. f_equal. lra.
    + cbn [forallb] in P. apply andb_true_iff in P as [P1 P2]. cbn [fold_right] in PI. destruct PI as [PA PL]. destruct (Ha PA P1 rho) as [N|[c Hc]].
      * left. intros t. rewrite eval_Mul, eprod_cons, N. reflexivity.
      * destruct (IH PL P2) as [N|[d Hd]].
        -- left. intros t. specialize (N t). rewrite eval_Mul in *. rewrite eprod_cons, N. destruct (eval I (upd rho x t) a); auto.
        -- right. exists (cmul c d). intros t. specialize (Hd t). rewrite eval_Mul in *. rewrite eprod_cons, Hc, Hd. cbn. now rewrite rpoly_cmul.
  - apply andb_true_iff in P as [P1 P2]. destruct PI as [PA _]. destruct e2; try discriminate. cbn in P2. apply andb_true_iff in P2 as [P2 P3].
    apply q_is_int_spec in P2. apply q_lt_spec in P3. rewrite rv_0 in P3. destruct (IHe1 PA P1 rho) as [N|[c Hc]].
    + left. intros t. cbn [eval]. rewrite N. reflexivity.
    + right. exists (cpow c (Z.to_nat (q_int q))). intros t. cbn [eval]. rewrite Hc. cbn [obind].
      rewrite rpoly_cpow. replace (rv q) with (INR (Z.to_nat (q_int q))); [apply rpow_nat|].
      rewrite INR_IZR_INZ, Z2Nat.id; auto. apply le_IZR. lra.
Qed.
Lemma rational_add a b : is_rational a -> is_rational b -> is_rational (a + b).
Proof.
  intros (p & q & Hq & ->) (r & s & Hs & ->). exists (p * s + r * q)%Z, (q * s)%Z. split; [lia|].
  rewrite plus_IZR, !mult_IZR. apply not_0_IZR in Hq. apply not_0_IZR in Hs. field. auto.
Qed.
Lemma rational_mul a b : is_rational a -> is_rational b -> is_rational (a * b).
Proof.
  intros (p & q & Hq & ->) (r & s & Hs & ->). exists (p * r)%Z, (q * s)%Z. split; [lia|].
  rewrite !mult_IZR. apply not_0_IZR in Hq. apply not_0_IZR in Hs. field. auto.
Qed.
Theorem rat_poly_value x e : positive_integer_powers e -> is_rational_polynomial x e = true ->
  forall rho v, (forall s, is_rational (rho s)) -> eval I rho e = Some v -> is_rational v.
Proof.
  induction e using expr_ind'; intros PI P rho v R E; cbn [is_rational_polynomial] in P; apply orb_true_iff in P as [P|P];
    try (exact (proj2 (is_rational_scalar_ok I x _ PI P) rho v R E)); try discriminate; cbn [positive_integer_powers] in PI.
  - cbn in E. injection E as <-. apply R.
  - revert v E. induction H as [|a l Ha Hl IH]; intros v E.
    + cbn in E. injection E as <-. exists 0%Z, 1%Z. split; [lia|]. lra.
    + cbn [forallb] in P. apply andb_true_iff in P as [P1 P2]. cbn [fold_right] in PI. destruct PI as [PA PL].
      rewrite eval_Add, esum_cons in E. specialize (IH PL P2). rewrite eval_Add in IH.
      destruct (eval I rho a) as [u|] eqn:Eu; [|discriminate].
      match type of E with olift2 _ _ ?t = _ => destruct t as [w|] eqn:Ew; [|discriminate] end. cbn in E. injection E as <-.
      apply rational_add; eauto.
  - revert v E. induction H as [|a l Ha Hl IH]; intros v E.
    + cbn in E. injection E as <-. exists 1%Z, 1%Z. split; [lia|]. lra.
    + cbn [forallb] in P. apply andb_true_iff in P as [P1 P2]. cbn [fold_right] in PI. destruct PI as [PA PL].
      rewrite eval_Mul, eprod_cons in E. specialize (IH PL P2). rewrite eval_Mul in IH.
      destruct (eval I rho a) as [u|] eqn:Eu; [|discriminate].
      match type of E with olift2 _ _ ?t = _ => destruct t as [w|] eqn:Ew; [|discriminate] end. cbn in E. injection E as <-.
      apply rational_mul; eauto.
  - apply andb_true_iff in P as [P1 _]. destruct PI as [PA [n ->]]. cbn [eval] in E.
    destruct (eval I rho e1) as [b|] eqn:Eb; [|discriminate]. cbn [obind] in E. rewrite rv_zq in E.
    replace (IZR (Z.pos n)) with (INR (Pos.to_nat n)) in E by (rewrite INR_IZR_INZ, positive_nat_Z; auto).
    rewrite rpow_nat in E. injection E as <-. apply rational_pow. eauto.
Qed.
End P.

(** * The largest index *)
Local Open Scope Z_scope.
Definition idx (e : expr) (i : Z) : Prop := exists l, outside_x (Fun FX (Num (zq i) :: l)) e.
Definition good (J : Z -> Prop) (m : Z) (r : option Z) : Prop :=
  match r with
  | Some M => m <= M <= int_max /\ (forall i, J i -> i <= M) /\ (M = m \/ J M)
  | None => exists i, J i /\ int_max < i
  end.
Definition run (f : Z -> option Z) (J : Z -> Prop) : Prop := forall m, 0 <= m <= int_max -> good J m (f m).
Lemma run_seq f g J K L : run f J -> run g K -> (forall i, L i <-> J i \/ K i) ->
  run (fun m => match f m with None => None | Some m' => g m' end) L.
Proof.
  intros Hf Hg E m Hm. specialize (Hf m Hm). destruct (f m) as [m'|].
  - destruct Hf as (B & U & W). specialize (Hg m' ltac:(lia)). destruct (g m') as [M|]; cbn in *.
    + destruct Hg as (B' & U' & W'). split; [lia|]. split.
      * intros i Hi. apply E in Hi as [Hi|Hi]; [specialize (U i Hi); lia|auto].
      * destruct W' as [->|W']; [destruct W as [->|W]; [auto|right; apply E; auto]|right; apply E; auto].
    + destruct Hg as (i & Hi & G). exists i. split; auto. apply E. auto.
  - destruct Hf as (i & Hi & G). exists i. split; auto. apply E. auto.
Qed.
Lemma run_nop J : (forall i, ~ J i) -> run Some J.
Proof. intros N m Hm. cbn. split; [lia|]. split; [intros i Hi; destruct (N i Hi)|auto]. Qed.
Lemma run_ext f J K : run f J -> (forall i, K i <-> J i) -> run f K.
Proof.
  intros H E m Hm. specialize (H m Hm). destruct (f m) as [M|]; cbn in *.
  - destruct H as (B & U & W). split; [lia|]. split; [intros i Hi; apply U, E, Hi|destruct W; auto; right; apply E; auto].
  - destruct H as (i & Hi & G). exists i. split; auto. apply E. auto.
Qed.
Fixpoint gmi_list (l : list expr) (m : Z) : option Z :=
  match l with
  | [] => Some m
  | a :: l' => match gmi_list l' m with None => None | Some m' => get_max_index_symbolic_i_c a m' end
  end.
Lemma run_list l : Forall (fun a => run (get_max_index_symbolic_i_c a) (idx a)) l ->
  run (gmi_list l) (fun i => exists a, In a l /\ idx a i).
Proof.
  induction 1 as [|a l Ha Hl IH].
  - apply run_nop. intros i (a & [] & _).
  - apply (run_seq _ _ _ _ _ IH Ha). intros i. split.
    + intros (b & [<- |Hb] & H); [right; exact H|left; exists b; auto].
    + intros [(b & Hb & H)|H]; [exists b; split; [right|]; auto|exists a; split; [left|]; auto].
Qed.
(** Outside the functions x the indices are those of the children. *)
Lemma idx_node e i : (forall l, e <> Fun FX l) -> (idx e i <-> exists c, In c (children e) /\ idx c i).
Proof.
  intros N. split.
  - intros (l & H). inversion H as [E|c f _ Hc Hs]; subst.
    + destruct (N _ eq_refl).
    + exists c. split; auto. exists l. exact Hs.
  - intros (c & Hc & l & H). exists l. exact (outside_child _ c e N Hc H).
Qed.
Lemma idx_sym s i : ~ idx (Sym s) i.
Proof. intros H. apply idx_node in H; [|discriminate]. destruct H as (c & [] & _). Qed.
Lemma idx_x l i : idx (Fun FX l) i <-> exists l', l = Num (zq i) :: l'.
Proof.
  split.
  - intros (l' & H). inversion H as [E|c f N _ _]; subst; [exists l'; auto|destruct (N _ eq_refl)].
  - intros (l' & ->). exists l'. constructor.
Qed.
Lemma to_uint_in i : 0 <= i <= int_max -> to_unsigned_int (zq i) = Some i.
Proof.
  intros H. unfold to_unsigned_int. rewrite q_is_int_zq. rewrite (proj2 (q_lt_false _ _)); [|rewrite !rv_zq; apply IZR_le; lia].
  rewrite (proj2 (q_lt_false _ _)); [|rewrite !rv_zq; apply IZR_le; lia]. cbn [andb negb]. f_equal. exact (q_int_zq i).
Qed.
Lemma to_uint_out i : int_max < i -> to_unsigned_int (zq i) = None.
Proof. intros H. unfold to_unsigned_int. rewrite q_is_int_zq. rewrite (proj2 (q_lt_spec _ _)); [reflexivity|]. rewrite !rv_zq. apply IZR_lt. lia. Qed.
Theorem max_index_run e : run (get_max_index_symbolic_i_c e) (idx e).
Proof.
  assert (ND : forall (e : expr) L, (forall l, e <> Fun FX l) -> children e = L -> run (gmi_list L) (fun i => exists a, In a L /\ idx a i) -> run (gmi_list L) (idx e)).
  { intros f L N C H. apply (run_ext _ _ _ H). intros i. rewrite <- C. now apply idx_node. }
  induction e as [q|c|s|l IH|l IH|a b IHa IHb|f l IH|k lo up e I1 I2 I3|k lo up e I1 I2 I3] using expr_ind'.
  - apply run_nop. intros i H. apply idx_node in H; [|discriminate]. destruct H as (c & [] & _).
  - apply run_nop. intros i H. apply idx_node in H; [|discriminate]. destruct H as (d & [] & _).
  - apply run_nop. intros i. apply idx_sym.
  - apply (ND (Add l) l); [discriminate|reflexivity|]. now apply run_list.
  - apply (ND (Mul l) l); [discriminate|reflexivity|]. now apply run_list.
  - apply (run_seq _ _ _ _ _ IHa IHb). intros i. rewrite idx_node; [|discriminate]. cbn [children]. split.
    + intros (c & [<- |[<- |[]]] & H); auto.
    + intros [H|H]; [exists a|exists b]; cbn; auto.
  - assert (D : f = FX \/ f <> FX) by (destruct f; ((left; reflexivity) || (right; discriminate))).
    destruct D as [-> |D].
    + assert (NX : forall r, (forall i l', r <> Num (zq i) :: l') -> run Some (idx (Fun FX r))).
      { intros r C. apply run_nop. intros i H. apply idx_x in H. destruct H as (l' & H). exact (C i l' H). }
      intros m Hm. destruct l as [|a l]; [exact (NX [] ltac:(discriminate) m Hm)|].
      destruct a as [q|c|s|l1|l1|a b|f l1|k lo up b|k lo up b]; try (refine (NX (_ :: l) _ m Hm); discriminate).
      cbn [get_max_index_symbolic_i_c]. destruct (q_is_int q) eqn:Q.
      * rewrite (zq_q_int q Q). set (i := q_int q). assert (J : forall j, idx (Fun FX (Num (zq i) :: l)) j <-> j = i).
        { intros j. rewrite idx_x. split; [|intros ->; exists l; reflexivity]. intros (l' & H). 
          apply (f_equal (fun r => match r with Num p :: _ => q_int p | _ => 0 end)) in H. cbv beta iota in H. rewrite !q_int_zq in H. now symmetry. }
        destruct (q_lt (zq m) (zq i)) eqn:L; cbn [andb].
        -- apply q_lt_spec in L. rewrite !rv_zq in L. apply lt_IZR in L. destruct (Z_lt_le_dec int_max i) as [B|B].
           ++ rewrite (to_uint_out i B). exists i. split; [now apply J|exact B].
           ++ rewrite to_uint_in by lia. cbn. split; [lia|]. split; [intros j Hj; apply J in Hj; lia|right; now apply J].
        -- apply q_lt_false in L. rewrite !rv_zq in L. apply le_IZR in L. cbn. split; [lia|]. split; [intros j Hj; apply J in Hj; lia|auto].
      * cbn [andb]. apply run_nop; [|exact Hm]. intros i H. apply idx_x in H. destruct H as (l' & H). injection H as -> _. rewrite q_is_int_zq in Q. discriminate.
    + assert (N : forall u, Fun f l <> Fun FX u) by (intros u C; injection C as C _; auto).
      assert (G : run (gmi_list l) (idx (Fun f l))) by (apply (ND (Fun f l) l N eq_refl); now apply run_list).
      destruct f; try exact G. destruct (D eq_refl).
  - assert (G : run (gmi_list [lo; up; e]) (fun i => exists a, In a [lo; up; e] /\ idx a i)) by (apply run_list; repeat constructor; assumption).
    apply (run_ext _ _ (idx (SumE k lo up e))) in G.
    + intros m Hm. specialize (G m Hm). cbn [gmi_list] in G. cbn [get_max_index_symbolic_i_c]. destruct (get_max_index_symbolic_i_c e m); exact G.
    + intros i. rewrite idx_node; [|discriminate]. cbn [children]. split; intros (c & H & Hi).
      * destruct H as [<- |H]; [destruct (idx_sym _ _ Hi)|exists c; auto].
      * exists c. split; [right|]; auto.
  - assert (G : run (gmi_list [lo; up; e]) (fun i => exists a, In a [lo; up; e] /\ idx a i)) by (apply run_list; repeat constructor; assumption).
    apply (run_ext _ _ (idx (ProdE k lo up e))) in G.
    + intros m Hm. specialize (G m Hm). cbn [gmi_list] in G. cbn [get_max_index_symbolic_i_c]. destruct (get_max_index_symbolic_i_c e m); exact G.
    + intros i. rewrite idx_node; [|discriminate]. cbn [children]. split; intros (c & H & Hi).
      * destruct H as [<- |H]; [destruct (idx_sym _ _ Hi)|exists c; auto].
      * exists c. split; [right|]; auto.
Qed.
