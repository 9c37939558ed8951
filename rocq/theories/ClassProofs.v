From Coq Require Import ZArith QArith Qcanon Qreals Reals List String Bool Lia Lra.
From Verif Require Import Ast ExprModel ExprSpec ExprProofs1 ExprProofs2 SeqInterp ElimModel ElimSpec ElimProofs ClassModel ClassSpec.
Import ListNotations.
Local Open Scope list_scope.
Local Open Scope R_scope.

Definition fx (e : expr) : Prop := match e with Fun FX (_ :: _) => True | _ => False end.
Lemma shift_of_inv a z : shift_of a = Some z -> is_n_plus a z.
Proof.
  destruct a as [| | |[|[| | | | | | | |] [|[| | | | | | | |] [|? ?]]]| | | | |]; try discriminate; cbn [shift_of].
  - destruct (String.eqb s "n") eqn:E; [|discriminate]. destruct (q_is_int q) eqn:Q; [|discriminate]. cbn. intros [= <-]. apply String.eqb_eq in E. subst s.
    right. right. now rewrite <- zq_q_int.
  - destruct (String.eqb s "n") eqn:E; [|discriminate]. destruct (q_is_int q) eqn:Q; [|discriminate]. cbn. intros [= <-]. apply String.eqb_eq in E. subst s.
    right. left. now rewrite <- zq_q_int.
Qed.
Lemma Qc_inv_inv q : q <> 0%Qc -> (/ / q)%Qc = q.
Proof.
  intros H. assert (N : (/ q)%Qc <> 0%Qc).
  { intros E. pose proof (Qcmult_inv_r q H) as M. rewrite E, Qcmult_0_r in M. discriminate. }
  rewrite <- (Qcmult_1_l (/ / q)), <- (Qcmult_inv_r q H), <- Qcmult_assoc, (Qcmult_inv_r (/ q) N). apply Qcmult_1_r.
Qed.
Lemma divisor_inv a d : constant_divisor a = Some d -> is_n_over a d.
Proof.
  assert (P : forall q, negb (q_is_int q) && q_lt 0 q = true -> q <> 0%Qc).
  { intros q H ->. rewrite andb_true_iff in H. destruct H as [_ H]. apply q_lt_spec in H. rewrite rv_0 in H. lra. }
  destruct a as [| | | |[|[| | | | | | | |] [|[| | | | | | | |] [|? ?]]]| | | |]; try discriminate; cbn [constant_divisor].
  - destruct (String.eqb s "n") eqn:E; [|discriminate]. cbn [andb]. destruct (negb (q_is_int q) && q_lt 0 q) eqn:Q; [|discriminate]. intros E0; assert (d = (/ q)%Qc) as -> by congruence; clear E0. apply String.eqb_eq in E. subst s.
    pose proof (P q Q) as N. split; [|right; now rewrite Qc_inv_inv]. intros Z0. apply N. rewrite <- (Qc_inv_inv q N), Z0. reflexivity.
  - destruct (String.eqb s "n") eqn:E; [|discriminate]. cbn [andb]. destruct (negb (q_is_int q) && q_lt 0 q) eqn:Q; [|discriminate]. intros E0; assert (d = (/ q)%Qc) as -> by congruence; clear E0. apply String.eqb_eq in E. subst s.
    pose proof (P q Q) as N. split; [|left; now rewrite Qc_inv_inv]. intros Z0. apply N. rewrite <- (Qc_inv_inv q N), Z0. reflexivity.
Qed.

Section Values.
Context (I : interp) (rho : string -> R) (x : nat -> R) (n : nat).
Hypothesis HX : forall l, ifun I FX l = None.
Notation J := (with_x I x).
Notation rn := (upd rho "n" (INR n)).
Lemma fx_one l v : eval J rn (Fun FX l) = Some v -> exists a, l = [a].
Proof.
  cbn [eval]. destruct l as [|a [|b l]]; [cbn; rewrite HX; discriminate|eauto|]. destruct (omap _ _) as [[|u [|w vs]]|] eqn:O; cbn; rewrite ?HX; try discriminate.
  exfalso. cbn [omap] in O. destruct (eval J rn a); [|discriminate]. destruct (eval J rn b); [|discriminate]. fold (@omap expr) in O. 
  destruct (omap (eval J rn) l) eqn:O'; cbn in O; rewrite ?O' in O; discriminate.
Qed.
Lemma n_plus_val a z : is_n_plus a z -> eval J rn a = Some (IZR (Z.of_nat n + z)).
Proof.
  rewrite plus_IZR, <- INR_IZR. intros [[-> ->]|[->| ->]].
  - cbn. replace (upd rho "n" (INR n) "n"%string) with (INR n) by reflexivity. f_equal. lra.
  - rewrite eval_Add2. cbn. replace (upd rho "n" (INR n) "n"%string) with (INR n) by reflexivity. now rewrite rv_zq.
  - rewrite eval_Add2. cbn. replace (upd rho "n" (INR n) "n"%string) with (INR n) by reflexivity. rewrite rv_zq. f_equal. lra.
Qed.
Lemma x_dec_val a z v : is_n_plus a z -> eval J rn (Fun FX [a]) = Some v -> (z <= 0)%Z -> (Z.to_nat (- z) <= n)%nat /\ v = x (n - Z.to_nat (- z))%nat.
Proof.
  intros Ha Hv Hz. cbn [eval omap] in Hv. rewrite (n_plus_val a z Ha) in Hv. cbn [obind with_x ifun] in Hv. rewrite as_int_IZR in Hv.
  destruct (Z.leb_spec 0 (Z.of_nat n + z)); [|discriminate]. split; [lia|]. assert (v = x (Z.to_nat (Z.of_nat n + z))) as -> by congruence. f_equal. lia.
Qed.
Lemma x_shift_val i : (i <= n)%nat -> eval J rn (Fun FX [Add [Sym "n"; Num (zq (- Z.of_nat i))]]) = Some (x (n - i)%nat).
Proof. intros H. pose proof (x_plus_val I rho x n (- Z.of_nat i) (n - i)%nat ltac:(lia)) as E. exact E. Qed.
Lemma x_div_val a d v : is_n_over a d -> eval J rn (Fun FX [a]) = Some v -> eval J rn (Fun FX [Mul [Sym "n"; Num (/ d)%Qc]]) = Some v.
Proof.
  intros [_ [->| ->]]; auto. intros H. rewrite <- H.
  assert (E : eval J rn (Mul [Num (/ d)%Qc; Sym "n"]) = eval J rn (Mul [Sym "n"; Num (/ d)%Qc])).
  { rewrite !eval_Mul2, eval_num. replace (eval J rn (Sym "n")) with (Some (INR n)) by reflexivity. cbn [olift2]. f_equal. lra. }
  set (e1 := Mul [Num (/ d)%Qc; Sym "n"]) in *. set (e2 := Mul [Sym "n"; Num (/ d)%Qc]) in *. clearbody e1 e2. cbn [eval omap]. now rewrite E.
Qed.

(** * Inserting a coefficient *)
Context (G : ginac).
Hypothesis HG : ginac_ok J G.
Lemma shifted_app i l m : shifted_terms i (l ++ m) = shifted_terms i l ++ shifted_terms (i + List.length l) m.
Proof. revert i. induction l as [|c l IH]; intros i; cbn [app shifted_terms List.length]; [now rewrite Nat.add_0_r|]. rewrite IH. do 3 f_equal. lia. Qed.
Lemma shifted_zeros k : forall i, (i + k <= n + 1)%nat -> esum J rn (shifted_terms i (repeat (Num 0%Qc) k)) = Some 0.
Proof.
  induction k as [|k IH]; intros i H; [reflexivity|]. cbn [repeat shifted_terms]. rewrite esum_cons, IH by lia. rewrite eval_Mul2, x_shift_val by lia. rewrite eval_num, rv_0. cbn. f_equal. lra.
Qed.
Lemma add_nth_val c w : eval J rn c = Some w -> forall l j i u, (j < List.length l)%nat -> (i + j <= n)%nat ->
  esum J rn (shifted_terms i l) = Some u -> esum J rn (shifted_terms i (add_nth G j c l)) = Some (u + w * x (n - (i + j))%nat).
Proof.
  intros Hw. induction l as [|a l IH]; intros j i u Hj Hi Hu; [cbn in Hj; lia|]. cbn [shifted_terms] in Hu. rewrite esum_cons, eval_Mul2 in Hu.
  apply olift2_some in Hu as (p & q & Ep & Eq & ->). apply olift2_some in Ep as (s & t & Es & Et & ->).
  destruct j as [|j]; cbn [add_nth shifted_terms]; rewrite esum_cons, eval_Mul2.
  - rewrite (gadd_val _ _ HG _ _ _ s w), Et, Eq by auto. cbn [olift2]. f_equal. rewrite Nat.add_0_r. rewrite x_shift_val in Et by lia. assert (t = x (n - i)%nat) as -> by congruence. lra.
  - rewrite (IH j (S i) q); auto; [|cbn in Hj; lia|lia]. rewrite Es, Et. cbn [olift2]. f_equal. replace (S i + j)%nat with (i + S j)%nat by lia. lra.
Qed.
Lemma insert_val c w l j u : eval J rn c = Some w -> (j <= n)%nat -> esum J rn (shifted_terms 0 l) = Some u ->
  esum J rn (shifted_terms 0 (insert_coefficients G c j l)) = Some (u + w * x (n - j)%nat).
Proof.
  intros Hw Hj Hu. unfold insert_coefficients.
  set (l' := if (List.length l <? j)%nat then l ++ repeat (Num 0%Qc) (j - List.length l) else l).
  assert (Hl : esum J rn (shifted_terms 0 l') = Some u /\ (j <= List.length l')%nat).
  { unfold l'. destruct (Nat.ltb_spec (List.length l) j).
    - split; [|rewrite app_length, repeat_length; lia]. rewrite shifted_app, esum_app, Hu, shifted_zeros by lia. cbn. f_equal. lra.
    - auto. }
  destruct Hl as [Hl Hlen]. clearbody l'. destruct (Nat.eqb_spec j (List.length l')) as [->|N].
  - rewrite shifted_app, esum_app, Hl. cbn [shifted_terms Nat.add]. rewrite esum_1, eval_Mul2, x_shift_val, Hw by lia. reflexivity.
  - rewrite (add_nth_val c w Hw l' j 0 u); auto; lia.
Qed.
Lemma insert_length c j l : List.length (insert_coefficients G c j l) = Nat.max (List.length l) (S j).
Proof.
  unfold insert_coefficients. assert (A : forall i l, List.length (add_nth G i c l) = List.length l).
  { intros i l0. revert i. induction l0 as [|a l0 IH]; intros [|i]; cbn; auto. }
  destruct (Nat.ltb_spec (List.length l) j).
  - rewrite app_length, repeat_length. destruct (Nat.eqb_spec j (List.length l + (j - List.length l))); [|lia]. rewrite !app_length, repeat_length. cbn. lia.
  - destruct (Nat.eqb_spec j (List.length l)) as [->|N]; [rewrite app_length; cbn; lia|]. rewrite A. lia.
Qed.
Lemma divided_insert d c w m u t : eval J rn c = Some w -> eval J rn (Fun FX [Mul [Sym "n"; Num (/ d)%Qc]]) = Some t ->
  (forall p, In p m -> fst p <> d) -> esum J rn (divided_terms m) = Some u ->
  esum J rn (divided_terms (map_insert d c m)) = Some (u + w * t).
Proof.
  intros Hw Ht Hd Hu. unfold map_insert. replace (existsb _ m) with false.
  - unfold divided_terms. rewrite map_app, esum_app. fold (divided_terms m). rewrite Hu. cbn [map fst snd]. rewrite esum_1, eval_Mul2, Hw, Ht. reflexivity.
  - symmetry. apply not_true_iff_false. rewrite existsb_exists. intros (p & Hp & E). apply Qc_eqb_eq in E. exact (Hd p Hp E).
Qed.

Definition form (s : cls) : expr := reassembled (c_coeffs s) (c_hom s) (c_inhom s).
Lemma form_val s v : eval J rn (form s) = Some v <-> exists b u h, eval J rn (c_inhom s) = Some b /\
  esum J rn (shifted_terms 0 (c_coeffs s)) = Some u /\ esum J rn (divided_terms (c_hom s)) = Some h /\ v = b + u + h.
Proof.
  unfold form, reassembled. rewrite eval_Add, esum_cons, esum_app, olift2_some. split.
  - intros (b & y & Hb & Hy & ->). apply olift2_some in Hy as (u & h & Hu & Hh & ->). exists b, u, h. repeat split; auto. lra.
  - intros (b & u & h & Hb & Hu & Hh & ->). exists b, (u + h). rewrite Hu, Hh. repeat split; auto. lra.
Qed.
Lemma put_coeff_val s c w j v : eval J rn c = Some w -> (j <= n)%nat -> eval J rn (form s) = Some v ->
  eval J rn (form (put_coeff G c j s)) = Some (v + w * x (n - j)%nat).
Proof.
  intros Hw Hj Hv. apply form_val in Hv as (b & u & h & Hb & Hu & Hh & ->). apply form_val. exists b, (u + w * x (n - j)%nat), h. cbn [put_coeff c_inhom c_coeffs c_hom].
  repeat split; auto; [now apply insert_val|lra].
Qed.
Lemma put_hom_val s d c w t v : eval J rn c = Some w -> eval J rn (Fun FX [Mul [Sym "n"; Num (/ d)%Qc]]) = Some t ->
  (forall p, In p (c_hom s) -> fst p <> d) -> eval J rn (form s) = Some v -> eval J rn (form (put_hom d c s)) = Some (v + w * t).
Proof.
  intros Hw Ht Hd Hv. apply form_val in Hv as (b & u & h & Hb & Hu & Hh & ->). apply form_val. exists b, u, (h + w * t). cbn [put_hom c_inhom c_coeffs c_hom].
  repeat split; auto; [now apply divided_insert|lra].
Qed.
Lemma put_inhom_val s e w v : eval J rn e = Some w -> eval J rn (form s) = Some v -> eval J rn (form (put_inhom G e s)) = Some (v + w).
Proof.
  intros Hw Hv. apply form_val in Hv as (b & u & h & Hb & Hu & Hh & ->).
  assert (E : form (put_inhom G e s) = reassembled (c_coeffs s) (c_hom s) (gadd G (c_inhom s) e)) by (unfold put_inhom; cbn [c_type]; destruct (c_type s); reflexivity).
  rewrite E. apply (form_val (MkC 0 (c_coeffs s) 0%Z (c_hom s) (gadd G (c_inhom s) e) None)). exists (b + w), u, h. cbn. repeat split; auto; [|lra]. now apply (gadd_val _ _ HG).
Qed.

(** * The loop over the factors *)
Lemma nl_true l term : non_linear_loop l true term = LINEAR_TERM -> forall a y, In (Fun FX (a :: y)) l -> has "n" a = false.
Proof.
  revert term. induction l as [|f l IH]; intros term H a y Hin; [destruct Hin|]. cbn [non_linear_loop] in H.
  assert (K : forall t, non_linear_loop l true t = LINEAR_TERM -> In (Fun FX (a :: y)) l -> has "n" a = false) by eauto.
  assert (NLt : forall l b, non_linear_loop l b LEGAL_NON_LINEAR_TERM <> LINEAR_TERM).
  { clear. induction l as [|f l IH]; intros b; [discriminate|]. cbn [non_linear_loop]. destruct (x_in_powers_or_functions f); try discriminate;
      destruct f as [| | | | | |[] [|? ?]| |]; auto; destruct (has "n" e); auto; destruct b; auto. }
  destruct Hin as [->|Hin].
  - destruct (has "n" a) eqn:E; auto. destruct (x_in_powers_or_functions _); try discriminate; exfalso; eapply NLt; exact H.
  - destruct (x_in_powers_or_functions f); try discriminate; destruct f as [| | | | | |[] [|e ?]| |]; eauto; destruct (has "n" e); eauto; exfalso; eapply NLt; exact H.
Qed.
Lemma nl_legal : forall l b, non_linear_loop l b LEGAL_NON_LINEAR_TERM <> LINEAR_TERM.
Proof.
  induction l as [|f l IH]; intros b; [discriminate|]. cbn [non_linear_loop]. destruct (x_in_powers_or_functions f); try discriminate;
      destruct f as [| | | | | |[] [|? ?]| |]; auto; destruct (has "n" e); auto; destruct b; auto.
Qed.
Lemma nl_term l b t : non_linear_loop l b t = LINEAR_TERM -> t = LINEAR_TERM \/ t <> LEGAL_NON_LINEAR_TERM.
Proof. intros H. destruct t; auto; try (right; discriminate). exfalso. eapply nl_legal; eauto. Qed.

End Values.
