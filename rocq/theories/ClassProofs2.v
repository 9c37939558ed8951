From Coq Require Import ZArith QArith Qcanon Qreals Reals List String Bool Lia Lra.
From Verif Require Import Ast ExprModel ExprSpec ExprProofs1 ExprProofs2 SeqInterp ElimModel ElimSpec ElimProofs ClassModel ClassSpec ClassProofs.
Import ListNotations.
Local Open Scope list_scope.
Local Open Scope R_scope.

Section Main.
Context (G : ginac) (lm ms : Z).
Notation loop := (factors_loop G lm ms).
Definition no_fx (l : list expr) : Prop := forall a y, ~ In (Fun FX (a :: y)) l.
Lemma no_fx_cons f l : no_fx (f :: l) -> no_fx l /\ ~ fx f.
Proof.
  intros H. split; [intros a y Hin; apply (H a y); now right|]. destruct f as [| | | | | |[] [|a y]| |]; try (intros []; fail). intros _. apply (H a y). now left.
Qed.
Lemma loop_step f l k no_x found hn s : ~ fx f -> loop (f :: l) k no_x found hn s =
  if is_weighted_sum f then (if is_fresh s then inl WEIGHTED_AVERAGE else inl CL_TOO_COMPLEX)
  else loop l k (gmul G no_x f) found (hn || has "n" f) s.
Proof. intros H. destruct f as [| | | | | |[] [|? ?]| |]; try reflexivity. exfalso. apply H. exact Logic.I. Qed.
Lemma loop_plain l k : no_fx l -> forall no_x found hn s no_x' found' hn' s', loop l k no_x found hn s = inr (no_x', found', hn', s') ->
  found' = found /\ s' = s /\ no_x' = fold_left (gmul G) l no_x /\ hn' = hn || existsb (has "n") l.
Proof.
  induction l as [|f l IH]; intros Hl no_x found hn s no_x' found' hn' s' E.
  - cbn in E. assert (no_x' = no_x /\ found' = found /\ hn' = hn /\ s' = s) as (-> & -> & -> & ->) by (repeat split; congruence). cbn. rewrite orb_false_r. auto.
  - apply no_fx_cons in Hl as [Hl Hf]. rewrite loop_step in E by auto. destruct (is_weighted_sum f); [destruct (is_fresh s); discriminate|].
    apply IH in E as (-> & -> & -> & ->); auto. cbn [fold_left existsb]. now rewrite orb_assoc.
Qed.
Lemma compute_order_inv z s s1 j : compute_order lm ms z s = inr (s1, j) -> (0 <= z)%Z /\ j = Z.to_nat z /\
  c_order s1 = Nat.max (c_order s) j /\ c_coeffs s1 = c_coeffs s /\ c_gcd s1 = c_gcd s /\ c_hom s1 = c_hom s /\ c_inhom s1 = c_inhom s /\ c_type s1 = c_type s.
Proof.
  unfold compute_order. destruct (Z.ltb_spec z 0); [discriminate|]. destruct (_ || _); [discriminate|]. intros E.
  assert (j = Z.to_nat z) as -> by congruence. assert (s1 = MkC (if (c_order s =? 0)%nat || (c_order s <? Z.to_nat z)%nat then Z.to_nat z else c_order s) (c_coeffs s) (c_gcd s) (c_hom s) (c_inhom s) (c_type s)) as -> by congruence.
  cbn [c_order c_coeffs c_gcd c_hom c_inhom c_type]. repeat split; auto. destruct (Nat.eqb_spec (c_order s) 0); cbn [orb]; [lia|]. destruct (Nat.ltb_spec (c_order s) (Z.to_nat z)); lia.
Qed.
(** What is found in a product with at most one x(.) depending on n. *)
Inductive found_in (s : cls) (k : nat) : list expr -> list expr -> x_found -> cls -> Prop :=
  | fi_none l : no_fx l -> found_in s k l l No_x s
  | fi_dec l1 a y l2 z s1 j : no_fx l1 -> no_fx l2 -> shift_of a = Some z -> compute_order lm ms (- z) s = inr (s1, j) -> is_functional s1 = false ->
      found_in s k (l1 ++ Fun FX (a :: y) :: l2) (l1 ++ l2) (Decrement j) (set_gcd k j s1)
  | fi_div l1 a y l2 d s' : no_fx l1 -> no_fx l2 -> constant_divisor a = Some d -> (is_fresh s = true /\ s' = set_type FUNCTIONAL s \/ is_functional s = true /\ s' = s) ->
      found_in s k (l1 ++ Fun FX (a :: y) :: l2) (l1 ++ l2) (Divisor d) s'.
Lemma nl_no_fx l t k no_x found hn s res : non_linear_loop l true t = LINEAR_TERM -> loop l k no_x found hn s = inr res -> no_fx l.
Proof.
  intros H E a y Hin. pose proof (nl_true l t H a y Hin) as Hn. clear H. revert no_x found hn s E. induction l as [|f l IH]; intros no_x found hn s E; [destruct Hin|].
  destruct Hin as [->|Hin].
  - cbn [factors_loop] in E. destruct (expr_eqb a (Sym "n")); [discriminate|]. rewrite Hn in E. discriminate.
  - specialize (IH Hin). destruct f as [| | | | | |[] [|e ?]| |];
      try (rewrite loop_step in E by (intros []); destruct (is_weighted_sum _); [destruct (is_fresh s); discriminate|]; eauto; fail).
    cbn [factors_loop] in E. destruct (expr_eqb e (Sym "n")); [discriminate|]. destruct (negb (has "n" e)); [discriminate|]. destruct (has_parameters e); [discriminate|].
    destruct e as [| | |[|? [|? [|? ?]]]|[|? [|? [|? ?]]]| | | |]; try discriminate.
    + destruct (shift_of _); [|discriminate]. destruct (compute_order _ _ _ _) as [|[s1 j]]; [discriminate|]. destruct (is_functional s1); [discriminate|]. eauto.
    + destruct (constant_divisor _); [|discriminate]. destruct (is_fresh s); [eauto|]. destruct (is_functional s); [eauto|discriminate].
Qed.
Lemma loop_found l k : forall t no_x hn s no_x' found' hn' s', non_linear_loop l false t = LINEAR_TERM -> loop l k no_x No_x hn s = inr (no_x', found', hn', s') ->
  exists cs, found_in s k l cs found' s' /\ no_x' = fold_left (gmul G) cs no_x /\ hn' = hn || existsb (has "n") cs.
Proof.
  induction l as [|f l IH]; intros t no_x hn s no_x' found' hn' s' H E.
  - cbn in E. assert (no_x' = no_x /\ found' = No_x /\ hn' = hn /\ s' = s) as (-> & -> & -> & ->) by (repeat split; congruence). exists []. split; [constructor; intros ? ? []|]. cbn. rewrite orb_false_r. auto.
  - assert (Cases : fx f \/ ~ fx f) by (destruct f as [| | | | | |[] [|? ?]| |]; cbn; tauto). destruct Cases as [Hf|Hf].
    + destruct f as [| | | | | |[] [|a y]| |]; try destruct Hf. cbn [factors_loop] in E.
      assert (Hnn : has "n" a = true) by (destruct (expr_eqb a (Sym "n")); [discriminate|]; destruct (has "n" a); [auto|discriminate]).
      cbn [non_linear_loop] in H. destruct (x_in_powers_or_functions (Fun FX (a :: y))) eqn:Ex; try discriminate; rewrite Hnn in H;
        try (cbn [x_in_powers_or_functions] in Ex; destruct (existsb (has_x_of "n") (a :: y)); discriminate).
      destruct (expr_eqb a (Sym "n")); [discriminate|]. rewrite Hnn in E. cbn [negb] in E. destruct (has_parameters a); [discriminate|].
      destruct a as [| | |la|la| | | |]; try discriminate; destruct la as [|e1 [|e2 [|? ?]]]; try discriminate.
      * destruct (shift_of (Add [e1; e2])) as [z|] eqn:Ez; [|discriminate]. destruct (compute_order _ _ _ _) as [|[s1 j]] eqn:Ec; [discriminate|]. destruct (is_functional s1) eqn:Ef; [discriminate|].
        pose proof (nl_no_fx _ _ _ _ _ _ _ _ H E) as Hl. apply loop_plain in E as (-> & -> & -> & ->); auto. exists l. split; [|auto].
        apply (fi_dec s k [] (Add [e1; e2]) y l z s1 j); auto. intros ? ? [].
      * destruct (constant_divisor (Mul [e1; e2])) as [d|] eqn:Ez; [|discriminate].
        assert (K : exists s1, (is_fresh s = true /\ s1 = set_type FUNCTIONAL s \/ is_functional s = true /\ s1 = s) /\ loop l k no_x (Divisor d) hn s1 = inr (no_x', found', hn', s')).
        { destruct (is_fresh s); [eauto|]. destruct (is_functional s); [eauto|discriminate]. }
        destruct K as (s1 & Hs1 & E1). pose proof (nl_no_fx _ _ _ _ _ _ _ _ H E1) as Hl. apply loop_plain in E1 as (-> & -> & -> & ->); auto. exists l. split; [|auto].
        apply (fi_div s k [] (Mul [e1; e2]) y l d s1); auto. intros ? ? [].
    + rewrite loop_step in E by auto. destruct (is_weighted_sum f); [destruct (is_fresh s); discriminate|].
      assert (H' : exists t', non_linear_loop l false t' = LINEAR_TERM).
      { cbn [non_linear_loop] in H. destruct (x_in_powers_or_functions f); try discriminate; destruct f as [| | | | | |[] [|? ?]| |]; eauto; exfalso; apply Hf; exact Logic.I. }
      destruct H' as [t' H']. apply IH with (t := t') in E as (cs & F & -> & ->); auto. exists (f :: cs). cbn [fold_left existsb]. rewrite orb_assoc. split; [|auto].
      assert (N : forall m, no_fx m -> no_fx (f :: m)). { intros m Hm a y [->|Hin]; [apply Hf; exact Logic.I|exact (Hm a y Hin)]. }
      inversion F; subst.
      * apply fi_none. auto.
      * apply (fi_dec s k (f :: l1) a y l2 z s1 j); auto.
      * apply (fi_div s k (f :: l1) a y l2 d s'); auto.
Qed.
(** Effect of one summand. *)
Inductive step_kind (t : expr) (k : nat) (s s' : cls) : Prop :=
  | sk_inhom e : (e = t /\ ~ fx t /\ not_mul t \/ exists l, t = Mul l /\ no_fx l /\ e = fold_left (gmul G) (rev l) (Num 1%Qc)) -> s' = put_inhom G e s -> step_kind t k s s'
  | sk_dec a z j cs c s1 : is_n_plus a z -> compute_order lm ms (- z) s = inr (s1, j) -> is_functional s1 = false ->
      ((exists y, t = Fun FX (a :: y)) /\ cs = [] \/ exists y f1 f2, t = Mul (f1 ++ Fun FX (a :: y) :: f2) /\ rev cs = f1 ++ f2) ->
      no_fx cs -> c = fold_left (gmul G) cs (Num 1%Qc) ->
      (exists ty, (ty = CONST_COEFF \/ ty = VAR_COEFF) /\ s' = set_type ty (put_coeff G c j (set_gcd k j s1)) /\
        (ty = CONST_COEFF -> existsb (has "n") cs = false /\ c_type s <> Some VAR_COEFF)) -> step_kind t k s s'
  | sk_div a d cs c : is_n_over a d -> (is_fresh s = true \/ is_functional s = true) ->
      ((exists y, t = Fun FX (a :: y)) /\ cs = [] \/ exists y f1 f2, t = Mul (f1 ++ Fun FX (a :: y) :: f2) /\ rev cs = f1 ++ f2) ->
      no_fx cs -> c = fold_left (gmul G) cs (Num 1%Qc) -> s' = set_type FUNCTIONAL (put_hom d c s) -> step_kind t k s s'.
Lemma cls_eta s : s = MkC (c_order s) (c_coeffs s) (c_gcd s) (c_hom s) (c_inhom s) (c_type s). Proof. now destruct s. Qed.
Lemma fresh_cases s : is_fresh s = false -> is_functional s = false -> c_type s = Some CONST_COEFF \/ c_type s = Some VAR_COEFF.
Proof. unfold is_fresh, is_functional. destruct (c_type s) as [[]|]; auto; discriminate. Qed.
Lemma no_fx_rev l : no_fx l -> no_fx (rev l). Proof. intros H a y Hin. apply (H a y). now apply in_rev. Qed.
Lemma summand_kind t k s s' : classification_summand G lm ms t k s = inr s' -> step_kind t k s s'.
Proof.
  unfold classification_summand. destruct (find_non_linear_term t) eqn:NL; try discriminate. intros E.
  assert (Gen : ~ fx t -> not_mul t -> (if is_weighted_sum t then (if is_fresh s then inl WEIGHTED_AVERAGE else inl CL_TOO_COMPLEX) else inr (put_inhom G t s)) = inr s' -> step_kind t k s s').
  { destruct (is_weighted_sum t); [destruct (is_fresh s); intros; discriminate|]. intros N1 N2 [= <-]. apply (sk_inhom _ _ _ _ t); auto. }
  destruct t as [| | | |l| |f l| |]; try exact (Gen (fun H => match H with end) Logic.I E).
  - cbn [find_non_linear_term] in NL. unfold summand_mul in E. destruct (loop (rev l) k (Num 1%Qc) No_x false s) as [|[[[no_x found] hn] s0]] eqn:L; [discriminate|].
    apply (loop_found _ _ _ _ _ _ _ _ _ _ NL) in L as (cs & F & -> & Hhn). cbn [orb] in Hhn. subst hn. inversion F; subst.
    + injection E as <-. apply (sk_inhom _ _ _ _ (fold_left (gmul G) (rev l) (Num 1%Qc))); auto. right. exists l. split; [auto|]. split; auto. rewrite <- (rev_involutive l). now apply no_fx_rev.
    + destruct (is_functional (set_gcd k j s1)) eqn:Ef; [discriminate|].
      assert (T : Mul l = Mul (rev l2 ++ Fun FX (a :: y) :: rev l1)) by (rewrite <- (rev_involutive l), <- H, rev_app_distr; cbn [rev]; now rewrite <- app_assoc).
      assert (CT : c_type s1 = c_type s) by (apply compute_order_inv in H3; tauto).
      eapply (sk_dec _ _ _ _ a z j (l1 ++ l2)); [now apply shift_of_inv|exact H3|exact H4| | |reflexivity|].
      * right. exists y, (rev l2), (rev l1). rewrite T. now rewrite rev_app_distr.
      * intros a' y' Hin. apply in_app_iff in Hin. destruct Hin as [Hin|Hin]; [exact (H0 _ _ Hin)|exact (H1 _ _ Hin)].

      * set (pc := put_coeff G _ j _) in *. assert (CP : c_type pc = c_type s) by (rewrite <- CT; reflexivity).
        destruct (c_type pc) as [[]|] eqn:Ep.
        4: { exfalso. unfold pc, is_functional in *. cbn in *. rewrite CT in Ef. rewrite <- CP in Ef. discriminate. }
        all: assert (SE : s' = match c_type pc with Some VAR_COEFF => pc | _ => set_type (if existsb (has "n") (l1 ++ l2) then VAR_COEFF else CONST_COEFF) pc end) by (rewrite Ep; congruence); rewrite Ep in SE.
        1,2,4: exists (if existsb (has "n") (l1 ++ l2) then VAR_COEFF else CONST_COEFF); split; [destruct (existsb _ _); auto|]; split; [exact SE|]; rewrite <- CP; destruct (existsb _ _); [discriminate|]; intros _; split; [auto|discriminate].
        exists VAR_COEFF. split; [auto|]. split; [|discriminate]. rewrite SE. rewrite (cls_eta pc), Ep. reflexivity.
    + destruct (is_functional s0) eqn:Ef; [|discriminate].
      assert (T : Mul l = Mul (rev l2 ++ Fun FX (a :: y) :: rev l1)) by (rewrite <- (rev_involutive l), <- H, rev_app_distr; cbn [rev]; now rewrite <- app_assoc).
      apply (sk_div _ _ _ _ a d (l1 ++ l2) (fold_left (gmul G) (l1 ++ l2) (Num 1%Qc))); auto; [now apply divisor_inv|tauto| | |].
      * right. exists y, (rev l2), (rev l1). rewrite T. now rewrite rev_app_distr.
      * intros a' y' Hin. apply in_app_iff in Hin. destruct Hin as [Hin|Hin]; [exact (H0 _ _ Hin)|exact (H1 _ _ Hin)].
      * assert (s' = put_hom d (fold_left (gmul G) (l1 ++ l2) (Num 1%Qc)) s0) as -> by congruence.
        destruct H3 as [[_ ->]|[Fu ->]]; [reflexivity|]. unfold is_functional in Fu. destruct s as [? ? ? ? ? [[]|]]; try discriminate. reflexivity.
  - destruct f; try exact (Gen (fun H => match H with end) Logic.I E). destruct l as [|a y]; [exact (Gen (fun H => match H with end) Logic.I E)|]. cbn [summand_x] in E. unfold summand_x in E.
    destruct (expr_eqb a (Sym "n")); [discriminate|]. destruct (negb (has "n" a)); [discriminate|]. destruct (has_parameters a); [discriminate|].
    destruct a as [| | |la|la| | | |]; try discriminate; destruct la as [|e1 [|e2 [|? ?]]]; try discriminate.
    + destruct (shift_of (Add [e1; e2])) as [z|] eqn:Ez; [|discriminate]. destruct (compute_order _ _ _ _) as [|[s1 j]] eqn:Ec; [discriminate|].
      destruct (negb (is_fresh s1) && is_functional s1) eqn:Ef; [discriminate|].
      assert (Fu : is_functional s1 = false) by (unfold is_fresh, is_functional in *; destruct (c_type s1) as [[]|]; auto).
      assert (CT : c_type s1 = c_type s) by (apply compute_order_inv in Ec; tauto).
      apply (sk_dec _ _ _ _ (Add [e1; e2]) z j [] (Num 1%Qc) s1); auto; [now apply shift_of_inv| |intros ? ? []|].
      * left. split; auto. eauto.
      * destruct (is_fresh s1) eqn:Fr.
        -- exists CONST_COEFF. split; [auto|]. split; [injection E as <-; reflexivity|]. intros _. split; [reflexivity|]. rewrite <- CT. unfold is_fresh in Fr. destruct (c_type s1) as [[]|]; discriminate.
        -- destruct (fresh_cases _ Fr Fu) as [Ty|Ty]; [exists CONST_COEFF|exists VAR_COEFF]; (split; [auto|]; split; [injection E as <-; rewrite (cls_eta (put_coeff _ _ _ _)); cbn; rewrite Ty; reflexivity|]).
           ++ intros _. split; [reflexivity|]. rewrite <- CT, Ty. discriminate.
           ++ discriminate.
    + destruct (constant_divisor (Mul [e1; e2])) as [d|] eqn:Ez; [|discriminate].
      apply (sk_div _ _ _ _ (Mul [e1; e2]) d [] (Num 1%Qc)); auto; [now apply divisor_inv| | |intros ? ? []|].
      * destruct (is_fresh s); [auto|]. destruct (is_functional s); [auto|discriminate].
      * left. split; auto. eauto.
      * destruct (is_fresh s); [injection E as <-; reflexivity|]. destruct (is_functional s) eqn:Fu; [|discriminate]. injection E as <-.
        unfold is_functional in Fu. destruct s as [? ? ? ? ? [[]|]]; try discriminate. reflexivity.
Qed.
End Main.
