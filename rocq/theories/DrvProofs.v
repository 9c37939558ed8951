From Coq Require Import ZArith QArith Qcanon Reals List String Bool Lia Lra.
From Verif Require Import Ast ExprModel ExprSpec SeqInterp ElimModel ElimSpec ElimProofs ElimProofs2 ClassModel DomModel DrvModel DrvSpec.
Import ListNotations.
Local Open Scope bool_scope.
Local Open Scope list_scope.

Section Retype.
Context (G : ginac) (lm ms : Z).
(** A classification that starts with a type is at most as successful as one that starts without. *)
Definition trel (t t' : option rtype) : Prop :=
  match t with
  | None | Some ORDER_ZERO => True
  | Some FUNCTIONAL => t' = Some FUNCTIONAL
  | Some CONST_COEFF => t' = Some CONST_COEFF \/ t' = Some VAR_COEFF
  | Some VAR_COEFF => t' = Some VAR_COEFF
  end.
Definition retype (t : option rtype) (s : cls) : cls := MkC (c_order s) (c_coeffs s) (c_gcd s) (c_hom s) (c_inhom s) t.
Definition rel (s s' : cls) : Prop := s = retype (c_type s) s' /\ trel (c_type s) (c_type s').
Definition special (e : status) : Prop := e = NON_LINEAR \/ e = WEIGHTED_AVERAGE.
(** The results [r] and [r'] of a step. *)
Definition follows {A} (P : A -> A -> Prop) (r r' : status + A) : Prop :=
  match r' with inr a' => exists a, r = inr a /\ P a a' | inl e => special e -> r = inl e end.
Ltac ty s := destruct s as [so sc sg sh si [[]|]].
Lemma not_special e : ~ special e -> forall A (P : A -> A -> Prop) r, follows P r (inl e).
Proof. intros N A P r H. now elim N. Qed.
Ltac bad := apply not_special; intros [?|?]; discriminate.
Lemma order_rel d s s' : rel s s' -> follows (fun p p' => rel (fst p) (fst p') /\ snd p = snd p') (compute_order lm ms d s) (compute_order lm ms d s').
Proof.
  intros [E T]. unfold compute_order. destruct (d <? 0)%Z; [bad|]. destruct (_ || _); [bad|]. cbn [follows]. eexists. split; [reflexivity|]. split; [|reflexivity]. cbn [fst].
  rewrite E. split; [reflexivity|exact T].
Qed.
Lemma gcd_rel k i s s' : rel s s' -> rel (set_gcd k i s) (set_gcd k i s').
Proof. intros [E T]. rewrite E. split; [reflexivity|exact T]. Qed.
Lemma coeff_rel c i s s' : rel s s' -> rel (put_coeff G c i s) (put_coeff G c i s').
Proof. intros [E T]. rewrite E. split; [reflexivity|exact T]. Qed.
Lemma hom_rel d c s s' : rel s s' -> rel (put_hom d c s) (put_hom d c s').
Proof. intros [E T]. rewrite E. split; [reflexivity|exact T]. Qed.
Lemma inhom_rel c s s' : rel s s' -> rel (put_inhom G c s) (put_inhom G c s').
Proof.
  intros [E T]. rewrite E. destruct s as [? ? ? ? ? [[]|]], s' as [? ? ? ? ? [[]|]]; cbn in T |- *; (split; [reflexivity|]); cbn; auto; try discriminate; intuition discriminate.
Qed.
Lemma summand_x_rel a k s s' : rel s s' -> follows rel (summand_x G lm ms a k s) (summand_x G lm ms a k s').
Proof.
  intros R. unfold summand_x. destruct (expr_eqb a (Sym "n")); [bad|]. destruct (negb _); [bad|]. destruct (has_parameters a); [bad|].
  destruct a as [| | |l|l| | | |]; try bad.
  - destruct l as [|u [|v [|? ?]]]; try bad. destruct (shift_of _) as [z|]; [|bad].
    pose proof (order_rel (- z) s s' R) as O. destruct (compute_order lm ms (- z) s') as [e|[s1' i']]; cbn [follows] in O |- *.
    + intros H. specialize (O H). now rewrite O.
    + destruct O as ([s1 i] & -> & [E T] & Ei). cbn [fst snd] in *. subst i'. cbv beta zeta.
      destruct (negb (is_fresh s1') && is_functional s1') eqn:C; [bad|].
      assert (C1 : negb (is_fresh s1) && is_functional s1 = false).
      { rewrite E in *. destruct (c_type s1) as [[]|], (c_type s1') as [[]|] eqn:T'; unfold is_fresh, is_functional in *; cbn in *; rewrite ?T' in *; try reflexivity; try discriminate; cbn in T; intuition discriminate. }
      rewrite C1. eexists. split; [reflexivity|]. apply coeff_rel, gcd_rel. rewrite E in *. destruct s1' as [? ? ? ? ? [[]|]], (c_type s1) as [[]|]; cbn in *; (split; [reflexivity|]); cbn; auto; try discriminate; intuition discriminate.
  - destruct l as [|u [|v [|? ?]]]; try bad. destruct (constant_divisor _) as [d|]; [|bad]. destruct R as [E T].
    destruct s' as [? ? ? ? ? [[]|]], s as [? ? ? ? ? [[]|]]; cbn in E, T; injection E as -> -> -> -> ->; cbn; try bad; try (eexists; split; [reflexivity|]; split; [reflexivity|]; cbn; auto; fail); try discriminate; try (destruct T; discriminate). all: intros [?|?]; discriminate.
Qed.
Lemma factors_rel l : forall k no_x found hn s s', rel s s' ->
  follows (fun p p' => fst p = fst p' /\ rel (snd p) (snd p')) (factors_loop G lm ms l k no_x found hn s) (factors_loop G lm ms l k no_x found hn s').
Proof.
  induction l as [|f l IH]; intros k no_x found hn s s' R; [cbn; eexists; split; [reflexivity|]; auto|].
  assert (OTHER : follows (fun p p' => fst p = fst p' /\ rel (snd p) (snd p'))
    (if is_weighted_sum f then (if is_fresh s then inl WEIGHTED_AVERAGE else inl CL_TOO_COMPLEX) else factors_loop G lm ms l k (gmul G no_x f) found (hn || has "n" f) s)
    (if is_weighted_sum f then (if is_fresh s' then inl WEIGHTED_AVERAGE else inl CL_TOO_COMPLEX) else factors_loop G lm ms l k (gmul G no_x f) found (hn || has "n" f) s')).
  { destruct (is_weighted_sum f); [|now apply IH]. destruct R as [E T]. destruct s' as [? ? ? ? ? [[]|]], s as [? ? ? ? ? [[]|]]; cbn in *; intros ?; auto; try discriminate; try (intuition discriminate); now destruct H. }
  destruct f as [| | | | | |g l0| |]; try exact OTHER. destruct g; try exact OTHER. destruct l0 as [|a l0]; [exact OTHER|]. cbn [factors_loop].
  destruct (expr_eqb a (Sym "n")); [bad|]. destruct (negb _); [bad|]. destruct (has_parameters a); [bad|].
  destruct a as [| | |la|la| | | |]; try bad.
  - destruct la as [|u [|v [|? ?]]]; try bad. destruct (shift_of _) as [z|]; [|bad].
    pose proof (order_rel (- z) s s' R) as O. destruct (compute_order lm ms (- z) s') as [e|[s1' i']]; cbn [follows] in O |- *.
    + intros H. specialize (O H). now rewrite O.
    + destruct O as ([s1 i] & -> & R1 & Ei). cbn [fst snd] in *. subst i'. cbv beta zeta.
      destruct (is_functional s1') eqn:C; [bad|].
      assert (C1 : is_functional s1 = false).
      { destruct R1 as [E T]. destruct (c_type s1) as [[]|] eqn:Ty; unfold is_functional in *; rewrite ?Ty; try reflexivity. cbn in T. rewrite T in C. discriminate. }
      rewrite C1. apply IH. now apply gcd_rel.
  - destruct la as [|u [|v [|? ?]]]; try bad. destruct (constant_divisor _) as [d|]; [|bad].
    assert (R0 := R). destruct R as [E T].
    assert (F : rel (set_type FUNCTIONAL s) (set_type FUNCTIONAL s')) by (rewrite E; split; [reflexivity|cbn; auto]).
    destruct s' as [? ? ? ? ? [[]|]], s as [? ? ? ? ? [[]|]]; cbn in E, T; injection E as -> -> -> -> ->; cbn [is_fresh is_functional c_type] in *; try bad; try (apply IH; assumption); try discriminate; try (intuition discriminate);
    apply IH; split; try reflexivity; cbn; auto.
Qed.
Lemma summand_mul_rel l k s s' : rel s s' -> follows rel (summand_mul G lm ms l k s) (summand_mul G lm ms l k s').
Proof.
  intros R. unfold summand_mul. pose proof (factors_rel (rev l) k (Num 1%Qc) No_x false s s' R) as F. destruct (factors_loop _ _ _ _ _ _ _ _ s') as [e|[[[nx fo] hn] s1']]; cbn [follows] in F.
  - intros H. cbv beta in F. now rewrite (F H).
  - destruct F as ([[[nx1 fo1] hn1] s1] & E1 & E2 & R1). rewrite E1. cbn [fst snd] in *. injection E2 as -> -> ->. destruct fo.
    + eexists. split; [reflexivity|]. now apply inhom_rel.
    + destruct (is_functional s1') eqn:C; [bad|].
      assert (C1 : is_functional s1 = false).
      { destruct R1 as [E T]. destruct (c_type s1) as [[]|] eqn:Ty; unfold is_functional in *; rewrite ?Ty; try reflexivity. cbn in T. rewrite T in C. discriminate. }
      rewrite C1. eexists. split; [reflexivity|]. destruct R1 as [E T]. rewrite E in *.
      destruct s1' as [? ? ? ? ? [[]|]], s1 as [? ? ? ? ? [[]|]]; cbn in *; destruct hn; (split; [reflexivity|]); cbn; auto; try discriminate; intuition discriminate.
    + destruct (is_functional s1') eqn:C; [|bad]. destruct (is_functional s1) eqn:C1.
      * eexists. split; [reflexivity|]. now apply hom_rel.
      * exfalso. assert (X : forall l k no_x found hn s no_x' d hn' s', factors_loop G lm ms l k no_x found hn s = inr (no_x', Divisor d, hn', s') -> (match found with Divisor _ => is_functional s = true | _ => True end) -> is_functional s' = true).
        { clear. induction l as [|f l IH]; intros k no_x found hn s no_x' d hn' s' H Hf. { cbn in H. injection H as -> -> -> ->. exact Hf. }
          assert (OTHER : (if is_weighted_sum f then (if is_fresh s then inl WEIGHTED_AVERAGE else inl CL_TOO_COMPLEX) else factors_loop G lm ms l k (gmul G no_x f) found (hn || has "n" f) s) = inr (no_x', Divisor d, hn', s') -> is_functional s' = true).
          { destruct (is_weighted_sum f); [destruct (is_fresh s); discriminate|]. intros H1. eapply IH; [exact H1|exact Hf]. }
          destruct f as [| | | | | |g l0| |]; try (apply OTHER; exact H). destruct g; try (apply OTHER; exact H). destruct l0 as [|a l0]; [apply OTHER; exact H|]. cbn [factors_loop] in H.
          destruct (expr_eqb a (Sym "n")); [discriminate|]. destruct (negb _); [discriminate|]. destruct (has_parameters a); [discriminate|].
          destruct a as [| | |la|la| | | |]; try discriminate.
          - destruct la as [|u [|v [|? ?]]]; try discriminate. destruct (shift_of _) as [z|]; [|discriminate]. destruct (compute_order _ _ _ _) as [|[s2 i]]; [discriminate|]. destruct (is_functional s2); [discriminate|]. eapply IH; [exact H|exact Logic.I].
          - destruct la as [|u [|v [|? ?]]]; try discriminate. destruct (constant_divisor _) as [d0|]; [|discriminate]. destruct (is_fresh s).
            + eapply IH; [exact H|reflexivity].
            + destruct (is_functional s) eqn:Q; [|discriminate]. eapply IH; [exact H|exact Q]. }
        rewrite (X _ _ _ _ _ _ _ _ _ _ E1 Logic.I) in C1. discriminate.
Qed.
Lemma summand_rel t k s s' : rel s s' -> follows rel (classification_summand G lm ms t k s) (classification_summand G lm ms t k s').
Proof.
  intros R. unfold classification_summand. destruct (find_non_linear_term t); try bad; try (intros _; reflexivity).
  assert (OTHER : follows rel (if is_weighted_sum t then (if is_fresh s then inl WEIGHTED_AVERAGE else inl CL_TOO_COMPLEX) else inr (put_inhom G t s))
     (if is_weighted_sum t then (if is_fresh s' then inl WEIGHTED_AVERAGE else inl CL_TOO_COMPLEX) else inr (put_inhom G t s'))).
  { destruct (is_weighted_sum t); [|eexists; split; [reflexivity|now apply inhom_rel]]. destruct R as [E T]. destruct s' as [? ? ? ? ? [[]|]], s as [? ? ? ? ? [[]|]]; cbn in *; intros ?; auto; try discriminate; try (intuition discriminate); now destruct H. }
  destruct t as [| | | |l| |g l0| |]; try exact OTHER; [now apply summand_mul_rel|]. destruct g; try exact OTHER. destruct l0 as [|a l0]; [exact OTHER|]. now apply summand_x_rel.
Qed.
Lemma terms_rel l : forall k s s', rel s s' -> follows rel (classify_terms G lm ms l k s) (classify_terms G lm ms l k s').
Proof.
  induction l as [|t l IH]; intros k s s' R; [cbn; eexists; split; [reflexivity|exact R]|]. cbn [classify_terms]. pose proof (summand_rel t k s s' R) as F.
  destruct (classification_summand G lm ms t k s') as [e|s1']; cbn [follows] in F; [intros H; now rewrite (F H)|]. destruct F as (s1 & -> & R1). now apply IH.
Qed.
Theorem classify_fresh t rhs : follows rel (classify G lm ms rhs) (classify_from G lm ms t rhs).
Proof.
  assert (R : rel start (MkC 0 [] 0%Z [] (Num 0%Qc) t)) by (split; [reflexivity|exact Logic.I]).
  unfold classify, classify_from. destruct rhs; apply terms_rel; exact R.
Qed.
Lemma classify_fresh_none rhs : classify_from G lm ms None rhs = classify G lm ms rhs.
Proof. unfold classify_from, classify, start. now destruct rhs. Qed.

(** As long as no x(.) has been found, the order is 0. *)
Definition unordered (s : cls) : Prop := is_fresh s = true -> c_order s = 0%nat.
Lemma put_inhom_un e s : unordered s -> unordered (put_inhom G e s).
Proof. unfold unordered. destruct s as [o c g h i [[]|]]; cbn; auto. Qed.
Lemma factors_un l : forall k no_x found hn s r, factors_loop G lm ms l k no_x found hn s = inr r ->
  (match found with Decrement _ => True | _ => unordered s end) -> match snd (fst (fst r)) with Decrement _ => True | _ => unordered (snd r) end.
Proof.
  induction l as [|f l IH]; intros k no_x found hn s r H Hf. { cbn in H. injection H as <-. exact Hf. }
  assert (OTHER : (if is_weighted_sum f then (if is_fresh s then inl WEIGHTED_AVERAGE else inl CL_TOO_COMPLEX) else factors_loop G lm ms l k (gmul G no_x f) found (hn || has "n" f) s) = inr r ->
    match snd (fst (fst r)) with Decrement _ => True | _ => unordered (snd r) end).
  { destruct (is_weighted_sum f); [destruct (is_fresh s); discriminate|]. intros H1. eapply IH; [exact H1|exact Hf]. }
  destruct f as [| | | | | |g l0| |]; try (apply OTHER; exact H). destruct g; try (apply OTHER; exact H). destruct l0 as [|a l0]; [apply OTHER; exact H|]. cbn [factors_loop] in H.
  destruct (expr_eqb a (Sym "n")); [discriminate|]. destruct (negb _); [discriminate|]. destruct (has_parameters a); [discriminate|].
  destruct a as [| | |la|la| | | |]; try discriminate.
  - destruct la as [|u [|v [|? ?]]]; try discriminate. destruct (shift_of _) as [z|]; [|discriminate]. destruct (compute_order _ _ _ _) as [|[s2 i]]; [discriminate|]. destruct (is_functional s2); [discriminate|]. eapply IH; [exact H|exact Logic.I].
  - destruct la as [|u [|v [|? ?]]]; try discriminate. destruct (constant_divisor _) as [d0|]; [|discriminate]. destruct (is_fresh s) eqn:Fr.
    + eapply IH; [exact H|]. intros C. discriminate C.
    + destruct (is_functional s) eqn:Q; [|discriminate]. eapply IH; [exact H|]. intros C. congruence.
Qed.
Lemma summand_un t k s s1 : classification_summand G lm ms t k s = inr s1 -> unordered s -> unordered s1.
Proof.
  unfold classification_summand. destruct (find_non_linear_term t); try discriminate. intros H U.
  assert (OTHER : (if is_weighted_sum t then (if is_fresh s then inl WEIGHTED_AVERAGE else inl CL_TOO_COMPLEX) else inr (put_inhom G t s)) = inr s1 -> unordered s1).
  { destruct (is_weighted_sum t); [destruct (is_fresh s); discriminate|]. intros [= <-]. now apply put_inhom_un. }
  destruct t as [| | | |l| |g l0| |]; try (apply OTHER; exact H).
  - unfold summand_mul in H. destruct (factors_loop _ _ _ _ _ _ _ _ _) as [|[[[nx fo] hn] s2]] eqn:F; [discriminate|]. apply factors_un in F; [|exact U]. cbn [fst snd] in F. destruct fo.
    + injection H as <-. now apply put_inhom_un.
    + destruct (is_functional s2); [discriminate|]. injection H as <-. intros C. exfalso. destruct s2 as [? ? ? ? ? [[]|]], hn; cbn in C; discriminate.
    + destruct (is_functional s2) eqn:Q; [|discriminate]. injection H as <-. unfold unordered in *. destruct s2; exact F.
  - destruct g; try (apply OTHER; exact H). destruct l0 as [|a l0]; [apply OTHER; exact H|]. unfold summand_x in H.
    destruct (expr_eqb a (Sym "n")); [discriminate|]. destruct (negb _); [discriminate|]. destruct (has_parameters a); [discriminate|].
    destruct a as [| | |la|la| | | |]; try discriminate.
    + destruct la as [|u [|v [|? ?]]]; try discriminate. destruct (shift_of _) as [z|]; [|discriminate]. destruct (compute_order _ _ _ _) as [|[s2 i]]; [discriminate|]. destruct (_ && _); [discriminate|].
      injection H as <-. intros C. exfalso. destruct s2 as [? ? ? ? ? [[]|]]; cbn in C; discriminate.
    + destruct la as [|u [|v [|? ?]]]; try discriminate. destruct (constant_divisor _) as [d0|]; [|discriminate]. destruct (is_fresh s) eqn:Fr.
      * injection H as <-. intros C. discriminate C.
      * destruct (is_functional s) eqn:Q; [|discriminate]. injection H as <-. intros C. unfold is_fresh, is_functional in *. cbn in C. congruence.
Qed.
Lemma classify_un rhs s : classify G lm ms rhs = inr s -> unordered s.
Proof.
  assert (X : forall l k s s1, classify_terms G lm ms l k s = inr s1 -> unordered s -> unordered s1).
  { induction l as [|t l IH]; intros k s0 s1 H U; cbn [classify_terms] in H; [injection H as <-; exact U|]. destruct (classification_summand _ _ _ _ _ _) as [|s2] eqn:E; [discriminate|]. eapply IH; [exact H|]. eapply summand_un; eauto. }
  unfold classify. intros H. assert (S : unordered start) by (intros _; reflexivity). destruct rhs; eapply X; eauto.
Qed.
Section Idx.
Context (nu de ex : expr -> expr) (ro : string -> expr -> list Qc) (fuel : nat).
(** ... and the first valid index is computed too. *)
Lemma index_fresh s s' z : rel s s' -> unordered s -> first_valid_index G nu de ex ro fuel s' = Some z -> exists z1, first_valid_index G nu de ex ro fuel s = Some z1.
Proof.
  intros [E T] U. unfold first_valid_index, check_coefficient. destruct s as [o c g h i t], s' as [o' c' g' h' i' t']. unfold unordered in U. cbn in *. injection E as -> -> -> -> ->.
  destruct t as [[]|]; cbn in T.
  - cbn in U. rewrite (U eq_refl). cbn. eauto.
  - match goal with |- context [if ?b then _ else _] => destruct b end; [|eauto]. destruct (check_inhomogeneous G nu de ex ro fuel i' 0); [eauto|]. destruct T; subst t'; cbv beta iota; intros H; discriminate H.
  - subst t'. eauto.
  - subst t'. eauto.
  - cbn in U. rewrite (U eq_refl). cbn. eauto.
Qed.
End Idx.
End Retype.

Section Driver.
Context (G : ginac) (lm ms : Z) (simplify expand collect : expr -> expr) (index : cls -> option Z) (other : expr -> final) (leftover : expr -> option rtype).
Notation co := (classify_object G lm ms simplify index other leftover).
Notation dr := (drive G lm ms simplify expand collect index other leftover).
Notation cc := (classify_and_catch_special_cases G lm ms simplify expand collect index other leftover).

Lemma finished fuel : forall r r' f, dr fuel r = Some (r', f) -> d_status r' = Some f.
Proof.
  induction fuel as [|fuel IH]; intros r r' f H; [discriminate|]. cbn [drive] in H. destruct (co r) as [r1 [|e]].
  - injection H as <- <-. reflexivity.
  - destruct e; try (injection H as <- <-; reflexivity).
    + destruct (dr fuel _) as [[r2 [|e2]]|] eqn:E; [injection H as <- <-; reflexivity| |discriminate]. now apply IH in H.
    + destruct (eliminate_null _ _ _); try (injection H as <- <-; reflexivity). destruct (dr fuel _) as [[r2 f2]|] eqn:E; [|discriminate]. injection H as <- <-. reflexivity.
Qed.
Theorem cached fuel r r' f fuel' : cc fuel r = Some (r', f) -> cc fuel' r' = Some (r', f).
Proof.
  unfold classify_and_catch_special_cases. destruct (d_status r) eqn:E; intros H; [injection H as <- <-; now rewrite E|]. apply finished in H. now rewrite H.
Qed.
Lemma co_failed r r1 e : (forall x, other x <> Failed HAS_NEGATIVE /\ other x <> Failed HAS_NULL) -> co r = (r1, Failed e) -> e = HAS_NEGATIVE \/ e = HAS_NULL -> classify_from G lm ms (d_type r) (simplify (d_rhs r)) = inl e.
Proof.
  intros O. unfold classify_object. cbn [d_type]. destruct (is_max _); [discriminate|]. destruct (classify_from _ _ _ _ _) as [e0|s].
  - intros H D. assert (X : e0 = e \/ other (simplify (d_rhs r)) = Failed e). { destruct e0; try (left; congruence); right; congruence. }
    destruct X as [->|X]; [reflexivity|]. destruct (O (simplify (d_rhs r))). destruct D; subst e; contradiction.
  - destruct (index s); intros H D; [discriminate|]. assert (e = CL_TOO_COMPLEX) by congruence. destruct D; congruence.
Qed.
Theorem never_special fuel : (forall x, other x <> Failed HAS_NEGATIVE /\ other x <> Failed HAS_NULL) -> forall r r' f, d_status r = None ->
  cc fuel r = Some (r', f) -> f <> Failed HAS_NEGATIVE /\ f <> Failed HAS_NULL.
Proof.
  intros O r r' f Hs. unfold classify_and_catch_special_cases. rewrite Hs. clear Hs. revert r r' f. induction fuel as [|fuel IH]; intros r r' f H; [discriminate|]. cbn [drive] in H. destruct (co r) as [r1 [|e]].
  - injection H as <- <-. split; discriminate.
  - destruct e; try (injection H as <- <-; split; discriminate).
    + destruct (dr fuel _) as [[r2 [|e2]]|] eqn:E; [injection H as <- <-; split; discriminate| |discriminate]. now apply IH in H.
    + destruct (eliminate_null _ _ _); try (injection H as <- <-; split; discriminate). destruct (dr fuel _) as [[r2 f2]|] eqn:E; [|discriminate]. injection H as <- <-. now apply IH in E.
Qed.
(** What a failure is due to. *)
Definition failure_reason (e : expr) (st : status) : Prop :=
  (st = CL_UNSOLVABLE /\ eliminate_null G collect e = Unsolvable) \/ (st = CL_INDETERMINATE /\ eliminate_null G collect e = Indeterminate) \/ (st = CL_TOO_COMPLEX /\ eliminate_null G collect e = Too_complex) \/
  (exists t, classify_from G lm ms t e = inl st) \/ other e = Failed st \/ (st = CL_TOO_COMPLEX /\ exists t s, classify_from G lm ms t e = inr s /\ index s = None).
Lemma co_reason r r1 st : co r = (r1, Failed st) -> failure_reason (d_rhs r1) st.
Proof.
  unfold classify_object, failure_reason. destruct (is_max _); [discriminate|]. cbn [d_type]. destruct (classify_from _ _ _ _ _) as [e0|s] eqn:E.
  - destruct e0; intros [= <- <-]; cbn [d_rhs]; eauto 8.
  - destruct (index s) eqn:Ei; intros [= <- <-]. cbn [d_rhs]. do 5 right. eauto.
Qed.
Theorem failures fuel : forall r r' st, d_status r = None -> cc fuel r = Some (r', Failed st) -> failure_reason (d_rhs r') st.
Proof.
  intros r r' st Hs. unfold classify_and_catch_special_cases. rewrite Hs. clear Hs. revert r r' st. induction fuel as [|fuel IH]; intros r r' st H; [discriminate|]. cbn [drive] in H. destruct (co r) as [r1 [|e]] eqn:E; [discriminate|].
  pose proof (co_reason _ _ _ E) as C. destruct e; try (injection H as <- <-; exact C).
  - destruct (dr fuel _) as [[r2 [|e2]]|]; [discriminate| |discriminate]. exact (IH _ _ _ H).
  - destruct (eliminate_null G collect (d_rhs r1)) eqn:En; try (injection H as <- <-; unfold failure_reason; cbn [d_rhs]; auto).
    destruct (dr fuel _) as [[r2 f2]|] eqn:E2; [|discriminate]. injection H as <- ->. exact (IH _ _ _ E2).
Qed.
(** The log grows. *)
Lemma co_log r r1 f : co r = (r1, f) -> d_rhs r1 = simplify (d_rhs r) /\ d_rewritten r1 = d_rewritten r /\ d_log r1 = d_log r ++ [Simplified (d_rhs r)].
Proof.
  unfold classify_object. destruct (is_max _); [intros [= <- <-]; auto|]. destruct (classify_from _ _ _ _ _) as [e0|s].
  - destruct e0; intros [= <- <-]; auto.
  - destruct (index s); intros [= <- <-]; auto.
Qed.
(** The single changes the driver makes to the object. *)
Inductive change : state -> list action -> state -> Prop :=
| C_classify r : change r [Simplified (d_rhs r)] (fst (co r))
| C_negative r : change r [Solved_negative (d_rhs r)] (rewrite_rhs (Solved_negative (d_rhs r)) (eliminate_negative G expand collect (d_rhs r)) r)
| C_null r new : eliminate_null G collect (d_rhs r) = Rewritten new -> change r [Solved_null (d_rhs r)] (rewrite_rhs (Solved_null (d_rhs r)) new r)
| C_finish r f : change r [] (MkSt (d_rhs r) (d_rewritten r) (Some f) (d_type r) (d_data r) (d_log r)).
Inductive changes : state -> list action -> state -> Prop :=
| Cs_nil r : changes r [] r
| Cs_cons r l r1 l' r2 : change r l r1 -> changes r1 l' r2 -> changes r (l ++ l') r2.
Lemma changes_trans r l r1 l' r2 : changes r l r1 -> changes r1 l' r2 -> changes r (l ++ l') r2.
Proof. induction 1 as [|? ? ? ? ? C Cs IH]; intros H; [exact H|]. rewrite <- app_assoc. econstructor; [exact C|auto]. Qed.
Lemma change_last r l r1 l' r2 : changes r l r1 -> change r1 l' r2 -> changes r (l ++ l') r2.
Proof. intros H C. eapply changes_trans; [exact H|]. rewrite <- (app_nil_r l'). econstructor; [exact C|constructor]. Qed.
Lemma drive_changes fuel : forall r r' f, dr fuel r = Some (r', f) -> exists l, changes r l r'.
Proof.
  induction fuel as [|fuel IH]; intros r r' f H; [discriminate|]. cbn [drive] in H.
  assert (C1 : changes r [Simplified (d_rhs r)] (fst (co r))). { rewrite <- (app_nil_r [_]). econstructor; [constructor|constructor]. }
  destruct (co r) as [r1 f1]. cbn [fst] in C1.
  assert (FIN : forall l r2 f2, changes r l r2 -> finish r2 f2 = Some (r', f) -> exists l, changes r l r').
  { intros l r2 f2 Hc E. unfold finish in E. injection E as <- <-. eexists. eapply change_last; [exact Hc|constructor]. }
  destruct f1 as [|e]; [eapply FIN; eauto|]. destruct e; try (eapply FIN; eauto; fail).
  - destruct (dr fuel _) as [[r2 f2]|] eqn:E; [|discriminate]. apply IH in E as (l & Cs). pose proof (change_last _ _ _ _ _ C1 (C_negative r1)) as C2. pose proof (changes_trans _ _ _ _ _ C2 Cs) as C3.
    destruct f2 as [|e2]; [eapply FIN; [exact C3|exact H]|]. apply IH in H as (l2 & Cs2). eexists. eapply changes_trans; [exact C3|exact Cs2].
  - destruct (eliminate_null _ _ _) as [new| | |] eqn:N; try (eapply FIN; eauto; fail). destruct (dr fuel _) as [[r2 f2]|] eqn:E; [|discriminate]. apply IH in E as (l & Cs).
    pose proof (change_last _ _ _ _ _ C1 (C_null r1 new N)) as C2. pose proof (changes_trans _ _ _ _ _ C2 Cs) as C3. eapply FIN; [exact C3|exact H].
Qed.
Lemma changes_log r l r' : changes r l r' -> d_log r' = d_log r ++ l /\ (d_rewritten r' = true <-> d_rewritten r = true \/ Exists elimination l).
Proof.
  assert (ONE : forall r l r', change r l r' -> d_log r' = d_log r ++ l /\ (d_rewritten r' = true <-> d_rewritten r = true \/ Exists elimination l)).
  { intros r0 l0 r0' C. destruct C as [r0|r0|r0 new N|r0 f].
    - destruct (co r0) as [r1 f1] eqn:E. apply co_log in E as (_ & E2 & E3). cbn [fst]. rewrite E2, E3. split; [reflexivity|]. split; [auto|]. intros [H|H]; [exact H|]. inversion H as [? ? C|? ? C]; [destruct C|inversion C].
    - cbn. split; [reflexivity|]. split; [intros _; right; now constructor|reflexivity].
    - cbn. split; [reflexivity|]. split; [intros _; right; now constructor|reflexivity].
    - cbn. split; [now rewrite app_nil_r|]. split; [auto|]. intros [H|H]; [exact H|]. inversion H. }
  induction 1 as [r|r l r1 l' r2 C Cs IH]; [split; [now rewrite app_nil_r|]; split; [auto|]; intros [H|H]; [exact H|inversion H]|].
  apply ONE in C as [E W]. destruct IH as [E' W']. split; [now rewrite E', E, app_assoc|]. rewrite W', W. rewrite Exists_app. tauto.
Qed.
Section Sound.
Context (I : interp) (rho : string -> R) (x : nat -> R).
Hypothesis HG : forall x, ginac_ok (with_x I x) G.
Hypothesis HS : forall x e, refines (with_x I x) e (simplify e).
Hypothesis HE : forall x e, refines (with_x I x) e (expand e).
Hypothesis HC : forall x e, refines (with_x I x) e (collect e).
Hypothesis HB : no_new_binders G.
Notation same n e k e' := (holds_at I rho e x n <-> holds_at I rho e' x k).
Lemma defined n e : at_n I rho x n e <> None -> exists v, at_n I rho x n e = Some v.
Proof. destruct (at_n I rho x n e); eauto; contradiction. Qed.
Lemma change_sound r l r' n k : change r l r' -> sound_path I rho G collect x n l k -> same n (d_rhs r) k (d_rhs r').
Proof.
  intros C P. destruct C as [r|r|r new N|r f].
  - destruct (co r) as [r1 f1] eqn:E. apply co_log in E as (E1 & _). cbn [fst]. rewrite E1. inversion P as [|? ? ? ? ? S P1]; subst. inversion P1; subst. inversion S; subst.
    destruct (defined _ _ H0) as [v Hv]. pose proof (HS x (d_rhs r) _ _ Hv) as Hv'. unfold holds_at, at_n in *. now rewrite Hv, Hv'.
  - inversion P as [|? ? ? ? ? S P1]; subst. inversion P1; subst. inversion S as [|? m c w ? D B F W NZ K| | |]; subst. cbn [rewrite_rhs d_rhs].
    destruct (defined _ _ D) as [v Hv]. eapply negative_equiv; eauto. pose proof (find_nb G HB (d_rhs r) B) as Q. rewrite F in Q. exact Q.
  - inversion P as [|? ? ? ? ? S P1]; subst. inversion P1; subst. cbn [rewrite_rhs d_rhs]. inversion S as [| |? ls cs rest A D E1 E2 E3 E4|? f1 f2 A D E1 E2 E3|? ls cs rest b m c w ? D E1 E2 E3 E4 E5 E6 E7 E8 E9]; subst; destruct (defined _ _ D) as [v Hv].
    + eapply null_solved; eauto.
    + eapply null_multiple; eauto.
    + eapply null_shifted; eauto.
  - inversion P; subst. reflexivity.
Qed.
Lemma path_app l1 : forall n l2 k, sound_path I rho G collect x n (l1 ++ l2) k -> exists j, sound_path I rho G collect x n l1 j /\ sound_path I rho G collect x j l2 k.
Proof.
  induction l1 as [|a l1 IH]; intros n l2 k P; [exists n; split; [constructor|exact P]|]. inversion P as [|? ? j0 ? ? S P1]; subst. apply IH in P1 as (j & A & B). exists j. split; [econstructor; eauto|exact B].
Qed.
Lemma changes_sound r l r' : changes r l r' -> forall n k, sound_path I rho G collect x n l k -> same n (d_rhs r) k (d_rhs r').
Proof.
  induction 1 as [r|r l r1 l' r2 C Cs IH]; intros n k P; [inversion P; reflexivity|]. apply path_app in P as (j & P1 & P2). rewrite (change_sound _ _ _ _ _ C P1). now apply IH.
Qed.
End Sound.

(** Success *)
Context (idem : forall e, simplify (simplify e) = simplify e).
Hypothesis Hindex : forall s s' z, rel s s' -> unordered s -> index s' = Some z -> exists z1, index s = Some z1.
(** The result of a classification from scratch of a simplified right-hand side. *)
Definition fresh_result (e : expr) : final :=
  if is_max e then Success
  else match classify G lm ms e with
  | inl NON_LINEAR | inl WEIGHTED_AVERAGE => other e
  | inl st => Failed st
  | inr s => match index s with Some _ => Success | None => Failed CL_TOO_COMPLEX end
  end.
(** ... with the data. *)
Definition success_data (e : expr) (data : option (cls * Z)) : Prop :=
  is_max e = true \/ ((classify G lm ms e = inl NON_LINEAR \/ classify G lm ms e = inl WEIGHTED_AVERAGE) /\ other e = Success) \/
  exists s z, classify G lm ms e = inr s /\ index s = Some z /\ data = Some (s, z).
Lemma fresh_success r r1 f : d_type r = None -> co r = (r1, f) -> f = fresh_result (d_rhs r1) /\ (f = Success -> success_data (d_rhs r1) (d_data r1)).
Proof.
  intros T. unfold classify_object, fresh_result, success_data. cbn [d_type]. rewrite T, classify_fresh_none. destruct (is_max (simplify (d_rhs r))) eqn:M; [intros [= <- <-]; cbn; rewrite M; auto|].
  destruct (classify G lm ms (simplify (d_rhs r))) as [e|s] eqn:E.
  - destruct e; intros [= <- <-]; cbn; rewrite M, E; (split; [reflexivity|]); try discriminate; intros O; right; left; auto.
  - destruct (index s) as [z|] eqn:Z; intros [= <- <-]; cbn; rewrite M, E, Z; (split; [reflexivity|]); [|discriminate]. intros _. right. right. eauto.
Qed.
Lemma stale_failure r r1 f : simplify (d_rhs r) = d_rhs r -> fresh_result (d_rhs r) <> Success -> co r = (r1, f) -> f <> Success.
Proof.
  intros Id N. unfold classify_object, fresh_result in *. rewrite Id. cbn [d_type]. destruct (is_max (d_rhs r)); [contradiction|]. pose proof (classify_fresh G lm ms (d_type r) (d_rhs r)) as F.
  destruct (classify_from G lm ms (d_type r) (d_rhs r)) as [e|s'] eqn:E; cbn [follows] in F.
  - intros H. assert (X : f = Failed e \/ (special e /\ f = other (d_rhs r))). { destruct e; injection H as <- <-; auto; right; split; auto; [left|right]; reflexivity. }
    destruct X as [->|[S ->]]; [discriminate|]. rewrite (F S) in N. destruct S; subst e; exact N.
  - destruct F as (s & Es & R). rewrite Es in N. destruct (index s') as [z|] eqn:Z; intros [= <- <-]; [|discriminate].
    destruct (Hindex s s' z R (classify_un _ _ _ _ _ Es) Z) as [z1 Z1]. rewrite Z1 in N. contradiction.
Qed.
Definition stale (r : state) : Prop := simplify (d_rhs r) = d_rhs r /\ fresh_result (d_rhs r) <> Success.
Lemma success_fresh fuel : forall r r' f, d_type r = None \/ stale r -> dr fuel r = Some (r', f) ->
  simplify (d_rhs r') = d_rhs r' /\ (f = Success -> success_data (d_rhs r') (d_data r')) /\ (f <> Success -> stale r').
Proof.
  induction fuel as [|fuel IH]; intros r r' f I0 H; [discriminate|]. cbn [drive] in H. destruct (co r) as [r1 f1] eqn:C.
  pose proof (co_log _ _ _ C) as (E1 & _ & _).
  assert (Id : simplify (d_rhs r1) = d_rhs r1) by (rewrite E1; apply idem).
  assert (S1 : f1 = Success -> success_data (d_rhs r1) (d_data r1)).
  { destruct I0 as [T|[A B]]; [exact (proj2 (fresh_success _ _ _ T C))|]. intros ->. elim (stale_failure _ _ _ A B C eq_refl). }
  assert (S2 : f1 <> Success -> stale r1).
  { intros N. split; [exact Id|]. destruct I0 as [T|[A B]]; [rewrite <- (proj1 (fresh_success _ _ _ T C)); exact N|]. rewrite E1, A. exact B. }
  assert (FIN : forall r2 f2, simplify (d_rhs r2) = d_rhs r2 -> (f2 = Success -> success_data (d_rhs r2) (d_data r2)) -> (f2 <> Success -> stale r2) -> finish r2 f2 = Some (r', f) ->
     simplify (d_rhs r') = d_rhs r' /\ (f = Success -> success_data (d_rhs r') (d_data r')) /\ (f <> Success -> stale r')).
  { intros r2 f2 A B D E. unfold finish in E. injection E as <- <-. auto. }
  destruct f1 as [|e]; [eapply FIN; eauto|]. assert (St : stale r1) by (apply S2; discriminate).
  assert (FAIL : forall e0, finish r1 (Failed e0) = Some (r', f) -> simplify (d_rhs r') = d_rhs r' /\ (f = Success -> success_data (d_rhs r') (d_data r')) /\ (f <> Success -> stale r')).
  { intros e0 E. eapply FIN; [exact Id| | |exact E]; [discriminate|auto]. }
  destruct e; try (eapply FAIL; exact H).
  - destruct (dr fuel _) as [[r2 f2]|] eqn:E; [|discriminate]. apply IH in E as (A & B & D); [|left; reflexivity]. destruct f2 as [|e2]; [eapply FIN; [| | |exact H]; auto|].
    apply IH in H; [exact H|]. right. apply D. discriminate.
  - destruct (eliminate_null _ _ _) as [new| | |] eqn:N; try (eapply FAIL; exact H). destruct (dr fuel _) as [[r2 f2]|] eqn:E; [|discriminate]. apply IH in E as (A & B & D); [|left; reflexivity].
    eapply FIN; [| | |exact H]; auto.
Qed.
End Driver.
