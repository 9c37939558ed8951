(** Proofs for find_roots: the main invariant. *)
From Coq Require Import ZArith QArith Qcanon Qfield List Bool Lia Reals Lra Field Arith.
From Coquelicot Require Import Complex.
From Verif Require Import Ast ExprModel ExprProofs1 Fld FPoly PolyMore CplxF RootModel RootSpec RootProofs RootProofs2 FindRootModel FindRootSpec NestedProofs RatRootProofs SearchProofs FindRootProofs.
Import ListNotations.
Local Open Scope list_scope.
Local Open Scope nat_scope.

Ltac tq := unfold poly in *; change (car QcF) with Qc in *.
(** What one call adds. *)
Definition adds (p : poly) (m : nat) (b : bool) (new : list root) : Prop :=
  (forall r a, In r new -> value r = Rational a -> peval (K:=QcF) p a = 0%Qc) /\
  (m = 1 -> forall r, In r new -> multiplicity r = 1) /\
  (no_pure_power_factor p -> b = true -> exists k : C, k <> RtoC 0 /\ forall x, pval p x = (k * linear_factors new x)%C).
Definition find_ok (find : poly -> list root -> nat -> option (bool * list root)) : Prop :=
  forall p roots m b roots', proper p -> integer_coefficients p -> square_free p -> find p roots m = Some (b, roots') ->
    exists new, roots' = roots ++ new /\ adds p m b new.

Lemma peval_of_pval (p : poly) a : pval p (qC a) = RtoC 0 -> peval (K:=QcF) p a = 0%Qc.
Proof. intros H. apply qC_inj. rewrite <- pval_q, H. symmetry. apply qC_0. Qed.
Lemma pval_of_peval (p : poly) a : peval (K:=QcF) p a = 0%Qc -> pval p (qC a) = RtoC 0.
Proof. intros H. rewrite pval_q, H. apply qC_0. Qed.
Lemma adds_factor (p q h : list Qc) m b l new : (forall x, pval p x = (pval q x * pval h x)%C) ->
  (forall x, pval h x = lin_prod (K:=CF) (map qC l) x) -> adds q m b new -> adds p m b (map (rational_root m) l ++ new).
Proof.
  intros E HL (A1 & A2 & A3). split; [|split].
  - intros r a Hr Hv. apply peval_of_pval. rewrite E. apply in_app_or in Hr. destruct Hr as [Hr|Hr].
    + apply in_map_iff in Hr. destruct Hr as (c & <- & Hc). cbn [rational_root value] in Hv. assert (c = a) by congruence. subst c.
      assert (X : pval h (qC a) = RtoC 0); [|rewrite X; apply Cmult_0_r]. rewrite HL, lp_cprod, cprod_map.
      apply in_split in Hc. destruct Hc as (u & v & ->). rewrite cprod_app, cprod_cons. ring.
    + rewrite (pval_of_peval q a) by eauto. apply Cmult_0_l.
  - intros Hm r Hr. apply in_app_or in Hr. destruct Hr as [Hr|Hr]; auto.
    apply in_map_iff in Hr. destruct Hr as (c & <- & Hc). exact Hm.
  - intros HN Hb. destruct A3 as (k & Hk & V); auto. { eapply factor_no_pure_power; eauto. }
    exists k. split; auto. intros x. rewrite E, V, HL, lf_app, lf_rational. cring.
Qed.

(** ** Degrees 2, 3 and 4 *)
Lemma proper_list (q : poly) d : proper q -> degree q = d -> length q = S d.
Proof. intros H E. pose proof (proper_degree q H). pose proof (proper_length q H). tq. lia. Qed.
Lemma direct_ok (q : poly) m new : proper q -> 2 <= degree q <= 4 -> direct q m = Some new ->
  (forall r, In r new -> multiplicity r = 1 /\ exists z, value r = Irrational z) /\
  forall x, pval q x = (qC (lcoeff q) * linear_factors new x)%C.
Proof.
  intros HP HD H. pose proof (proper_list q _ HP eq_refl) as L. pose proof (proper_lcoeff q HP) as LL.
  assert (L0 : qC (lcoeff q) <> RtoC 0) by (apply qC_neq0; rewrite LL; apply HP).
  unfold direct in H. set (lc := lcoeff q) in *.
  assert (IR : forall l r, In r (map irr l) -> multiplicity r = 1 /\ exists z, value r = Irrational z).
  { intros l r Hr. apply in_map_iff in Hr. destruct Hr as (z & <- & _). split; [reflexivity|]. exists z. reflexivity. }
  destruct (degree q) as [|[|[|[|[|d]]]]] eqn:DQ; try lia.
  - destruct q as [|c0 [|c1 [|c2 [|? ?]]]]; cbn [length] in L; try lia. cbn [last] in LL.
    pose proof (solve_equation_2_ok (qC (coeff [c0; c1; c2] 1 / lc)) (qC (coeff [c0; c1; c2] 0 / lc))) as S2.
    destruct (solve_equation_2 _ _) as [x1 x2]. assert (new = map irr [x1; x2]) by (cbn [map]; congruence). subst new.
    split; [apply IR|]. intros x. rewrite lf_irr. specialize (S2 x). unfold lin_prod. cbn [fold_right]. toC.
    transitivity (qC lc * ((x - x1) * (x - x2)))%C; [rewrite <- S2|ring].
    rewrite !pval_cons, pval_nil, !qC_div. unfold coeff. cbn [nth]. rewrite <- LL. field. exact L0.
  - destruct q as [|c0 [|c1 [|c2 [|c3 [|? ?]]]]]; cbn [length] in L; try lia. cbn [last] in LL.
    pose proof (solve_equation_3_ok (rv (coeff [c0; c1; c2; c3] 2 / lc)) (rv (coeff [c0; c1; c2; c3] 1 / lc)) (rv (coeff [c0; c1; c2; c3] 0 / lc))) as S3.
    destruct (solve_equation_3 _ _ _) as [[[x1 x2] x3] fl]. assert (new = map irr [x1; x2; x3]) by (cbn [map]; congruence). subst new.
    destruct S3 as (S3 & _). split; [apply IR|]. intros x. rewrite lf_irr. specialize (S3 x). unfold lin_prod. cbn [fold_right]. toC.
    transitivity (qC lc * ((x - x1) * (x - x2) * (x - x3)))%C; [rewrite <- S3|ring].
    fold (qC (coeff [c0; c1; c2; c3] 2 / lc)) (qC (coeff [c0; c1; c2; c3] 1 / lc)) (qC (coeff [c0; c1; c2; c3] 0 / lc)).
    rewrite !pval_cons, pval_nil, !qC_div. unfold coeff. cbn [nth]. rewrite <- LL. field. exact L0.
  - destruct q as [|c0 [|c1 [|c2 [|c3 [|c4 [|? ?]]]]]]; cbn [length] in L; try lia. cbn [last] in LL.
    destruct (solve_equation_4 _ _ _ _) as [[[[x1 x2] x3] x4]|] eqn:S4; [|discriminate].
    apply solve_equation_4_ok in S4. assert (new = map irr [x1; x2; x3; x4]) by (cbn [map]; congruence). subst new.
    split; [apply IR|]. intros x. rewrite lf_irr. specialize (S4 x). unfold lin_prod. cbn [fold_right]. toC.
    transitivity (qC lc * ((x - x1) * (x - x2) * (x - x3) * (x - x4)))%C; [rewrite <- S4|ring].
    fold (qC (coeff [c0; c1; c2; c3; c4] 3 / lc)) (qC (coeff [c0; c1; c2; c3; c4] 2 / lc)) (qC (coeff [c0; c1; c2; c3; c4] 1 / lc)) (qC (coeff [c0; c1; c2; c3; c4] 0 / lc)).
    rewrite !pval_cons, pval_nil, !qC_div. unfold coeff. cbn [nth]. rewrite <- LL. field. exact L0.
Qed.

(** ** Factors *)
Definition pprod (fs : list poly) : poly := fold_right (pmul (K:=QcF)) [1%Qc] fs.
Lemma pval_pprod fs x : pval (pprod fs) x = cprod (fun f => pval f x) fs.
Proof.
  induction fs as [|f fs IH]; [unfold pprod; cbn [fold_right]; rewrite pval_cons, pval_nil, qC_1; unfold cprod; cbn; ring|].
  change (pprod (f :: fs)) with (pmul (K:=QcF) f (pprod fs)). rewrite pval_pmul, IH. reflexivity.
Qed.
Lemma all_factors_ok find q (c : Qc) : find_ok find -> c <> 0%Qc -> proper q -> square_free q ->
  forall fs roots b roots', (forall f, In f fs -> proper f /\ integer_coefficients f) ->
  (exists h, forall x, pval q x = (pval h x * cprod (fun f => pval f x) fs)%C) ->
  all_factors (fun f rs => find f rs 1) fs roots = Some (b, roots') ->
  exists new, roots' = roots ++ new /\
    (forall r a, In r new -> value r = Rational a -> peval (K:=QcF) q a = 0%Qc) /\ (forall r, In r new -> multiplicity r = 1) /\
    (no_pure_power_factor q -> b = true -> exists k : C, k <> RtoC 0 /\ forall x, cprod (fun f => pval f x) fs = (k * linear_factors new x)%C).
Proof.
  intros HF Hc HQ HS. induction fs as [|f fs IH]; intros roots b roots' HI [h HV] H; cbn [all_factors] in H.
  - assert (roots = roots' /\ b = true) as [<- ->] by (split; congruence). exists []. rewrite app_nil_r. split; auto.
    split; [intros r a []|]. split; [intros r []|]. intros _ _. exists (RtoC 1). split; [apply RtoC_neq; lra|]. intros x. unfold cprod, linear_factors. cbn. ring.
  - assert (DV : forall x, pval q x = (pval f x * pval (pmul (K:=QcF) h (pprod fs)) x)%C).
    { intros x. rewrite HV, pval_pmul, pval_pprod, cprod_cons. ring. }
    destruct (find f roots 1) as [[b1 rs1]|] eqn:E1; [|discriminate].
    destruct (HF f roots 1 b1 rs1) as (new1 & -> & A1 & A2 & A3); [apply HI; left; auto|apply HI; left; auto|eapply factor_square_free; eauto|exact E1|].
    assert (R1 : forall r a, In r new1 -> value r = Rational a -> peval (K:=QcF) q a = 0%Qc).
    { intros r a Hr Hv. apply peval_of_pval. rewrite DV, (pval_of_peval f a) by eauto. apply Cmult_0_l. }
    destruct b1.
    + destruct (IH (roots ++ new1) b roots') as (new2 & -> & B1 & B2 & B3); auto.
      { intros g Hg. apply HI. right. auto. }
      { exists (pmul (K:=QcF) h f). intros x. rewrite HV, pval_pmul, cprod_cons. ring. }
      exists (new1 ++ new2). split; [rewrite app_assoc; reflexivity|].
      split; [intros r a Hr; apply in_app_or in Hr; destruct Hr; eauto|].
      split; [intros r Hr; apply in_app_or in Hr; destruct Hr; eauto|].
      intros HN Hb. destruct (B3 HN Hb) as (k2 & K2 & V2). destruct A3 as (k1 & K1 & V1); auto.
      { eapply factor_no_pure_power; eauto. }
      exists (k1 * k2)%C. split; [apply Cmult_neq_0; auto|]. intros x. rewrite cprod_cons, V1, V2, lf_app. ring.
    + assert (roots ++ new1 = roots' /\ b = false) as [<- ->] by (split; congruence). exists new1. split; auto. split; auto. split; auto.
      intros _ ?. discriminate.
Qed.
Lemma is_int_poly_spec p : is_int_poly p = true -> integer_coefficients p.
Proof.
  unfold is_int_poly. rewrite forallb_forall. intros H. apply Forall_forall. intros c Hc. exists (q_int c). apply zq_q_int. auto.
Qed.

Section Find.
Variable poly_factor : poly -> list poly.
Hypothesis HPF : factorizer_ok poly_factor.

Lemma last_resort_ok find q roots m b roots' : find_ok find -> proper q -> integer_coefficients q -> square_free q ->
  last_resort poly_factor find q roots m = Some (b, roots') -> exists new, roots' = roots ++ new /\ adds q m b new.
Proof.
  intros HF HQ HI HS H.
  assert (FAC : (if is_int_poly q then let fs := poly_factor q in if 1 <? length fs then all_factors (fun f rs => find f rs 1) (rev fs) roots else Some (false, roots) else None) = Some (b, roots') ->
    exists new, roots' = roots ++ new /\ adds q m b new).
  { clear H. intros H. destruct (is_int_poly q); [|discriminate]. cbv zeta in H. destruct (Nat.ltb_spec 1 (length (poly_factor q))) as [L|L].
    - destruct (HPF q HQ HI L) as (F1 & c & Hc & F2).
      assert (F3 : forall x, pval q x = (pval [c] x * cprod (fun f => pval f x) (rev (poly_factor q)))%C).
      { intros x. rewrite F2, cprod_rev, pval_cons, pval_nil. unfold cprod. ring. }
      destruct (all_factors_ok find q c HF Hc HQ HS (rev (poly_factor q)) roots b roots') as (new & -> & A1 & A2 & A3); auto.
      { intros f Hf. apply F1. apply in_rev. exact Hf. }
      { exists [c]. exact F3. }
      exists new. split; auto. split; [exact A1|]. split; [auto|]. intros HN Hb. destruct (A3 HN Hb) as (k & Hk & V).
      exists (qC c * k)%C. split; [apply Cmult_neq_0; auto; apply qC_neq0; auto|]. intros x. rewrite F3, V, pval_cons, pval_nil. ring.
    - assert (roots = roots' /\ b = false) as [<- ->] by (split; congruence). exists []. rewrite app_nil_r. split; auto.
      split; [intros r a []|]. split; [intros _ r []|]. intros _ ?. discriminate. }
  unfold last_resort in H. destruct (is_nested_polynomial q) as [n r] eqn:EN. destruct (Nat.ltb_spec 1 n) as [Ln|Ln]; [|apply FAC; exact H].
  destruct (find r [] 1) as [[[|] rs]|] eqn:ER; [| |discriminate]; [|apply FAC; exact H].
  assert (D1 : 1 <= degree q).
  { destruct (Nat.eq_dec (degree q) 0) as [Z|]; [|lia]. rewrite (nested_constant q Z) in EN. assert (n = 0) by congruence. lia. }
  destruct (nested_facts q n r HQ D1 HI EN Ln) as (PR & IR & V).
  destruct (HF r [] 1 true rs PR IR) as (new & E1 & A1 & A2 & A3); auto; [apply (spread_square_free n r q); auto; lia|].
  cbn [app] in E1. subst rs.
  match type of H with Some (true, roots ++ ?l) = _ => set (nl := l) in H; assert (NL : nl = l) by reflexivity; clearbody nl end.
  assert (roots ++ nl = roots' /\ b = true) as [<- ->] by (split; congruence). exists nl. split; auto.
  split; [|split].
  - intros y a Hy Hv. rewrite NL in Hy. apply in_flat_map in Hy. destruct Hy as (j & _ & Hy). apply in_map_iff in Hy. destruct Hy as (y' & <- & _). discriminate.
  - intros Hm y Hy. rewrite NL in Hy. apply in_flat_map in Hy. destruct Hy as (j & _ & Hy). apply in_map_iff in Hy. destruct Hy as (y' & <- & _). exact Hm.
  - intros HN _. destruct A3 as (k & Hk & V'); auto. { apply (spread_no_pure_power n r q); auto. lia. }
    exists k. split; auto. intros x. rewrite V, V'. f_equal. rewrite NL, !lf_cprod, cprod_flat.
    transitivity (cprod (fun y => lin_prod (K:=CF) (map (fun j => proot n (rvalue y) * unity n j)%C (seq 0 n)) x) new).
    + apply cprod_ext. intros y _. rewrite nth_roots by lia. reflexivity.
    + transitivity (cprod (fun y => cprod (fun j => x - proot n (rvalue y) * unity n j)%C (seq 0 n)) new).
      * apply cprod_ext. intros y _. rewrite lp_cprod, cprod_map. reflexivity.
      * rewrite cprod_swap. apply cprod_ext. intros j _. rewrite cprod_map. reflexivity.
Qed.

Lemma rest_ok find q roots m b roots' : find_ok find -> proper q -> integer_coefficients q -> square_free q -> degree q <> 1 ->
  rest poly_factor find q roots m = Some (b, roots') -> exists new, roots' = roots ++ new /\ adds q m b new.
Proof.
  intros HF HQ HI HS H1 H. unfold rest in H. destruct ((1 <=? degree q) && (degree q <=? 4)) eqn:D; [|apply (last_resort_ok find); auto].
  apply andb_prop in D. destruct D as [D1 D2]. apply Nat.leb_le in D1, D2.
  destruct (direct q m) as [new|] eqn:E; [|discriminate]. destruct (direct_ok q m new HQ) as [A V]; [lia|exact E|].
  assert (roots ++ new = roots' /\ b = true) as [<- ->] by (split; congruence). exists new. split; auto. split; [|split].
  - intros r a Hr Hv. destruct (A r Hr) as [_ [z Hz]]. congruence.
  - intros _ r Hr. apply A; auto.
  - intros _ _. exists (qC (lcoeff q)). split; auto. apply qC_neq0. rewrite proper_lcoeff by auto. apply HQ.
Qed.

(** a x^n + k. *)
Lemma is_monomial_val (q : poly) : proper q -> 1 <= degree q -> is_monomial q = true ->
  forall x, pval q x = (qC (lcoeff q) * fpow (K:=CF) x (degree q) + qC (coeff q 0))%C.
Proof.
  intros HQ HD HM. set (d := degree q) in *. set (q1 := @cons (car QcF) (coeff q 0) (repeat (@f0 QcF) (d - 1) ++ [lcoeff q])).
  assert (E : forall i, coeff q i = coeff q1 i).
  { intros i. destruct i as [|i]; [reflexivity|]. unfold coeff at 2, q1. cbn [nth].
    destruct (Nat.lt_trichotomy (S i) d) as [L|[L|L]].
    - rewrite app_nth1 by (rewrite repeat_length; lia). rewrite (nth_repeat (@f0 QcF)).
      unfold is_monomial in HM. rewrite forallb_forall in HM. destruct (qzero_spec (coeff q (S i))) as [Z|Z]; auto.
      exfalso. specialize (HM (S i)). destruct (qzero_spec (coeff q (S i))); [auto|]. discriminate HM. apply in_seq. fold d. lia.
    - rewrite app_nth2 by (rewrite repeat_length; lia). rewrite repeat_length. replace (i - (d - 1)) with 0 by lia. cbn [nth].
      unfold lcoeff. fold d. rewrite L. reflexivity.
    - rewrite nth_overflow by (rewrite app_length, repeat_length; cbn [length]; lia). apply coeff_above. exact L. }
  intros x. rewrite (pval_nth_ext q q1 E). unfold q1. unfold pval. cbn [map peval].
  assert (M : map qC (repeat (@f0 QcF) (d - 1) ++ [lcoeff q]) = repeat (@f0 CF) (d - 1) ++ [qC (lcoeff q)]).
  { assert (E0 : forall k, map qC (repeat (@f0 QcF) k) = repeat (@f0 CF) k).
    { induction k as [|k IHk]; cbn [repeat map]; auto. rewrite IHk. change (@f0 QcF) with 0%Qc. rewrite qC_0. reflexivity. }
    transitivity (map qC (repeat (@f0 QcF) (d - 1)) ++ map qC [lcoeff q]); [apply map_app|]. rewrite E0. reflexivity. }
  assert (P : peval (K:=CF) (map qC (repeat (@f0 QcF) (d - 1) ++ [lcoeff q])) x = (fpow (K:=CF) x (d - 1) * qC (lcoeff q))%C).
  { refine (eq_trans (f_equal (fun l => peval (K:=CF) l x) M) _). rewrite (peval_app (K:=CF)), (peval_zeros (K:=CF)), repeat_length. cbn [peval]. cring. }
  toC. rewrite P.
  assert (X : fpow (K:=CF) x d = (x * fpow (K:=CF) x (d - 1))%C) by (destruct d; [lia|]; cbn [fpow]; rewrite Nat.sub_succ, Nat.sub_0_r; reflexivity).
  rewrite X. cring.
Qed.

Lemma no_rational_root_after (q : poly) m ls ts rs q' rs' : proper q -> integer_coefficients q -> square_free q -> 2 <= length q -> coeff q 0 <> 0%Qc ->
  small (lcoeff q) = true -> small (coeff q 0) = true -> divisors (lcoeff q) = Some ls -> divisors (coeff q 0) = Some ts ->
  search m ls ts (q, rs) = (q', rs') -> exists new, rs' = rs ++ map (rational_root m) new /\ proper q' /\ length q = length q' + length new /\
  integer_coefficients q' /\ square_free q' /\ (forall x, pval q x = (pval q' x * lin_prod (K:=CF) (map qC new) x)%C) /\
  (forall r, peval (K:=QcF) q' r <> 0%Qc) /\ (forall r, peval (K:=QcF) q r = 0%Qc <-> In r new).
Proof.
  intros HQ HI HS L H0 S1 S2 D1 D2 H. rewrite search_tries in H.
  destruct (tries_ok _ _ _ _ _ _ H HQ) as (new & E1 & P1 & L1 & LA & I1 & V1 & M1 & C1 & N1).
  destruct (tries_square_free _ _ _ _ _ _ H HQ HS) as [SF NR].
  rewrite proper_lcoeff in S1, D1 by auto.
  assert (CA : forall r, peval (K:=QcF) q r = 0%Qc -> In r (cands ls ts)) by (intros r Hr; apply (all_candidates q ls ts r); auto).
  exists new. repeat (split; [solve [auto]|]). split.
  - intros r Hr. apply (NR r); auto. apply CA. apply peval_of_pval. rewrite V1, (pval_of_peval q' r) by auto. apply Cmult_0_l.
  - intros r. split; auto. intros Hr. apply peval_of_pval. rewrite V1, lp_cprod, cprod_map.
    apply in_split in Hr. destruct Hr as (u & v & ->). rewrite cprod_app, cprod_cons. ring.
Qed.
Lemma divisors_defined q : small q = true -> (exists z, q = zq z) -> q <> 0%Qc -> exists ls, divisors q = Some ls.
Proof.
  intros HS [z ->] N. unfold small in HS. unfold divisors. rewrite q_is_int_zq.
  assert (Z0 : z <> 0%Z) by (intros ->; apply N, zq_0).
  assert (A : qabs (zq z) = zq (Z.abs z)).
  { unfold qabs. destruct (q_lt (zq z) 0) eqn:E.
    - apply q_lt_spec in E. rewrite rv_zq, rv_0 in E. apply lt_IZR in E. rewrite Z.abs_neq by lia. symmetry. apply zq_opp.
    - apply q_lt_false in E. rewrite rv_zq, rv_0 in E. apply le_IZR in E. rewrite Z.abs_eq by lia. reflexivity. }
  rewrite A in HS |- *. apply q_lt_spec in HS. rewrite !rv_zq in HS. apply lt_IZR in HS. rewrite q_int_zq.
  destruct (IntUtilProofs.find_divisors_small (Z.abs z) []) as (new & E & _ & D); [unfold IntUtilModel.FIND_DIVISORS_THRESHOLD, IntUtilModel.FIND_DIVISORS_MAX in HS; lia|].
  rewrite E. eauto.
Qed.

(** The part common to all the outcomes: removing the root 0. *)
Definition started (p q : poly) (z : list Qc) : Prop :=
  proper q /\ integer_coefficients q /\ square_free q /\ coeff q 0 <> 0%Qc /\ length p = length q + length z /\
  forall x, pval p x = (pval q x * lin_prod (K:=CF) (map qC z) x)%C.
Definition after_start find (q : poly) (rs : list root) (m : nat) : option (bool * list root) :=
  if degree q =? 1 then Some (true, rs ++ [MkRoot (Rational (- coeff q 0 / lcoeff q)%Qc) m])
  else if small (lcoeff q) && small (coeff q 0) then
    match divisors (lcoeff q), divisors (coeff q 0) with
    | Some ls, Some ts =>
      let '(q', roots) := search m ls ts (q, rs) in
      if degree q' =? 0 then Some (true, roots)
      else if is_monomial q then
        match solve_monomial_irrational (coeff q 0) (degree q' + length roots) (lcoeff q) roots with
        | Some roots => Some (true, roots)
        | None => None
        end
      else rest poly_factor find q' roots m
    | _, _ => None
    end
  else rest poly_factor find q rs m.
Lemma start_eq find p roots m : proper p -> integer_coefficients p -> square_free p ->
  exists q z, (started p q z /\ (z = [] /\ q = p \/ z = [0%Qc] /\ p = 0%Qc :: q)) /\
    ((degree q = 0 /\ z = [0%Qc] /\ find_roots_step poly_factor find p roots m = Some (true, roots ++ map (rational_root m) z)) \/
     ((z = [] /\ q = p \/ z = [0%Qc] /\ degree q <> 0) /\
      find_roots_step poly_factor find p roots m = after_start find q (roots ++ map (rational_root m) z) m)).
Proof.
  intros HP HI HS. unfold find_roots_step. destruct (qzero_spec (coeff p 0)) as [E0|E0]; cbn [negb].
  - destruct (qzero_spec (coeff p 1)) as [E1|E1].
    { exfalso. assert (L : 3 <= length p).
      { destruct HP as [HP1 HP2]. destruct p as [|c [|d [|e p]]]; cbn [length]; try lia; exfalso; [congruence|apply HP2; exact E0|apply HP2; exact E1]. }
      destruct p as [|c [|d p]]; cbn [length] in L; try lia.
      apply (HS (RtoC 0) (map qC p)). intros x. fold (pval p x). rewrite !pval_cons.
      assert (Ec : c = 0%Qc) by exact E0. assert (Ed : d = 0%Qc) by exact E1. rewrite Ec, Ed, !qC_0. ring. }
    assert (L : 2 <= length p).
    { destruct p as [|c [|d p]]; [exfalso; apply E1; reflexivity|exfalso; apply E1; reflexivity|cbn; lia]. }
    assert (PT : proper (tl p)) by (apply proper_tl; auto).
    assert (V : forall x, pval p x = (pval (tl p) x * lin_prod (K:=CF) (map qC [0%Qc]) x)%C).
    { intros x. destruct p as [|c p]; [cbn in L; lia|]. unfold coeff in E0. cbn [nth] in E0. subst c. cbn [tl]. rewrite pval_cons. cbn [map lin_prod fold_right]. rewrite !qC_0. cring. }
    exists (tl p), [0%Qc]. split; [split|].
    + split; auto. split; [destruct p; [constructor|inversion HI; auto]|]. split.
      { apply (square_free_divisor p (tl p) (lin_poly (map qC [0%Qc]))); auto. intros x. rewrite V, peval_lin_poly. reflexivity. }
      split; [|split; auto; destruct p; cbn [length tl] in *; lia].
      destruct p as [|c p]; [cbn in L; lia|]. exact E1.
    + right. split; auto. destruct p as [|c p]; [cbn in L; lia|]. unfold coeff in E0. cbn [nth] in E0. subst c. reflexivity.
    + match goal with |- context [match (if degree ?a =? 0 then _ else _) with _ => _ end] => idtac | _ => idtac end.
      destruct (Nat.eqb_spec (degree (tl (A:=QcF) p)) 0) as [Z|Z].
      * left. split; [exact Z|]. split; reflexivity.
      * right. split; [right; split; [reflexivity|exact Z]|]. reflexivity.
  - exists p, []. split; [split; [|left; auto]|].
    + split; auto. split; auto. split; auto. split; auto. split; [cbn [length]; lia|]. intros x. cbn [map lin_prod fold_right]. cring.
    + right. split; [left; auto|]. cbn [map]. rewrite app_nil_r. reflexivity.
Qed.
Lemma start_ok find p roots m b roots' : proper p -> integer_coefficients p -> square_free p ->
  find_roots_step poly_factor find p roots m = Some (b, roots') ->
  exists q z, (started p q z /\ (z = [] /\ q = p \/ z = [0%Qc] /\ p = 0%Qc :: q)) /\
    ((degree q = 0 /\ z = [0%Qc] /\ b = true /\ roots' = roots ++ map (rational_root m) z) \/
     ((z = [] /\ q = p \/ z = [0%Qc] /\ degree q <> 0) /\ after_start find q (roots ++ map (rational_root m) z) m = Some (b, roots'))).
Proof.
  intros HP HI HS H. destruct (start_eq find p roots m HP HI HS) as (q & z & A & [(B1 & B2 & B3)|(B1 & B2)]); exists q, z; split; auto.
  - left. repeat (split; [congruence|]). congruence.
  - right. split; auto. congruence.
Qed.

Lemma adds_start (p q : poly) z m b new : started p q z -> adds q m b new -> adds p m b (map (rational_root m) z ++ new).
Proof.
  intros (HP & HI & HS & H0 & HL & V) A.
  assert (ZP : exists h : list Qc, forall x, pval h x = lin_prod (K:=CF) (map qC z) x).
  { clear. induction z as [|a z [h IH]]; [exists [1%Qc]; intros x; rewrite pval_cons, pval_nil, qC_1; cbn [map lin_prod fold_right]; cring|].
    exists (pmul (K:=QcF) [(- a)%Qc; 1%Qc] h). intros x. rewrite pval_pmul, IH, !pval_cons, pval_nil, qC_1, qC_opp. cbn [map lin_prod fold_right]. fold (lin_prod (K:=CF) (map qC z) x). cring. }
  destruct ZP as [h Hh]. apply (adds_factor p q h m b z new); auto. intros x. rewrite V, Hh. reflexivity.
Qed.
Lemma adds_const (q : poly) m : proper q -> degree q = 0 -> adds q m true [].
Proof.
  intros HP HD. pose proof (proper_list q 0 HP HD) as L. destruct q as [|c [|? ?]]; cbn [length] in L; try lia.
  split; [intros r a []|]. split; [intros _ r []|]. intros _ _. exists (qC c). split; [apply qC_neq0, HP|].
  intros x. rewrite pval_cons, pval_nil. unfold linear_factors. cbn [fold_right]. ring.
Qed.
Lemma adds_linear (q : poly) m : proper q -> degree q = 1 -> adds q m true [MkRoot (Rational (- coeff q 0 / lcoeff q)%Qc) m].
Proof.
  intros HP HD. pose proof (proper_list q 1 HP HD) as L. pose proof (proper_lcoeff q HP) as LL.
  assert (NZ : lcoeff q <> 0%Qc) by (rewrite LL; apply HP).
  destruct q as [|c [|d [|? ?]]]; cbn [length] in L; try lia. cbn [last] in LL. unfold coeff. cbn [nth]. rewrite LL in *. clear LL.
  assert (V : forall x, pval [c; d] x = (qC d * (x - qC (- c / d)))%C).
  { intros x. rewrite !pval_cons, pval_nil, qC_div, qC_opp. field. apply qC_neq0; auto. }
  split; [|split].
  - intros r a [<-|[]] Hv. cbn [value] in Hv. assert (a = (- c / d)%Qc) by congruence. subst a. apply peval_of_pval. rewrite V. ring.
  - intros -> r [<-|[]]. reflexivity.
  - intros _ _. exists (qC d). split; [apply qC_neq0; auto|]. intros x. rewrite V, lf_cons. unfold linear_factors, rvalue. cbn [fold_right value]. ring.
Qed.

Lemma step_ok find : find_ok find -> find_ok (find_roots_step poly_factor find).
Proof.
  intros HF p roots m b roots' HP HI HS H. destruct (start_ok find p roots m b roots' HP HI HS H) as (q & z & [HST _] & HC). clear H.
  enough (X : exists new, roots' = (roots ++ map (rational_root m) z) ++ new /\ adds q m b new).
  { destruct X as (new & -> & A). exists (map (rational_root m) z ++ new). split; [symmetry; apply app_assoc|]. apply adds_start with (q := q); auto. }
  destruct HST as (PQ & IQ & SQ & Q0 & LQ & VQ).
  destruct HC as [(D0 & _ & -> & ->)|(_ & H)].
  { exists []. rewrite app_nil_r. split; auto. apply adds_const; auto. }
  set (rs := roots ++ map (rational_root m) z) in *. clearbody rs. unfold after_start in H.
  destruct (Nat.eqb_spec (degree q) 1) as [D1|D1].
  { match type of H with Some (true, ?a) = _ => assert (a = roots' /\ b = true) as [<- ->] by (split; congruence) end. eexists. split; [reflexivity|]. apply adds_linear; auto. }
  destruct (small (lcoeff q) && small (coeff q 0)) eqn:SM; [|apply (rest_ok find); auto].
  apply andb_prop in SM. destruct SM as [S1 S2].
  destruct (divisors (lcoeff q)) as [ls|] eqn:DL; [|discriminate]. destruct (divisors (coeff q 0)) as [ts|] eqn:DT; [|discriminate].
  destruct (search m ls ts (q, rs)) as [q' rs'] eqn:SE.
  destruct (Nat.eq_dec (degree q) 0) as [D0|D0].
  { rewrite search_tries in SE. destruct (tries_ok _ _ _ _ _ _ SE PQ) as (new & -> & P1 & L1 & _ & _ & V1 & _).
    pose proof (proper_list q 0 PQ D0). pose proof (proper_length q' P1). tq. assert (new = []) by (destruct new; auto; cbn [length] in L1; lia). subst new.
    cbn [map length] in *. rewrite app_nil_r in H.
    assert (DQ : degree q' = 0) by (pose proof (proper_degree q' P1); tq; lia). rewrite DQ in H. cbn [Nat.eqb] in H.
    assert (rs = roots' /\ b = true) as [<- ->] by (split; congruence). exists []. rewrite app_nil_r. split; auto. apply adds_const; auto. }
  assert (L2 : 2 <= length q) by (pose proof (proper_list q _ PQ eq_refl); tq; lia).
  destruct (no_rational_root_after q m ls ts rs q' rs' PQ IQ SQ L2 Q0 S1 S2 DL DT SE) as (new & -> & P1 & L1 & I1 & SF & V1 & NR & RT).
  assert (ST' : started q q' new).
  { split; auto. split; auto. split; auto. split; auto. intros X. apply (NR 0%Qc). rewrite (peval_0 (K:=QcF)). exact X. }
  enough (X : exists nn, roots' = (rs ++ map (rational_root m) new) ++ nn /\ adds q' m b nn \/ exists nn, roots' = (rs ++ map (rational_root m) new) ++ nn /\ is_monomial q = true /\ forall r, In r nn -> multiplicity r = 1 /\ exists w, value r = Irrational w).
  { destruct X as (nn & [[-> A]|X]).
    - exists (map (rational_root m) new ++ nn). split; [symmetry; apply app_assoc|]. apply adds_start with (q := q'); auto.
    - destruct X as (nn' & -> & IM & A). exists (map (rational_root m) new ++ nn'). split; [symmetry; apply app_assoc|]. split; [|split].
      + intros r a Hr Hv. apply in_app_or in Hr. destruct Hr as [Hr|Hr].
        * apply in_map_iff in Hr. destruct Hr as (c & <- & Hc). cbn [rational_root value] in Hv. assert (c = a) by congruence. subst c. apply RT. auto.
        * destruct (A r Hr) as [_ [w Hw]]. congruence.
      + intros Hm r Hr. apply in_app_or in Hr. destruct Hr as [Hr|Hr]; [|apply A; auto]. apply in_map_iff in Hr. destruct Hr as (c & <- & Hc). exact Hm.
      + intros HN. exfalso. apply (HN q [1%Qc]).
        * intros x. rewrite (pval_cons _ []), pval_nil, qC_1. ring.
        * exists (lcoeff q), (coeff q 0), (degree q). split; [rewrite proper_lcoeff by auto; apply PQ|]. split; auto. split; [lia|]. apply is_monomial_val; auto. lia. }
  destruct (Nat.eqb_spec (degree q') 0) as [Z|Z].
  { match type of H with Some (true, ?a) = _ => assert (a = roots' /\ b = true) as [<- ->] by (split; congruence) end. exists []. left. rewrite app_nil_r. split; auto. apply adds_const; auto. }
  destruct (is_monomial q) eqn:IM.
  - exists []. right. destruct (solve_monomial_irrational _ _ _ _) as [l|] eqn:SMI; [|discriminate].
    assert (l = roots' /\ b = true) as [-> ->] by (split; congruence). unfold solve_monomial_irrational in SMI.
    destruct (2 <? _); [discriminate|]. destruct (signs _ _ _) as [[pos neg]|]; [|discriminate].
    match type of SMI with Some (_ ++ ?a) = _ => set (al := a) in SMI; assert (AL : al = a) by reflexivity; clearbody al end.
    exists al. split; [congruence|]. split; auto. intros r Hr. rewrite AL in Hr. apply in_map_iff in Hr. destruct Hr as (j & <- & _). cbn. eauto.
  - destruct (rest_ok find q' (rs ++ map (rational_root m) new) m b roots') as (nn & -> & A); auto.
    + intros D1'. pose proof (adds_linear q' m P1 D1') as (AL & _). apply (NR (- coeff q' 0 / lcoeff q')%Qc). eapply AL; [left; reflexivity|reflexivity].
    + exists nn. left. auto.
Qed.
Theorem find_roots_ok fuel : find_ok (find_roots poly_factor fuel).
Proof. induction fuel as [|fuel IH]; [intros p roots m b roots' _ _ _ H; discriminate|]. apply step_ok. exact IH. Qed.
End Find.
