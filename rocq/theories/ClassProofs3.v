From Coq Require Import ZArith Znumtheory QArith Qcanon Qreals Reals List String Bool Lia Lra.
From Verif Require Import Ast ExprModel ExprSpec ExprProofs1 ExprProofs2 SeqInterp ElimModel ElimSpec ElimProofs ClassModel ClassSpec ClassProofs ClassProofs2.
Import ListNotations.
Local Open Scope list_scope.
Local Open Scope R_scope.

Section Main.
Context (G : ginac) (lm ms : Z).
Notation summand := (classification_summand G lm ms).
Notation run := (classify_terms G lm ms).

Section Val.
Context (I : interp) (rho : string -> R) (x : nat -> R) (n : nat).
Hypothesis HX : forall l, ifun I FX l = None.
Hypothesis HG : ginac_ok (with_x I x) G.
Notation J := (with_x I x).
Notation rn := (upd rho "n" (INR n)).
Lemma eprod_rev l v : eprod J rn l = Some v -> eprod J rn (rev l) = Some v.
Proof.
  revert v. induction l as [|f l IHl]; intros v Hv; auto. rewrite eprod_cons in Hv. apply olift2_some in Hv as (p & q & Ep & Eq & ->). cbn [rev]. rewrite eprod_app, eprod_1, (IHl _ Eq), Ep. cbn. f_equal. lra.
Qed.
Lemma product_val cs p : eprod J rn cs = Some p -> eval J rn (fold_left (gmul G) cs (Num 1%Qc)) = Some p.
Proof. intros H. rewrite (fold_left_val G J rn cs HG (Num 1%Qc) 1 p); auto; [f_equal; lra|]. rewrite eval_num. now rewrite rv_1. Qed.
(** A product with a factor x(a) taken out. *)
Lemma split_val t a cs w : ((exists y, t = Fun FX (a :: y)) /\ cs = [] \/ exists y f1 f2, t = Mul (f1 ++ Fun FX (a :: y) :: f2) /\ rev cs = f1 ++ f2) ->
  eval J rn t = Some w -> exists p q, eval J rn (Fun FX [a]) = Some p /\ eprod J rn cs = Some q /\ w = q * p.
Proof.
  intros [[[y ->] ->]|(y & f1 & f2 & -> & R)] Hw.
  - destruct (fx_one I rho x n HX _ _ Hw) as [a' E]. assert (y = []) as -> by congruence. exists w, 1. repeat split; auto. lra.
  - rewrite eval_Mul, eprod_app, eprod_cons in Hw. apply olift2_some in Hw as (p & q & Ep & Eq & ->). apply olift2_some in Eq as (z & s & Ez & Es & ->).
    destruct (fx_one I rho x n HX _ _ Ez) as [a' E]. assert (y = []) as -> by congruence. exists z, (p * s). split; [auto|]. split; [|lra].
    rewrite <- (rev_involutive cs), R. apply eprod_rev. now rewrite eprod_app, Ep, Es.
Qed.
Lemma step_val t k s s' u w : step_kind G lm ms t k s s' -> eval J rn t = Some w -> eval J rn (form s) = Some u ->
  (forall d p, div_term t d -> In p (c_hom s) -> fst p <> d) -> eval J rn (form s') = Some (u + w).
Proof.
  intros K Hw Hu Hd. destruct K as [e He ->|a z j cs c s1 Ha Ec Ef Ht Hcs -> (ty & _ & -> & _)|a d cs c Ha Hs Ht Hcs -> ->].
  - apply (put_inhom_val I rho x n G HG); auto. destruct He as [(-> & _ & _)|(l & -> & _ & ->)]; auto. apply product_val, eprod_rev. exact Hw.
  - destruct (split_val _ _ _ _ Ht Hw) as (p & q & Ep & Eq & ->). apply compute_order_inv in Ec as (Hz & -> & _ & E1 & _ & E2 & E3 & _).
    destruct (x_dec_val I rho x n a z p Ha Ep ltac:(lia)) as [Hj ->].
    change (eval J rn (form (put_coeff G (fold_left (gmul G) cs (Num 1%Qc)) (Z.to_nat (- z)) (set_gcd k (Z.to_nat (- z)) s1))) = Some (u + q * x (n - Z.to_nat (- z))%nat)).
    apply (put_coeff_val I rho x n G HG); auto; [now apply product_val|]. unfold form in *. cbn [set_gcd c_coeffs c_hom c_inhom]. now rewrite E1, E2, E3.
  - destruct (split_val _ _ _ _ Ht Hw) as (p & q & Ep & Eq & ->). pose proof (x_div_val I rho x n a d p Ha Ep) as Ep'.
    change (eval J rn (form (put_hom d (fold_left (gmul G) cs (Num 1%Qc)) s)) = Some (u + q * p)).
    apply (put_hom_val I rho x n); auto; [now apply product_val|]. intros p' Hin. apply Hd; auto. exists a. split; auto.
    destruct Ht as [[[y ->] _]|(y & f1 & f2 & -> & _)].
    + destruct (fx_one I rho x n HX _ _ Hw) as [a' E]. left. congruence.
    + right. exists (f1 ++ Fun FX (a :: y) :: f2). split; auto. apply in_app_iff. right. left.
      rewrite eval_Mul, eprod_app, eprod_cons in Hw. apply olift2_some in Hw as (? & q0 & _ & Eq0 & _). apply olift2_some in Eq0 as (z & ? & Ez & _ & _).
      destruct (fx_one I rho x n HX _ _ Ez) as [a' E]. congruence.
Qed.
(** Keys come from terms. *)
Lemma step_keys t k s s' w : step_kind G lm ms t k s s' -> eval J rn t = Some w -> forall p, In p (c_hom s') -> In p (c_hom s) \/ div_term t (fst p).
Proof.
  intros K Hw p Hp. destruct K as [e He ->|a z j cs c s1 Ha Ec Ef Ht Hcs -> (ty & _ & -> & _)|a d cs c Ha Hs Ht Hcs -> ->].
  - left. unfold put_inhom in Hp. cbn [c_type] in Hp. destruct (c_type s); exact Hp.
  - left. cbn in Hp. apply compute_order_inv in Ec as (_ & _ & _ & _ & _ & E & _). now rewrite E in Hp.
  - cbn [set_type put_hom c_hom] in Hp. unfold map_insert in Hp. destruct (existsb _ _); [auto|]. apply in_app_iff in Hp. destruct Hp as [Hp|[<-|[]]]; [auto|]. right. cbn [fst].
    exists a. split; auto. destruct Ht as [[[y ->] _]|(y & f1 & f2 & -> & _)].
    + destruct (fx_one I rho x n HX _ _ Hw) as [a' E]. left. congruence.
    + right. exists (f1 ++ Fun FX (a :: y) :: f2). split; auto. apply in_app_iff. right. left.
      rewrite eval_Mul, eprod_app, eprod_cons in Hw. apply olift2_some in Hw as (? & q0 & _ & Eq0 & _). apply olift2_some in Eq0 as (z & ? & Ez & _ & _).
      destruct (fx_one I rho x n HX _ _ Ez) as [a' E]. congruence.
Qed.
Lemma run_val l : forall k s s' u w, run l k s = inr s' -> esum J rn l = Some w -> eval J rn (form s) = Some u ->
  distinct_divisors l -> (forall t d p, In t l -> div_term t d -> In p (c_hom s) -> fst p <> d) -> eval J rn (form s') = Some (u + w).
Proof.
  induction l as [|t l IH]; intros k s s' u w E Hw Hu Hd Hk; cbn [classify_terms] in E.
  - rewrite esum_nil in Hw. assert (w = 0) as -> by congruence. injection E as <-. rewrite Hu. f_equal. lra.
  - destruct (summand t k s) as [|s1] eqn:Es; [discriminate|]. apply summand_kind in Es. rewrite esum_cons in Hw. apply olift2_some in Hw as (w1 & w2 & E1 & E2 & ->).
    inversion Hd; subst. rewrite (IH (S k) s1 s' (u + w1) w2); auto; [f_equal; lra| |].
    + eapply step_val; eauto. intros d p Ht Hp. apply (Hk t d p); auto. now left.
    + intros t' d p Hin Ht' Hp. destruct (step_keys _ _ _ _ _ Es E1 p Hp) as [Hp'|Hp'].
      * apply (Hk t' d p); auto. now right.
      * intros <-. rewrite Forall_forall in H1. apply (H1 t' Hin (fst p)). auto.
Qed.
(** Without x(n/d) there is nothing to collide. *)
Lemma step_type t k s s' : step_kind G lm ms t k s s' -> is_functional s' = false -> is_functional s = false /\ c_hom s' = c_hom s.
Proof.
  intros K F. destruct K as [e He ->|a z j cs c s1 Ha Ec Ef Ht Hcs -> (ty & _ & -> & _)|a d cs c Ha Hs Ht Hcs -> ->].
  - unfold put_inhom in *. cbn [c_type] in *. unfold is_functional in *. destruct (c_type s) eqn:Et; cbn in *; rewrite ?Et in *; auto.
  - apply compute_order_inv in Ec as (_ & _ & _ & _ & _ & E & _ & E'). unfold is_functional in *. rewrite E' in Ef. split; auto.
  - discriminate.
Qed.
Lemma run_type l : forall k s s', run l k s = inr s' -> is_functional s' = false -> is_functional s = false /\ c_hom s' = c_hom s.
Proof.
  induction l as [|t l IH]; intros k s s' E F; cbn [classify_terms] in E; [injection E as <-; auto|]. destruct (summand t k s) as [|s1] eqn:Es; [discriminate|].
  apply IH in E as [E1 E2]; auto. apply summand_kind, step_type in Es as [E3 E4]; auto. split; auto. congruence.
Qed.
Lemma run_val_linear l : forall k s s' u w, run l k s = inr s' -> is_functional s' = false -> c_hom s = [] -> esum J rn l = Some w -> eval J rn (form s) = Some u ->
  eval J rn (form s') = Some (u + w).
Proof.
  induction l as [|t l IH]; intros k s s' u w E F Hh Hw Hu; cbn [classify_terms] in E.
  - rewrite esum_nil in Hw. assert (w = 0) as -> by congruence. injection E as <-. rewrite Hu. f_equal. lra.
  - destruct (summand t k s) as [|s1] eqn:Es; [discriminate|]. apply summand_kind in Es. rewrite esum_cons in Hw. apply olift2_some in Hw as (w1 & w2 & E1 & E2 & ->).
    destruct (run_type _ _ _ _ E F) as [F1 _]. destruct (step_type _ _ _ _ Es F1) as [_ H1].
    rewrite (IH (S k) s1 s' (u + w1) w2); auto; [f_equal; lra|congruence|]. eapply step_val; eauto. rewrite Hh. intros ? ? ? [].
Qed.
Lemma start_val : eval J rn (form start) = Some 0.
Proof. apply form_val. exists 0, 0, 0. cbn. rewrite rv_0. repeat split; auto. lra. Qed.
Lemma classify_run rhs s : classify G lm ms rhs = inr s -> run (terms rhs) 0 start = inr s.
Proof. destruct rhs; auto. Qed.
Lemma terms_val rhs : esum J rn (terms rhs) = eval J rn rhs.
Proof. destruct rhs; cbn [terms]; rewrite ?esum_1; auto. Qed.
Theorem classify_value rhs s v : classify G lm ms rhs = inr s -> eval J rn rhs = Some v -> distinct_divisors (terms rhs) ->
  eval J rn (reassembled (c_coeffs s) (c_hom s) (c_inhom s)) = Some v.
Proof.
  intros E Hv Hd. apply classify_run in E. rewrite <- terms_val in Hv. pose proof (run_val _ _ _ _ 0 v E Hv start_val Hd) as H. unfold form in H.
  rewrite Rplus_0_l in H. apply H. intros ? ? ? _ _ [].
Qed.
Theorem classify_value_linear rhs s v : classify G lm ms rhs = inr s -> c_type s <> Some FUNCTIONAL -> eval J rn rhs = Some v ->
  c_hom s = [] /\ eval J rn (reassembled (c_coeffs s) [] (c_inhom s)) = Some v.
Proof.
  intros E Ht Hv. apply classify_run in E. rewrite <- terms_val in Hv. assert (F : is_functional s = false) by (unfold is_functional; destruct (c_type s) as [[]|]; auto; congruence).
  destruct (run_type _ _ _ _ E F) as [_ Hh]. cbn in Hh. split; auto. pose proof (run_val_linear _ _ _ _ 0 v E F eq_refl Hv start_val) as H. unfold form in H.
  rewrite Rplus_0_l, Hh in H. exact H.
Qed.
End Val.

(** * Order, greatest common divisor, kinds *)
Lemma n_plus_inj a z z' : is_n_plus a z -> is_n_plus a z' -> z = z'.
Proof.
  assert (ZI : forall p q, zq p = zq q -> p = q) by (intros p q E; apply eq_IZR; rewrite <- !rv_zq; now rewrite E).
  intros [[-> ->]|[->| ->]] [[E ->]|[E|E]]; try discriminate; auto; apply ZI; congruence.
Qed.
Lemma over_plus a d z : is_n_over a d -> is_n_plus a z -> False.
Proof. intros [_ [->| ->]] [[E _]|[E|E]]; discriminate. Qed.
Lemma dec_of_step t k s s' j : step_kind G lm ms t k s s' -> dec_term t j ->
  exists s1 c ty, compute_order lm ms (Z.of_nat j) s = inr (s1, j) /\ s' = set_type ty (put_coeff G c j (set_gcd k j s1)).
Proof.
  intros K (a0 & Ha0 & Ht0).
  assert (Same : forall a cs, no_fx cs -> ((exists y, t = Fun FX (a :: y)) /\ cs = [] \/ exists y f1 f2, t = Mul (f1 ++ Fun FX (a :: y) :: f2) /\ rev cs = f1 ++ f2) -> a = a0).
  { intros a cs Hcs [[[y ->] _]|(y & f1 & f2 & -> & Hr)]; destruct Ht0 as [E|(l & E & Hin)]; try congruence.
    assert (l = f1 ++ Fun FX (a :: y) :: f2) as -> by congruence. apply in_app_iff in Hin. apply no_fx_rev in Hcs. rewrite Hr in Hcs.
    destruct Hin as [Hin|[Hin|Hin]]; [|congruence|]; exfalso; apply (Hcs a0 []), in_app_iff; auto. }
  destruct K as [e He ->|a z j' cs c s1 Ha Ec Ef Ht Hcs -> (ty & _ & -> & _)|a d cs c Ha Hs Ht Hcs -> ->].
  - exfalso. destruct He as [(_ & N1 & N2)|(l & -> & Hl & _)].
    + destruct Ht0 as [->|(l & -> & _)]; [apply N1; exact Logic.I|exact N2].
    + destruct Ht0 as [E|(l' & E & Hin)]; [discriminate|]. assert (l' = l) as -> by congruence. exact (Hl _ _ Hin).
  - rewrite (Same a cs Hcs Ht) in Ha. pose proof (n_plus_inj _ _ _ Ha Ha0) as ->. rewrite Z.opp_involutive in Ec. pose proof (compute_order_inv _ _ _ _ _ _ Ec) as (_ & -> & _).
    rewrite Nat2Z.id in *. eauto.
  - rewrite (Same a cs Hcs Ht) in Ha. exfalso. eapply over_plus; eauto.
Qed.
Lemma step_dec t k s s' : step_kind G lm ms t k s s' -> 
  (c_order s' = c_order s /\ c_gcd s' = c_gcd s /\ c_coeffs s' = c_coeffs s /\ forall j, ~ dec_term t j) \/
  (exists j, ((exists a y, is_n_plus a (- Z.of_nat j) /\ (t = Fun FX (a :: y) \/ exists l, t = Mul l /\ In (Fun FX (a :: y)) l)) /\ (forall i, dec_term t i -> i = j)) /\
     c_order s' = Nat.max (c_order s) j /\ c_gcd s' = (if (k =? 0)%nat then Z.of_nat j else Z.gcd (c_gcd s) (Z.of_nat j)) /\ List.length (c_coeffs s') = Nat.max (List.length (c_coeffs s)) (S j)).
Proof.
  intros K. pose proof K as K0. destruct K as [e He ->|a z j' cs c s1 Ha Ec Ef Ht Hcs -> (ty & _ & -> & _)|a d cs c Ha Hs Ht Hcs -> ->].
  - left. assert (E : c_order (put_inhom G e s) = c_order s /\ c_gcd (put_inhom G e s) = c_gcd s /\ c_coeffs (put_inhom G e s) = c_coeffs s) by (unfold put_inhom; cbn [c_type]; destruct (c_type s); auto).
    destruct E as (E1 & E2 & E3). repeat split; auto. intros j Hj. destruct (dec_of_step _ _ _ _ _ K0 Hj) as (s1 & c & ty & Ec & E). 
    assert (L : List.length (c_coeffs (put_inhom G e s)) = Nat.max (List.length (c_coeffs s)) (S j) /\ c_inhom (put_inhom G e s) = c_inhom s1) by (rewrite E; cbn [set_type put_coeff set_gcd c_coeffs c_inhom]; rewrite insert_length; apply compute_order_inv in Ec as (_ & _ & _ & -> & _); auto).
    destruct He as [(_ & N1 & N2)|(l & -> & Hl & _)]; destruct Hj as (a0 & _ & Ht0).
    + destruct Ht0 as [->|(l & -> & _)]; [apply N1; exact Logic.I|exact N2].
    + destruct Ht0 as [E'|(l' & E' & Hin)]; [discriminate|]. assert (l' = l) as -> by congruence. exact (Hl _ _ Hin).
  - right. exists j'. pose proof (compute_order_inv _ _ _ _ _ _ Ec) as (Hz & Hj & Ho & Hc & Hg & _). split; [split|].
    + destruct Ht as [[[y ->] _]|(y & f1 & f2 & -> & _)]; exists a, y; (split; [replace (- Z.of_nat j')%Z with z by lia; auto|]).
      * now left.
      * right. exists (f1 ++ Fun FX (a :: y) :: f2). split; auto. apply in_app_iff. right. now left.
    + intros i Hi. destruct (dec_of_step _ _ _ _ _ K0 Hi) as (s2 & c2 & ty2 & Ec2 & E2).
      destruct Hi as (a0 & Ha0 & Ht0). assert (a = a0).
      { destruct Ht as [[[y ->] _]|(y & f1 & f2 & -> & Hr)]; destruct Ht0 as [E|(l & E & Hin)]; try congruence.
        assert (l = f1 ++ Fun FX (a :: y) :: f2) as -> by congruence. apply in_app_iff in Hin. apply no_fx_rev in Hcs. rewrite Hr in Hcs.
        destruct Hin as [Hin|[Hin|Hin]]; [|congruence|]; exfalso; apply (Hcs a0 []), in_app_iff; auto. }
      subst a0. pose proof (n_plus_inj _ _ _ Ha Ha0). lia.
    + cbn [set_type put_coeff set_gcd c_order c_gcd c_coeffs]. rewrite insert_length, Ho, Hg, Hc. auto.
  - left. repeat split; auto. intros j Hj. destruct (dec_of_step _ _ _ _ _ K0 Hj) as (s1 & c & ty & Ec & E).
    assert (L : List.length (c_coeffs (set_type FUNCTIONAL (put_hom d (fold_left (gmul G) cs (Num 1%Qc)) s))) = List.length (c_coeffs s)) by reflexivity.
    destruct Hj as (a0 & Ha0 & Ht0). assert (a = a0).
    { destruct Ht as [[[y ->] _]|(y & f1 & f2 & -> & Hr)]; destruct Ht0 as [E'|(l & E' & Hin)]; try congruence.
      assert (l = f1 ++ Fun FX (a :: y) :: f2) as -> by congruence. apply in_app_iff in Hin. apply no_fx_rev in Hcs. rewrite Hr in Hcs.
      destruct Hin as [Hin|[Hin|Hin]]; [|congruence|]; exfalso; apply (Hcs a0 []), in_app_iff; auto. }
    subst a0. eapply over_plus; eauto.
Qed.
(** Terms x(.) have one argument (there is no other x in the language). *)
Definition unary_x (t : expr) : Prop :=
  match t with
  | Fun FX l => List.length l = 1%nat
  | Mul l => Forall (fun f => match f with Fun FX l => List.length l = 1%nat | _ => True end) l
  | _ => True
  end.
Lemma unary_dec t j : unary_x t -> (exists a y, is_n_plus a (- Z.of_nat j) /\ (t = Fun FX (a :: y) \/ exists l, t = Mul l /\ In (Fun FX (a :: y)) l)) -> dec_term t j.
Proof.
  intros U (a & y & Ha & [->|(l & -> & Hin)]); exists a; split; auto.
  - cbn in U. destruct y; [auto|discriminate].
  - right. exists l. split; auto. cbn in U. rewrite Forall_forall in U. specialize (U _ Hin). cbn in U. destruct y; [auto|discriminate].
Qed.
Lemma run_orders l : Forall unary_x l -> forall k s s', run l k s = inr s' -> ((k = 0)%nat -> c_gcd s = 0%Z) ->
  (forall d, (d | c_gcd s')%Z <-> (d | c_gcd s)%Z /\ forall t j, In t l -> dec_term t j -> (d | Z.of_nat j)%Z) /\
  (forall t j, In t l -> dec_term t j -> (j <= c_order s')%nat) /\ (c_order s <= c_order s')%nat /\
  (c_order s' = c_order s \/ exists t, In t l /\ dec_term t (c_order s')) /\
  ((forall t j, In t l -> ~ dec_term t j) /\ c_coeffs s' = c_coeffs s /\ c_order s' = c_order s \/
   (exists t j, In t l /\ dec_term t j) /\ (List.length (c_coeffs s) = 0%nat /\ c_order s = 0%nat \/ List.length (c_coeffs s) = S (c_order s) -> List.length (c_coeffs s') = S (c_order s'))).
Proof.
  induction l as [|t l IH]; intros U k s s' E Hk; cbn [classify_terms] in E.
  - injection E as <-. split; [|split; [|split; [|split]]]; auto.
    + intros d. split; [intros H; split; [auto|intros ? ? []]|tauto].
    + intros ? ? [].
  - apply Forall_cons_iff in U as [Ut U]. destruct (summand t k s) as [|s1] eqn:Es; [discriminate|]. apply summand_kind, step_dec in Es.
    specialize (IH U (S k) s1 s' E ltac:(discriminate)) as (G1 & G2 & G3 & G4 & G5).
    destruct Es as [(E1 & E2 & E3 & Nd)|(j & (D & Du) & E1 & E2 & E3)].
    + rewrite E1, E2, E3 in *. split; [|split; [|split; [|split]]]; auto.
      * intros d. rewrite G1. split; intros [Ha Hb]; (split; [auto|]); intros t' j Hin Hd; [destruct Hin as [->|Hin]; [exfalso; eapply Nd; eauto|eauto]|apply (Hb t' j); [now right|auto]].
      * intros t' j [->|Hin] Hd; [exfalso; eapply Nd; eauto|eauto].
      * destruct G4 as [->|(t' & ? & ?)]; [auto|right; exists t'; split; [now right|auto]].
      * destruct G5 as [(N & ? & ?)|[(t' & j & ? & ?) H]]; [left|right].
        -- split; [|auto]. intros t' j [->|Hin]; [apply Nd|apply N; auto].
        -- split; [exists t', j; split; [now right|auto]|auto].
    + apply (unary_dec _ _ Ut) in D. 
      assert (Eg : c_gcd s1 = Z.gcd (c_gcd s) (Z.of_nat j)).
      { rewrite E2. destruct (Nat.eqb_spec k 0) as [->|]; [|auto]. rewrite (Hk eq_refl). rewrite Z.gcd_0_l. now rewrite Z.abs_eq by lia. }
      assert (Gd : forall d, (d | c_gcd s1)%Z <-> (d | c_gcd s)%Z /\ (d | Z.of_nat j)%Z).
      { intros d. rewrite Eg. split; [intros H; split; eapply Z.divide_trans; eauto; [apply Z.gcd_divide_l|apply Z.gcd_divide_r]|intros [? ?]; now apply Z.gcd_greatest]. }
      split; [|split; [|split; [|split]]].
      * intros d. rewrite G1, Gd. split; [intros [[Ha Hj] Hb]|intros [Ha Hb]].
        -- split; [auto|]. intros t' i [->|Hin] Hd; [rewrite (Du i Hd); auto|eauto].
        -- split; [split; [auto|apply (Hb t j); [now left|auto]]|]. intros t' i Hin Hd. apply (Hb t' i); [now right|auto].
      * intros t' i [->|Hin] Hd; [rewrite (Du i Hd); lia|eauto].
      * lia.
      * destruct G4 as [G4|(t' & ? & ?)]; [|right; exists t'; split; [now right|auto]]. rewrite G4, E1. destruct (Nat.max_spec (c_order s) j) as [[? ->]|[? ->]]; [|now left].
        right. exists t. split; [now left|auto].
      * right. split; [exists t, j; split; [now left|auto]|]. intros Hs. assert (L1 : List.length (c_coeffs s1) = S (c_order s1)) by (rewrite E1, E3; lia).
        destruct G5 as [(_ & -> & ->)|[_ G5]]; auto.
Qed.
Theorem classify_order rhs s : Forall unary_x (terms rhs) -> classify G lm ms rhs = inr s ->
  (forall t j, In t (terms rhs) -> dec_term t j -> (j <= c_order s)%nat) /\
  (((exists t j, In t (terms rhs) /\ dec_term t j) /\ (exists t, In t (terms rhs) /\ dec_term t (c_order s)) /\ List.length (c_coeffs s) = S (c_order s)) \/
   ((forall t j, In t (terms rhs) -> ~ dec_term t j) /\ c_coeffs s = [] /\ c_order s = 0%nat)) /\
  (forall d, (d | c_gcd s)%Z <-> forall t j, In t (terms rhs) -> dec_term t j -> (d | Z.of_nat j)%Z).
Proof.
  intros U E. apply classify_run in E. destruct (run_orders _ U _ _ _ E (fun _ => eq_refl)) as (G1 & G2 & _ & G4 & G5). split; [auto|]. split.
  - destruct G5 as [(N & H1 & H2)|[(t & j & Hin & Hd) H]]; [right; auto|left]. split; [eauto|]. split; [|apply H; cbn; auto].
    destruct G4 as [G4|G4]; [|auto]. cbn in G4. pose proof (G2 t j Hin Hd). exists t. split; auto. rewrite G4. assert (j = 0)%nat as -> by lia. exact Hd.
  - intros d. rewrite G1. cbn. split; [intros [_ ?]; auto|]. intros H. split; [apply Z.divide_0_r|auto].
Qed.

(** Constant coefficients do not depend on n. *)
Section Const.
Context (I : interp) (rho : string -> R) (x : nat -> R) (n n' : nat).
Hypothesis HX : forall l, ifun I FX l = None.
Hypothesis HG : ginac_ok (with_x I x) G.
Definition same_value (c : expr) : Prop := exists w, eval (with_x I x) (upd rho "n" (INR n)) c = Some w /\ eval (with_x I x) (upd rho "n" (INR n')) c = Some w.
Lemma insert_Forall c j l : same_value c -> Forall same_value l -> Forall same_value (insert_coefficients G c j l).
Proof.
  intros Hc Hl. unfold insert_coefficients. set (l' := if (List.length l <? j)%nat then l ++ repeat (Num 0%Qc) (j - List.length l) else l).
  assert (Hl' : Forall same_value l').
  { unfold l'. destruct (_ <? _)%nat; auto. apply Forall_app. split; auto. apply Forall_forall. intros e He. apply repeat_spec in He as ->. exists 0. rewrite !eval_num, rv_0. auto. }
  clearbody l'. destruct (j =? _)%nat; [apply Forall_app; auto|]. revert j. induction Hl' as [|a l' Ha Hl' IH]; intros [|j]; cbn [add_nth]; auto.
  constructor; auto. destruct Ha as (u & Ua & Ub), Hc as (w & Wa & Wb). exists (u + w). split; apply (gadd_val _ _ HG); auto.
Qed.
Lemma run_const l : forall k s s' w w', run l k s = inr s' -> esum (with_x I x) (upd rho "n" (INR n)) l = Some w -> esum (with_x I x) (upd rho "n" (INR n')) l = Some w' ->
  c_type s' <> Some VAR_COEFF -> (c_type s <> Some VAR_COEFF -> Forall same_value (c_coeffs s)) -> c_type s <> Some VAR_COEFF /\ Forall same_value (c_coeffs s').
Proof.
  induction l as [|t l IH]; intros k s s' w w' E Hw Hw' Ht Hs; cbn [classify_terms] in E; [injection E as <-; auto|].
  destruct (summand t k s) as [|s1] eqn:Es; [discriminate|]. apply summand_kind in Es. rewrite esum_cons in Hw, Hw'. apply olift2_some in Hw as (w1 & w2 & E1 & E2 & ->). apply olift2_some in Hw' as (w1' & w2' & E1' & E2' & ->).
  assert (K : (c_type s1 <> Some VAR_COEFF -> c_type s <> Some VAR_COEFF) /\ (c_type s1 <> Some VAR_COEFF -> Forall same_value (c_coeffs s1))).
  { destruct Es as [e He ->|a z j cs c s2 Ha Ec Ef Ht' Hcs -> (ty & Hty & -> & Hc)|a d cs c Ha Hs' Ht' Hcs -> ->].
    - unfold put_inhom. cbn [c_type]. destruct (c_type s) as [[]|] eqn:Et; cbn; rewrite ?Et; split; auto; try discriminate; intros H; apply Hs; congruence.
    - cbn [set_type c_type put_coeff set_gcd c_coeffs]. destruct Hty as [->| ->]; [|split; congruence]. destruct (Hc eq_refl) as [Hn Hv]. split; [auto|]. intros _.
      apply compute_order_inv in Ec as (_ & _ & _ & -> & _). apply insert_Forall; auto.
      destruct (split_val I rho x n HX _ _ _ _ Ht' E1) as (p & q & _ & Eq & _).
      assert (F : Forall (fun f => has "n" f = false) cs). { apply Forall_forall. intros f Hf. apply not_true_iff_false. intros H. apply not_true_iff_false in Hn. apply Hn. apply existsb_exists. eauto. }
      exists q. split; [apply (product_val I rho x n HG); auto|]. apply (product_val I rho x n' HG). rewrite <- Eq. now rewrite !(eprod_fresh (with_x I x) "n").
    - split; [|intros _; cbn; apply Hs]; destruct Hs' as [Hs'|Hs']; unfold is_fresh, is_functional in Hs'; destruct (c_type s) as [[]|]; try discriminate; intros; discriminate. }
  destruct K as [K1 K2]. destruct (IH (S k) s1 s' w2 w2' E E2 E2' Ht K2) as [T1 T2]. auto.
Qed.
Theorem classify_const rhs s w w' : classify G lm ms rhs = inr s -> c_type s = Some CONST_COEFF ->
  eval (with_x I x) (upd rho "n" (INR n)) rhs = Some w -> eval (with_x I x) (upd rho "n" (INR n')) rhs = Some w' -> Forall same_value (c_coeffs s).
Proof.
  intros E Ht Hw Hw'. apply classify_run in E. rewrite <- terms_val in Hw, Hw'. apply (run_const _ _ _ _ _ _ E Hw Hw').
  - rewrite Ht. discriminate.
  - intros _. constructor.
Qed.
End Const.
End Main.
