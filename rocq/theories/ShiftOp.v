(** Polynomials acting on sequences through the shift operator; exponential polynomials. *)
From Coq Require Import ZArith List Lia Field Arith.
From Verif Require Import Fld FPoly SeqSpec SeqLemmas.
Import ListNotations.

Section S.
Context {K : Fld}.
Add Field KFso : (fth K).
Local Open Scope fld_scope.

(** (sum_i c_i y^i) . x  =  n |-> sum_i c_i x(n+i) *)
Fixpoint act (P : list K) (x : Z -> K) (n : Z) : K :=
  match P with [] => 0 | c :: P => c * x n + act P x (n + 1) end.

Lemma act_ext P (x y : Z -> K) n :
  (forall m, (n <= m < n + Z.of_nat (length P))%Z -> x m = y m) -> act P x n = act P y n.
Proof.
  revert n. induction P as [|c P IH]; intros n H; cbn [act]; auto.
  rewrite (H n) by (cbn [length]; lia). f_equal. apply IH. intros m Hm. apply H. cbn [length]. lia.
Qed.
Lemma act_add P (x y : Z -> K) n : act P (fun m => x m + y m) n = act P x n + act P y n.
Proof. revert n; induction P as [|c P IH]; intros n; cbn [act]; [ring|]. rewrite IH. ring. Qed.
Lemma act_sub P (x y : Z -> K) n : act P (fun m => x m - y m) n = act P x n - act P y n.
Proof. revert n; induction P as [|c P IH]; intros n; cbn [act]; [ring|]. rewrite IH. ring. Qed.
Lemma act_scal P c (x : Z -> K) n : act P (fun m => c * x m) n = c * act P x n.
Proof. revert n; induction P as [|d P IH]; intros n; cbn [act]; [ring|]. rewrite IH. ring. Qed.
Lemma act_zero P n : act P (fun _ => 0) n = 0.
Proof. revert n; induction P as [|d P IH]; intros n; cbn [act]; [ring|]. rewrite IH. ring. Qed.
Lemma act_bsum P m (x : nat -> Z -> K) n :
  act P (fun t => bsum m (fun i => x i t)) n = bsum m (fun i => act P (x i) n).
Proof. induction m as [|m IH]; cbn [bsum]; [apply act_zero|]. rewrite act_add, IH. reflexivity. Qed.
Lemma act_padd P Q (x : Z -> K) n : act (padd P Q) x n = act P x n + act Q x n.
Proof.
  revert Q n. induction P as [|c P IH]; intros [|d Q] n; cbn [padd act]; try ring. rewrite IH. ring.
Qed.
Lemma act_pscal c P (x : Z -> K) n : act (pscal c P) x n = c * act P x n.
Proof. revert n; induction P as [|d P IH]; intros n; cbn [pscal map act]; [ring|]. 
  unfold pscal in IH. rewrite IH. ring. Qed.
Lemma act_pmul P Q (x : Z -> K) n : act (pmul P Q) x n = act P (act Q x) n.
Proof.
  revert n. induction P as [|c P IH]; intros n; cbn [pmul act]; [reflexivity|].
  rewrite act_padd, act_pscal. cbn [act]. rewrite IH. ring.
Qed.
Lemma act_shift P (x : Z -> K) n d : act P (fun m => x (m + d)%Z) n = act P x (n + d)%Z.
Proof.
  revert n; induction P as [|c P IH]; intros n; cbn [act]; auto. rewrite IH. do 2 f_equal. lia.
Qed.
Lemma act_comm P Q (x : Z -> K) n : act P (act Q x) n = act Q (act P x) n.
Proof.
  revert n. induction P as [|c P IH]; intros n; cbn [act].
  - now rewrite act_zero.
  - rewrite act_add, act_scal, IH. f_equal.
    rewrite <- (act_shift Q (act P x) n 1). reflexivity.
Qed.
Lemma act_app P Q (x : Z -> K) n : act (P ++ Q) x n = act P x n + act Q x (n + Z.of_nat (length P)).
Proof.
  revert n; induction P as [|c P IH]; intros n; cbn [app act length].
  - replace (n + Z.of_nat 0)%Z with n by lia. ring.
  - rewrite IH. replace (n + 1 + Z.of_nat (length P))%Z with (n + Z.of_nat (S (length P)))%Z by lia. ring.
Qed.
Lemma act_bsum_form P (x : Z -> K) n :
  act P x n = bsum (length P) (fun i => nth i P 0 * x (n + Z.of_nat i)%Z).
Proof.
  revert n; induction P as [|c P IH]; intros n; cbn [act length]; auto.
  rewrite bsum_first, IH. cbn [nth]. replace (n + Z.of_nat 0)%Z with n by lia. f_equal.
  apply bsum_ext. intros i Hi. cbn [nth]. do 2 f_equal. lia.
Qed.

(** The characteristic polynomial y^k - a_1 y^(k-1) - ... - a_k. *)
Definition charpoly (a : list K) : list K := map fopp (rev a) ++ [1].
Lemma charpoly_length a : length (charpoly a) = S (length a).
Proof. unfold charpoly. rewrite app_length, map_length, rev_length. cbn. lia. Qed.

Lemma act_charpoly a (x : Z -> K) n :
  act (charpoly a) x (n - Z.of_nat (length a)) = x n - lincomb a x n.
Proof.
  unfold charpoly. rewrite act_app, map_length, rev_length. cbn [act].
  replace (n - Z.of_nat (length a) + Z.of_nat (length a))%Z with n by lia.
  rewrite act_bsum_form, map_length, rev_length. unfold lincomb.
  rewrite (bsum_rev (length a) (fun j => nth j a 0 * _)).
  assert (E : bsum (length a) (fun i => nth i (map fopp (rev a)) 0 * x (n - Z.of_nat (length a) + Z.of_nat i)%Z)
    = - bsum (length a) (fun i => nth (length a - 1 - i) a 0 * x (n - 1 - Z.of_nat (length a - 1 - i))%Z)).
  { rewrite <- bsum_opp. apply bsum_ext. intros i Hi.
    rewrite (nth_indep _ 0 (fopp 0)) by (rewrite map_length, rev_length; auto).
    rewrite map_nth, rev_nth by auto.
    replace (length a - S i)%nat with (length a - 1 - i)%nat by lia.
    replace (n - 1 - Z.of_nat (length a - 1 - i))%Z with (n - Z.of_nat (length a) + Z.of_nat i)%Z by lia.
    ring. }
  rewrite E. ring.
Qed.

(** act depends only on the polynomial function. *)
Lemma act_peval_eq P Q (x : Z -> K) n : (forall y, peval P y = peval Q y) -> act P x n = act Q x n.
Proof.
  intros H.
  assert (A : allzero (padd P (pscal (- (1)) Q))).
  { apply pevals_zero_allzero. intros y. rewrite peval_padd, peval_pscal, H. ring. }
  assert (B : forall R, allzero R -> forall m, act R x m = 0).
  { intros R HR. induction HR as [|c R Hc HR IH]; intros m; cbn [act]; auto. rewrite Hc, IH. ring. }
  specialize (B _ A n). rewrite act_padd, act_pscal in B. apply sub_eq0. rewrite <- B. ring.
Qed.

(** * Exponential polynomials  q(n) b^n *)
Definition ep (b : K) (q : list K) (n : Z) : K := peval q (ofz n) * zpow b n.

Lemma ep_padd b p q n : ep b (padd p q) n = ep b p n + ep b q n.
Proof. unfold ep. rewrite peval_padd. ring. Qed.
Lemma ep_pscal b c q n : ep b (pscal c q) n = c * ep b q n.
Proof. unfold ep. rewrite peval_pscal. ring. Qed.
Lemma ep_nil b n : ep b [] n = 0.
Proof. unfold ep. cbn [peval]. ring. Qed.

(** Forward difference of a polynomial: q(x+1) - q(x), one coefficient shorter. *)
Fixpoint fdiff (p : list K) : list K :=
  match p with
  | [] => []
  | [_] => []
  | _ :: p' => padd (0 :: fdiff p') (padd (fdiff p') p')
  end.
Lemma peval_fdiff p x : peval (fdiff p) x = peval p (x + 1) - peval p x.
Proof.
  induction p as [|c p IH]; cbn [fdiff peval]; [ring|].
  destruct p as [|d p]; [cbn [peval]; ring|].
  rewrite !peval_padd. cbn [peval] in *. rewrite IH. ring.
Qed.
Lemma fdiff_length p : length (fdiff p) = pred (length p).
Proof.
  induction p as [|c p IH]; cbn [fdiff]; auto. destruct p as [|d p]; auto.
  rewrite !length_padd. cbn [length] in *. rewrite IH. lia.
Qed.

(** (y - mu) acting on q(n) b^n. *)
Definition estep (b mu : K) (q : list K) : list K := padd (pscal (b - mu) q) (pscal b (fdiff q)).
Lemma act_estep b mu q n : b <> 0 -> act [- mu; 1] (ep b q) n = ep b (estep b mu q) n.
Proof.
  intros Hb. cbn [act]. unfold ep, estep. rewrite peval_padd, !peval_pscal, peval_fdiff.
  rewrite zpow_succ by auto. rewrite ofz_add, ofz_1. ring.
Qed.

(** Solvability of (y - mu) . q b^n = p b^n. *)
Lemma estep_other b mu p : b <> 0 -> b <> mu -> exists q, length q = length p /\ forall x, peval (estep b mu q) x = peval p x.
Proof.
  intros Hb Hm. remember (length p) as m eqn:E. revert p E. induction m as [|m IH]; intros p E.
  - destruct p; try discriminate. exists []. split; auto.
  - destruct (exists_last (l := p)) as (p' & c & Hp); [intros ->; discriminate|]. subst p.
    rewrite app_length in E. cbn [length] in E.
    (* leading part c x^m / (b - mu), the rest has length m *)
    pose (l := repeat (0 : K) m ++ [c / (b - mu)]).
    assert (Ll : length l = S m) by (unfold l; rewrite app_length, repeat_length; cbn; lia).
    assert (Pl : forall x, peval l x = x ^ m * (c / (b - mu))).
    { intros x. unfold l. rewrite peval_app, repeat_length. cbn [peval].
      rewrite peval_allzero; [ring|]. apply Forall_forall. intros y Hy. now apply repeat_spec in Hy. }
    destruct (IH (padd p' (pscal (- b) (fdiff l)))) as (q & Lq & Hq).
    { rewrite length_padd, length_pscal, fdiff_length, Ll. cbn. lia. }
    exists (padd q l). split; [rewrite length_padd; lia|].
    intros x. unfold estep in *. specialize (Hq x).
    rewrite peval_padd, !peval_pscal, peval_fdiff in *.
    rewrite !peval_padd, peval_pscal, peval_fdiff in *. rewrite peval_app. cbn [peval].
    replace (length p') with m by lia. 
    assert (F : (b - mu) * peval l x = x ^ m * c).
    { rewrite Pl. field. apply sub_neq0; auto. }
    transitivity ((b - mu) * peval q x + b * (peval q (x + 1) - peval q x)
      + (b - mu) * peval l x + b * (peval l (x + 1) - peval l x)); [ring|].
    rewrite Hq, F. ring.
Qed.

(** antidifference: one coefficient longer, zero constant term *)
Lemma fdiff_onto p : exists q, length q = length p /\ forall x, peval (fdiff (0 :: q)) x = peval p x.
Proof.
  remember (length p) as m eqn:E. revert p E. induction m as [|m IH]; intros p E.
  - destruct p; try discriminate. exists []. split; auto.
  - destruct (exists_last (l := p)) as (p' & c & Hp); [intros ->; discriminate|]. subst p.
    rewrite app_length in E. cbn [length] in E.
    (* x^(m+1) * c/(m+1) has difference c x^m + lower *)
    pose (l := repeat (0 : K) m ++ [c / ofn (S m)]).
    assert (Ll : length l = S m) by (unfold l; rewrite app_length, repeat_length; cbn; lia).
    assert (Pl : forall x, peval (0 :: l) x = x ^ S m * (c / ofn (S m))).
    { intros x. unfold l. cbn [peval]. rewrite peval_app, repeat_length. cbn [peval].
      rewrite peval_allzero; [rewrite fpow_S; ring|]. apply Forall_forall. intros y Hy. now apply repeat_spec in Hy. }
    (* fdiff (0::l) = r ++ [c] as function, with r of length m *)
    assert (exists r, length r = m /\ forall x, peval (fdiff (0 :: l)) x = peval r x + x ^ m * c) as (r & Lr & Hr).
    { clear - Pl.
      assert (G : forall j, exists r, length r = j /\ forall x : K, (x + 1) ^ S j - x ^ S j = peval r x + x ^ j * ofn (S j)).
      { induction j as [|j (r & Lr & Hr)].
        - exists []. split; auto. intros x. cbn [fpow peval]. rewrite ofn_1. ring.
        - exists (padd (0 :: r) (padd r (repeat 0 j ++ [ofn (S j)]))). split.
          + rewrite !length_padd, app_length, repeat_length. cbn [length]. lia.
          + intros x. rewrite !peval_padd, peval_app, repeat_length. cbn [peval].
            rewrite (peval_allzero (repeat _ _)).
            2:{ apply Forall_forall. intros y Hy. now apply repeat_spec in Hy. }
            specialize (Hr x). rewrite !fpow_S in *. rewrite (ofn_S (S j)).
            assert (H : (x + 1) * (x + 1) ^ j = peval r x + x ^ j * ofn (S j) + x * x ^ j) by (rewrite <- Hr; ring).
            rewrite H. ring. }
      destruct (G m) as (r & Lr & Hr).
      exists (pscal (c / ofn (S m)) r). split; [now rewrite length_pscal|].
      intros x. rewrite peval_fdiff, !Pl, peval_pscal.
      transitivity (((x + 1) ^ S m - x ^ S m) * (c / ofn (S m))); [ring|]. rewrite Hr.
      field. apply ofn_neq0. }
    destruct (IH (padd p' (pscal (- (1)) r))) as (q & Lq & Hq).
    { rewrite length_padd, length_pscal. lia. }
    exists (padd q l). split; [rewrite length_padd; lia|].
    intros x. specialize (Hq x). rewrite peval_padd, peval_pscal, peval_fdiff in Hq.
    pose proof (Hr x) as Hx. rewrite peval_fdiff in Hx. rewrite peval_fdiff.
    cbn [peval] in *. rewrite !peval_padd, peval_app. cbn [peval].
    replace (length p') with m by lia.
    transitivity ((0 + (x + 1) * peval q (x + 1) - (0 + x * peval q x)) +
       (0 + (x + 1) * peval l (x + 1) - (0 + x * peval l x))); [ring|].
    rewrite Hq, Hx. ring.
Qed.

(** Repeated roots list -> operator. *)
Fixpoint rootpoly (rs : list K) : list K :=
  match rs with [] => [1] | r :: rs => pmul [- r; 1] (rootpoly rs) end.
Lemma peval_rootpoly rs y : peval (rootpoly rs) y = fold_right (fun r acc => (y - r) * acc) 1 rs.
Proof. induction rs as [|r rs IH]; cbn [rootpoly fold_right]; [cbn [peval]; ring|]. rewrite peval_pmul, IH. cbn [peval]. ring. Qed.

Definition cnt (b : K) (rs : list K) : nat := length (filter (feqb b) rs).

(** The operator prod (y - r) maps q b^n onto every p b^n; q needs cnt b rs more coefficients,
    which can be taken to have [cnt b rs] zero low coefficients. *)
Lemma rootpoly_onto b rs p : b <> 0 ->
  exists q, length q = (length p + cnt b rs)%nat /\
    forall n, act (rootpoly rs) (ep b q) n = ep b p n.
Proof.
  intros Hb. revert p. induction rs as [|r rs IH]; intros p.
  - exists p. split; [unfold cnt; cbn; lia|]. intros n. cbn [rootpoly act]. ring.
  - unfold cnt. cbn [filter]. destruct (feqb b r) eqn:E.
    + apply feqb_eq in E. subst r. destruct (fdiff_onto p) as (q1 & L1 & H1).
      destruct (IH (pscal (/ b) (0 :: q1))) as (q & Lq & Hq).
      exists q. rewrite length_pscal in Lq. cbn [length] in *. unfold cnt in Lq. split; [lia|].
      intros n. cbn [rootpoly]. rewrite act_pmul.
      rewrite (act_ext _ _ (ep b (pscal (/ b) (0 :: q1)))) by (intros; apply Hq).
      rewrite act_estep by auto. unfold ep, estep. f_equal.
      rewrite peval_padd, !peval_pscal. rewrite peval_fdiff, !peval_pscal.
      transitivity (b * / b * peval (fdiff (0 :: q1)) (ofz n)); [rewrite peval_fdiff; ring|].
      rewrite H1. field; auto.
    + apply feqb_neq in E. destruct (estep_other b r p Hb E) as (q1 & L1 & H1).
      destruct (IH q1) as (q & Lq & Hq). exists q. unfold cnt in Lq. split; [lia|].
      intros n. cbn [rootpoly]. rewrite act_pmul.
      rewrite (act_ext _ _ (ep b q1)) by (intros; apply Hq).
      rewrite act_estep by auto. unfold ep. now rewrite H1.
Qed.

(** q(n) b^n with fewer than cnt b rs coefficients is annihilated. *)
Lemma rootpoly_kill b rs q : b <> 0 -> (length q <= cnt b rs)%nat ->
  forall n, act (rootpoly rs) (ep b q) n = 0.
Proof.
  intros Hb. revert q. induction rs as [|r rs IH]; intros q L n.
  - unfold cnt in L. cbn in L. destruct q; cbn [length] in L; [|lia].
    cbn [rootpoly act]. rewrite ep_nil. ring.
  - cbn [rootpoly]. rewrite act_pmul, act_comm.
    rewrite (act_ext _ _ (ep b (estep b r q))) by (intros; now apply act_estep).
    unfold cnt in L. cbn [filter] in L. destruct (feqb b r) eqn:E.
    + apply feqb_eq in E. subst r. 
      rewrite (act_ext _ _ (ep b (pscal b (fdiff q)))).
      * apply IH. rewrite length_pscal, fdiff_length. cbn [length] in L. unfold cnt. lia.
      * intros m _. unfold ep, estep. rewrite peval_padd, !peval_pscal. ring.
    + apply IH. unfold estep. rewrite length_padd, !length_pscal, fdiff_length. unfold cnt. lia.
Qed.
End S.
