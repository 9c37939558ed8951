(** Reading MathML back: different expressions are written differently. *)
From Coq Require Import List String Ascii Bool Arith Lia.
From Verif Require Import MmlSpec MmlModel MmlProofs.
Import ListNotations.
Local Open Scope string_scope.
Set Bullet Behavior "Strict Subproofs".

Lemma strip_app a b : without_blanks (a ++ b) = without_blanks a ++ without_blanks b.
Proof. induction a as [|c a IH]; cbn; [reflexivity|]. rewrite IH. now destruct (is_blank c). Qed.
Lemma strip_visible s : every visible s -> without_blanks s = s.
Proof. induction s as [|c s IH]; cbn; [reflexivity|]. intros [H1 H2]. unfold visible in H1. rewrite H1, IH; auto. Qed.
Lemma app_same w u v : w ++ u = w ++ v -> u = v.
Proof. induction w as [|c w IH]; cbn [append]; intros E; [exact E|]. injection E as E. auto. Qed.
Lemma cut a a' r r' : every plain a -> every plain a' -> a ++ String "<" r = a' ++ String "<" r' -> a = a' /\ r = r'.
Proof.
  revert a'. induction a as [|c a IH]; intros [|c' a'] Ha Ha' E; cbn [append every] in *.
  - injection E as E. auto.
  - injection E as E1 _. exfalso. destruct Ha' as [[H _] _]. congruence.
  - injection E as E1 _. exfalso. destruct Ha as [[H _] _]. congruence.
  - injection E as E1 E2. destruct (IH a' (proj2 Ha) (proj2 Ha') E2) as [H1 H2]. subst. auto.
Qed.

Definition spr (t : tree) : string := without_blanks (mathml_print t).
Definition sunit (t : tree) : string := if (1 <? nops t)%nat then "<mfenced>" ++ spr t ++ "</mfenced>" else spr t.
Fixpoint conc (l : list tree) : string := match l with [] => "" | a :: l => sunit a ++ conc l end.
Fixpoint tail (sep : string) (l : list tree) : string := match l with [] => "" | a :: l => sep ++ sunit a ++ tail sep l end.
Lemma strip_unit t : without_blanks (unit t) = sunit t.
Proof.
  unfold unit, fence, sunit, spr. destruct (1 <? nops t)%nat; [|reflexivity]. rewrite !strip_app. reflexivity.
Qed.
Lemma strip_join0 l : without_blanks (join "" (map unit l)) = conc l.
Proof.
  induction l as [|a l IH]; [reflexivity|]. destruct l as [|b l].
  - cbn [map join conc]. now rewrite strip_unit, sapp_nil.
  - change (join "" (map unit (a :: b :: l))) with (unit a ++ "" ++ join "" (map unit (b :: l))).
    rewrite strip_app, strip_unit. cbn [append]. rewrite IH. reflexivity.
Qed.
Lemma strip_join sep a l : without_blanks sep = sep -> without_blanks (join sep (map unit (a :: l))) = sunit a ++ tail sep l.
Proof.
  intros Hs. revert a. induction l as [|b l IH]; intros a.
  - cbn [map join tail]. now rewrite strip_unit, sapp_nil.
  - change (join sep (map unit (a :: b :: l))) with (unit a ++ sep ++ join sep (map unit (b :: l))).
    rewrite !strip_app, strip_unit, Hs, IH. reflexivity.
Qed.

Lemma spr_function n a l : every visible n -> spr (Function n (a :: l)) = "<mi>" ++ n ++ "</mi>" ++ conc (a :: l).
Proof. intros H. unfold spr. rewrite print_function, !strip_app, (strip_visible n H), strip_join0. cbn [without_blanks newline]. cbn. now rewrite sapp_nil. Qed.
Lemma spr_integer n : every visible n -> spr (Integer n) = "<mn>" ++ n ++ "</mn>".
Proof. intros H. unfold spr. change (mathml_print (Integer n)) with ("<mn>" ++ n ++ "</mn>" ++ newline). rewrite !strip_app, (strip_visible n H). reflexivity. Qed.
Lemma spr_symbol n : every visible n -> spr (Symbol n) = "<mi>" ++ n ++ "</mi>".
Proof. intros H. unfold spr. change (mathml_print (Symbol n)) with ("<mi>" ++ n ++ "</mi>" ++ newline). rewrite !strip_app, (strip_visible n H). reflexivity. Qed.
Lemma spr_fraction a b : every visible a -> every visible b -> spr (Fraction a b) = "<mfrac><mn>" ++ a ++ "</mn><mn>" ++ b ++ "</mn></mfrac>".
Proof. intros H1 H2. unfold spr. rewrite print_fraction, !strip_app, (strip_visible a H1), (strip_visible b H2). reflexivity. Qed.
Lemma spr_sum a l : spr (Sum (a :: l)) = "<mrow>" ++ sunit a ++ tail "<mo>+</mo>" l ++ "</mrow>".
Proof.
  unfold spr. rewrite print_sum. rewrite (strip_app "<mrow>"), strip_app, (strip_join "<mo>+</mo>" a l eq_refl), sapp. reflexivity.
Qed.
Lemma spr_product a l : spr (Product (a :: l)) = "<mrow>" ++ sunit a ++ tail "<mo>*</mo>" l ++ "</mrow>".
Proof.
  unfold spr. rewrite print_product. rewrite (strip_app "<mrow>"), strip_app, (strip_join "<mo>*</mo>" a l eq_refl), sapp. reflexivity.
Qed.
Lemma spr_power a b : spr (Power a b) = "<msup><mrow>" ++ sunit a ++ "</mrow><mrow>" ++ sunit b ++ "</mrow></msup>".
Proof. unfold spr. rewrite print_power, !strip_app, !strip_unit. reflexivity. Qed.

Section Read.
Variables f s : string -> Prop.
Hypothesis apart : forall n, f n -> s n -> False.
Definition ok (t : tree) : Prop := exact f s t /\ texts visible_text t.
Definition U (t : tree) : Prop := forall t' r r', ok t' -> sunit t ++ r = sunit t' ++ r' -> t = t' /\ r = r'.
Definition W (t : tree) : Prop := forall t' r r', ok t' -> spr t ++ "</" ++ r = spr t' ++ "</" ++ r' -> t = t' /\ r = r'.

(** How a piece starts. *)
Lemma unit_head t : ok t -> exists c r, sunit t = String "<" (String "m" (String c r)) /\ (c = "i" \/ c = "n" \/ c = "f")%char.
Proof.
  intros [HE HT]. unfold sunit. destruct (1 <? nops t)%nat eqn:N.
  - exists "f"%char. eexists. split; [reflexivity|auto].
  - destruct HE; inversion HT; subst; cbn in N; try discriminate.
    + destruct l as [|a [|b l]]; try congruence; try discriminate. destruct H4 as [_ V]. rewrite (spr_function n a [] V). exists "i"%char. eexists. split; [reflexivity|auto].
    + destruct H0 as [_ V]. rewrite (spr_integer t V). exists "n"%char. eexists. split; [reflexivity|auto].
    + destruct H1 as [_ V], H2 as [_ V2]. rewrite (spr_fraction a b V V2). exists "f"%char. eexists. split; [reflexivity|auto].
    + destruct H1 as [_ V]. rewrite (spr_symbol n V). exists "i"%char. eexists. split; [reflexivity|auto].
Qed.
Lemma conc_read l : Forall U l -> Forall ok l -> forall l' r r', Forall ok l' -> conc l ++ "</" ++ r = conc l' ++ "</" ++ r' -> l = l' /\ r = r'.
Proof.
  induction 1 as [|a l Ua _ IH]; intros Hok0 [|a' l'] r r' Hok E; cbn [conc] in E.
  - cbn [append] in E. injection E as E. auto.
  - inversion Hok; subst. destruct (unit_head a' H1) as (c & w & Es & _). rewrite Es in E. cbn [append] in E. discriminate E.
  - inversion Hok0; subst. destruct (unit_head a H1) as (c & w & Es & _). rewrite Es in E. cbn [append] in E. discriminate E.
  - inversion Hok; subst. inversion Hok0; subst. rewrite !sapp in E. destruct (Ua a' _ _ H1 E) as [<- E2]. destruct (IH H4 l' r r' H2 E2) as [<- <-]. auto.
Qed.
Lemma tail_read sep l : (exists w, sep = String "<" (String "m" w)) -> Forall U l -> forall l' r r', Forall ok l' -> tail sep l ++ "</" ++ r = tail sep l' ++ "</" ++ r' -> l = l' /\ r = r'.
Proof.
  intros [w Hw]. induction 1 as [|a l Ua _ IH]; intros [|a' l'] r r' Hok E; cbn [tail] in E.
  - cbn [append] in E. injection E as E. auto.
  - rewrite Hw in E. cbn [append] in E. discriminate E.
  - rewrite Hw in E. cbn [append] in E. discriminate E.
  - pose proof (Forall_inv Hok) as H1. pose proof (Forall_inv_tail Hok) as H2. rewrite !sapp in E. apply app_same in E. rename E into E3.
    destruct (Ua a' _ _ H1 E3) as [<- E2]. destruct (IH l' r r' H2 E2) as [<- <-]. auto.
Qed.
Lemma ok_function n l : ok (Function n l) -> f n /\ every plain n /\ every visible n /\ l <> [] /\ Forall ok l.
Proof.
  intros [HE HT]. inversion HE; inversion HT; subst. match goal with H : visible_text n |- _ => destruct H as [P1 P2] end. split; [assumption|]. split; [assumption|]. split; [assumption|]. split; [assumption|].
  rewrite Forall_forall in *. intros u Hu. split; auto.
Qed.
Lemma ok_sum l : ok (Sum l) -> (exists a b m, l = a :: b :: m) /\ Forall ok l.
Proof. intros [HE HT]. inversion HE; inversion HT; subst. split; [eauto|]. rewrite Forall_forall in *. intros u Hu. split; auto. Qed.
Lemma ok_product l : ok (Product l) -> (exists a b m, l = a :: b :: m) /\ Forall ok l.
Proof. intros [HE HT]. inversion HE; inversion HT; subst. split; [eauto|]. rewrite Forall_forall in *. intros u Hu. split; auto. Qed.
Lemma ok_power a b : ok (Power a b) -> ok a /\ ok b.
Proof. intros [HE HT]. inversion HE; inversion HT; subst. split; split; assumption. Qed.
Lemma ok_symbol n : ok (Symbol n) -> s n /\ every plain n /\ every visible n.
Proof. intros [HE HT]. inversion HE; inversion HT; subst. match goal with H : visible_text n |- _ => destruct H as [P1 P2] end. auto. Qed.
Lemma ok_integer n : ok (Integer n) -> every plain n /\ every visible n.
Proof. intros [HE HT]. inversion HT; subst. assumption. Qed.
Lemma ok_fraction a b : ok (Fraction a b) -> (every plain a /\ every visible a) /\ (every plain b /\ every visible b).
Proof. intros [HE HT]. inversion HT; subst. split; assumption. Qed.
Ltac unpack H := match type of H with
  | ok (Function _ _) => apply ok_function in H; destruct H as (? & ? & ? & ? & ?)
  | ok (Sum _) => apply ok_sum in H; destruct H as [(? & ? & ? & ->) H]
  | ok (Product _) => apply ok_product in H; destruct H as [(? & ? & ? & ->) H]
  | ok (Power _ _) => apply ok_power in H; destruct H
  | ok (Symbol _) => apply ok_symbol in H; destruct H as (? & ? & ?)
  | ok (Integer _) => apply ok_integer in H; destruct H as (? & ?)
  | ok (Fraction _ _) => apply ok_fraction in H; destruct H as [[? ?] [? ?]]
  | ok (Decimal _) => destruct H as [H _]; inversion H
  | ok (Constant _ _) => destruct H as [H _]; inversion H
  end.
(** What is left after the fixed text. *)
Lemma mi_mi n n' r r' : every plain n -> every plain n' -> n ++ "</mi>" ++ r = n' ++ "</mi>" ++ r' -> n = n' /\ r = r'.
Proof. intros P P' E. cbn [append] in E. destruct (cut n n' _ _ P P' E) as [-> E2]. injection E2 as E2. auto. Qed.
Lemma mn_mn n n' r r' : every plain n -> every plain n' -> n ++ "</mn>" ++ r = n' ++ "</mn>" ++ r' -> n = n' /\ r = r'.
Proof. intros P P' E. cbn [append] in E. destruct (cut n n' _ _ P P' E) as [-> E2]. injection E2 as E2. auto. Qed.
Ltac spell := repeat match goal with
  | H : every visible ?n |- context [spr (Symbol ?n)] => rewrite (spr_symbol n H)
  | H : every visible ?n |- context [spr (Integer ?n)] => rewrite (spr_integer n H)
  | H : every visible ?n |- context [spr (Function ?n (?a :: ?l))] => rewrite (spr_function n a l H)
  | H : every visible ?a, H' : every visible ?b |- context [spr (Fraction ?a ?b)] => rewrite (spr_fraction a b H H')
  | |- context [spr (Sum (?a :: ?l))] => rewrite (spr_sum a l)
  | |- context [spr (Product (?a :: ?l))] => rewrite (spr_product a l)
  | |- context [spr (Power ?a ?b)] => rewrite (spr_power a b)
  end.
Ltac strip E := rewrite ?sapp in E; cbn [append] in E; try discriminate E; injection E as E.
Lemma fenced t : (1 <? nops t)%nat = true -> W t -> U t.
Proof.
  intros N Wt t' r r' Hok'. unfold sunit. rewrite N. destruct (1 <? nops t')%nat eqn:N'.
  - intros E. strip E. destruct (Wt t' _ _ Hok' E) as [<- E2]. cbn [append] in E2. injection E2 as E2. auto.
  - destruct t' as [n' l'|n'|a' b'|n'|n'|l'|l'|a' b'|c' n']; cbn in N'; try discriminate N'; unpack Hok'; cbn in N'; try discriminate N'.
    all: try (destruct l' as [|a' l']; [congruence|]); spell; intros E; strip E.
Qed.
Ltac others := match goal with Hok' : ok ?t' |- _ => destruct t' as [n' l'|n'|a' b'|n'|n'|l'|l'|a' b'|c' n']; unpack Hok' end;
  try match goal with H : ?l' <> [] |- context [spr (Function _ ?l')] => destruct l' as [|a' l']; [congruence|] end.
Lemma reads t : ok t -> W t /\ U t.
Proof.
  induction t as [n l IH|n|a b|n|n|l IH|l IH|a b IHa IHb|c n] using tree_induction; intros Hok; unpack Hok.
  - assert (HU : Forall U l) by (rewrite Forall_forall in *; intros u Hu; exact (proj2 (IH u Hu (H3 u Hu)))).
    destruct l as [|a l]; [congruence|].
    assert (Wt : W (Function n (a :: l))).
    { intros t' r r' Hok'. others; spell; intros E; strip E.
      - destruct (cut _ _ _ _ H0 H5 E) as [-> E2]. injection E2 as E2.
        destruct (conc_read (a :: l) HU H3 (a' :: l') r r' H8 E2) as [E3 <-]. injection E3 as -> ->. auto.
      - destruct (cut _ _ _ _ H0 H5 E) as [-> _]. exfalso. eauto. }
    split; [exact Wt|]. destruct l as [|b l]; [|apply fenced; [reflexivity|exact Wt]].
    intros t' r r' Hok'. change (sunit (Function n [a])) with (spr (Function n [a])). unfold sunit. destruct (1 <? nops t')%nat eqn:N'.
    + spell. intros E. strip E.
    + destruct t' as [n' l'|n'|a' b'|n'|n'|l'|l'|a' b'|c' n']; cbn in N'; try discriminate N'; unpack Hok'; cbn in N'; try discriminate N'.
      * destruct l' as [|a' [|b' l']]; try congruence; try discriminate N'. spell. intros E. cbn [conc] in E. strip E.
        destruct (cut _ _ _ _ H0 H5 E) as [-> E2]. injection E2 as E2.
        destruct (Forall_inv HU a' r r' (Forall_inv H8) E2) as [<- <-]. auto.
      * spell. intros E. strip E.
      * spell. intros E. strip E.
      * spell. intros E. strip E. destruct (cut _ _ _ _ H0 H5 E) as [-> _]. exfalso. eauto.
  - assert (C : forall t' r r', ok t' -> (1 <? nops t')%nat = false -> spr (Integer n) ++ r = spr t' ++ r' -> Integer n = t' /\ r = r').
    { intros t' r r' Hok' N'. others; try (cbn in N'; discriminate N'); spell; intros E; strip E.
      destruct (mn_mn _ _ _ _ H H1 E) as [-> ->]. auto. }
    split.
    + intros t' r r' Hok' E. destruct (1 <? nops t')%nat eqn:N'.
      * exfalso. revert N' E. others; intros N'; try (cbn in N'; discriminate N'); spell; intros E; strip E.
      * destruct (C t' _ _ Hok' N' E) as [-> E2]. injection E2 as ->. auto.
    + intros t' r r' Hok'. change (sunit (Integer n)) with (spr (Integer n)). unfold sunit. destruct (1 <? nops t')%nat eqn:N'.
      * spell. intros E. strip E.
      * intros E. exact (C t' r r' Hok' N' E).
  - assert (C : forall t' r r', ok t' -> (1 <? nops t')%nat = false -> spr (Fraction a b) ++ r = spr t' ++ r' -> Fraction a b = t' /\ r = r').
    { intros t' r r' Hok' N'. others; try (cbn in N'; discriminate N'); spell; intros E; strip E.
      destruct (cut _ _ _ _ H H3 E) as [-> E2]. injection E2 as E2. destruct (cut _ _ _ _ H1 H5 E2) as [-> E3]. injection E3 as ->. auto. }
    split.
    + intros t' r r' Hok' E. destruct (1 <? nops t')%nat eqn:N'.
      * exfalso. revert N' E. others; intros N'; try (cbn in N'; discriminate N'); spell; intros E; strip E.
      * destruct (C t' _ _ Hok' N' E) as [-> E2]. injection E2 as ->. auto.
    + intros t' r r' Hok'. change (sunit (Fraction a b)) with (spr (Fraction a b)). unfold sunit. destruct (1 <? nops t')%nat eqn:N'.
      * spell. intros E. strip E.
      * intros E. exact (C t' r r' Hok' N' E).
  - assert (Ws : W (Symbol n)).
    { intros t' r r' Hok'. others; spell; intros E; strip E.
      - destruct (cut _ _ _ _ H0 H3 E) as [-> _]. exfalso. eauto.
      - destruct (cut _ _ _ _ H0 H3 E) as [-> E2]. injection E2 as ->. auto. }
    split; [exact Ws|].
    intros t' r r' Hok'. change (sunit (Symbol n)) with (spr (Symbol n)). unfold sunit. destruct (1 <? nops t')%nat eqn:N'.
    + spell. intros E. strip E.
    + revert N'. others; intros N'; try (cbn in N'; discriminate N'); spell; intros E; strip E.
      * destruct (cut _ _ _ _ H0 H3 E) as [-> _]. exfalso. eauto.
      * destruct (cut _ _ _ _ H0 H3 E) as [-> E2]. injection E2 as ->. auto.
  - assert (HU : Forall U (x :: x0 :: x1)) by (rewrite Forall_forall in *; intros u Hu; exact (proj2 (IH u Hu (Hok u Hu)))).
    assert (Wt : W (Sum (x :: x0 :: x1))).
    { intros t' r r' Hok'. others; spell; intros E; strip E.
      - destruct (Forall_inv HU _ _ _ (Forall_inv Hok') E) as [<- E2].
        destruct (tail_read "<mo>+</mo>" (x0 :: x1) ltac:(eexists; reflexivity) (Forall_inv_tail HU) (x3 :: x4) _ _ (Forall_inv_tail Hok') E2) as [E3 E4].
        injection E3 as <- <-. injection E4 as <-. auto.
      - destruct (Forall_inv HU _ _ _ (Forall_inv Hok') E) as [<- E2]. cbn [tail append] in E2. discriminate E2. }
    split; [exact Wt|]. apply fenced; [reflexivity|exact Wt].
  - assert (HU : Forall U (x :: x0 :: x1)) by (rewrite Forall_forall in *; intros u Hu; exact (proj2 (IH u Hu (Hok u Hu)))).
    assert (Wt : W (Product (x :: x0 :: x1))).
    { intros t' r r' Hok'. others; spell; intros E; strip E.
      - destruct (Forall_inv HU _ _ _ (Forall_inv Hok') E) as [<- E2]. cbn [tail append] in E2. discriminate E2.
      - destruct (Forall_inv HU _ _ _ (Forall_inv Hok') E) as [<- E2].
        destruct (tail_read "<mo>*</mo>" (x0 :: x1) ltac:(eexists; reflexivity) (Forall_inv_tail HU) (x3 :: x4) _ _ (Forall_inv_tail Hok') E2) as [E3 E4].
        injection E3 as <- <-. injection E4 as <-. auto. }
    split; [exact Wt|]. apply fenced; [reflexivity|exact Wt].
  - destruct (IHa H) as [_ Ua]. destruct (IHb H0) as [_ Ub].
    assert (Wt : W (Power a b)).
    { intros t' r r' Hok'. others; spell; intros E; strip E.
      destruct (Ua _ _ _ H1 E) as [<- E2]. injection E2 as E2. destruct (Ub _ _ _ H2 E2) as [<- E3]. injection E3 as <-. auto. }
    split; [exact Wt|]. apply fenced; [reflexivity|exact Wt].
Qed.
Lemma readable t t' : ok t -> ok t' -> without_blanks (mathml_output t) = without_blanks (mathml_output t') -> t = t'.
Proof.
  intros H H' E. unfold mathml_output in E. rewrite !strip_app in E.
  apply app_same in E. apply app_same in E.
  change (without_blanks "</math>") with ("</" ++ "math>") in E. rewrite !sapp in E.
  exact (proj1 (proj1 (reads t H) t' _ _ H' E)).
Qed.
End Read.
